(** The four programs on the shipped parameters; a concrete case for the theorems about the main functions. *)
From Coq Require Import Reals String ZArith List Lia Lra Bool.
From Coq.Floats Require Import SpecFloat.
From Verif Require Import Spec Go GoProofs Arith NegRing NTT F64 BasisExt RingOps Maps MapsProofs Params Elements KeySwitch KeySets KeyGen EncDec Evaluator KSProofs Repr KeyGenProofs ParamsSpec SpecKeys SpecCt SpecEnc EncProofs CkEncThms SpecEv SpecRot SpecSlots SlotThms SlotErr Galois LR SpecLR LRProofs LRThms LREval LRShadow LRRel SpecLREnc LREncProofs LREncThms LREncWorld LREncDec LREncLR LRShipped LREncShip LRSetup SpecSetup LRSetupProofs LRSetupThms LRSetupProg LRMain SpecEnc Shipped EvWorld World KeyWitness EvThms.
Import ListNotations.
Local Open Scope Z_scope.

Notation t := (20%nat, sc38).
Notation SO := (scaleOps shippedQ 20 sc38).
Definition levels (x : res ((nat * f64) * (nat * f64) * list nat)) : option (nat * nat) := match x with Ok (((lv, _), (lb, _)), _) => Some (lv, lb) | Panic _ => None end.
Lemma stays_by f n lt : forallb (fun k => match levels (f (S k)) with Some (lv, lb) => (lt <=? lv)%nat && (lt <=? lb)%nat | None => true end) (seq 0 n) = true -> stays f n lt.
Proof.
  intros H k lv sv lb sb log Hk E. rewrite forallb_forall in H. specialize (H k). rewrite E in H. cbn [levels] in H.
  assert (X : (lt <=? lv)%nat && (lt <=? lb)%nat = true) by (apply H, in_seq; lia). apply andb_prop in X as [X1 X2]. apply Nat.leb_le in X1, X2. auto.
Qed.
(** lr.go *)
Lemma tr_lr : train SO (KC 20 sc38 4) (2 ^ 11) (2 ^ 3) 4 t (t, t) [] = Ok ((4%nat, S754_finite false 9007149865596385 (-15)), (4%nat, beta38), repeat 1%nat 52).
Proof. vm_compute. reflexivity. Qed.
Lemma inf_lr : infer SO (KC 20 sc38 4) 7 t (4%nat, beta38) [] = Ok ((1%nat, sc38), repeat 1%nat 4).
Proof. vm_compute. reflexivity. Qed.
Lemma st_lr : stays (fun k => train SO (KC 20 sc38 4) (2 ^ 11) (2 ^ 3) k t (t, t) []) 4 1.
Proof. apply stays_by. vm_compute. reflexivity. Qed.
(** lr_toy.go *)
Lemma tr_toy : train SO (KC 20 sc38 2) (2 ^ 9) (2 ^ 5) 2 t (t, t) [] = Ok ((12%nat, S754_finite false 9007014574901172 (-15)), (12%nat, beta38), repeat 1%nat 26).
Proof. vm_compute. reflexivity. Qed.
Lemma inf_toy : infer SO (KC 20 sc38 2) 20 t (12%nat, beta38) [] = Ok ((9%nat, sc38), repeat 1%nat 4).
Proof. vm_compute. reflexivity. Qed.
Lemma st_toy : stays (fun k => train SO (KC 20 sc38 2) (2 ^ 9) (2 ^ 5) k t (t, t) []) 2 9.
Proof. apply stays_by. vm_compute. reflexivity. Qed.
(** lr_minibatch.go *)
Lemma tr_mini : trainBatch SO (KC 20 sc38 4) (2 ^ 11) (2 ^ 3) (repeat (repeat (t, sc38, repeat sc38 4) 1) 4) 4 (t, t) [] = Ok ((4%nat, S754_finite false 4503667274105103 (-14)), (4%nat, sc38), repeat 1%nat 52).
Proof. vm_compute. reflexivity. Qed.
Lemma inf_mini : infer SO (KC 20 sc38 4) 7 t (4%nat, sc38) [] = Ok ((1%nat, sc38), repeat 1%nat 4).
Proof. vm_compute. reflexivity. Qed.
Lemma st_mini : stays (fun k => trainBatch SO (KC 20 sc38 4) (2 ^ 11) (2 ^ 3) (repeat (repeat (t, sc38, repeat sc38 4) 1) 4) k (t, t) []) 4 1.
Proof. apply stays_by. vm_compute. reflexivity. Qed.
(** lr_minibatch_toy.go *)
Lemma tr_mini_toy : trainBatch SO (KC 20 sc38 4) (2 ^ 9) (2 ^ 5) (repeat (repeat (t, sc38, repeat sc38 4) 1) 4) 3 (t, t) [] = Ok ((8%nat, sc38), (8%nat, sc38), repeat 1%nat 39).
Proof. vm_compute. reflexivity. Qed.
Lemma inf_mini_toy : infer SO (KC 20 sc38 4) 20 t (8%nat, sc38) [] = Ok ((5%nat, S754_finite false 4503707005784917 (-14)), repeat 1%nat 4).
Proof. vm_compute. reflexivity. Qed.
Lemma st_mini_toy : stays (fun k => trainBatch SO (KC 20 sc38 4) (2 ^ 9) (2 ^ 5) (repeat (repeat (t, sc38, repeat sc38 4) 1) 4) k (t, t) []) 3 5.
Proof. apply stays_by. vm_compute. reflexivity. Qed.

Lemma lrRots_ok x : In x lrRots -> 0 < x < Z.of_nat (pa_N shipped) / 2.
Proof.
  assert (E : Z.of_nat (pa_N shipped) / 2 = 16384). { unfold pa_N, shipped, deg. cbn [pa_logN]. rewrite Nat2Z.inj_pow. reflexivity. }
  rewrite E. cbn [In lrRots]. intros H. repeat (destruct H as [<-|H]; [lia|]). destruct H.
Qed.
Section P.
Context (logN : nat) (Q P psiQ psiP : list Z) (sc : f64) (rots : list Z).
Notation pp := (bare logN Q P psiQ psiP).
Notation t0 := (maxLevel pp, sc).
Notation SOp := (scaleOps Q (maxLevel pp) sc).
Context (Hrots : forall x, In x rots -> 0 < x < Z.of_nat (pa_N pp) / 2).
Theorem lr_program_correct toy rr c nf numIter lv sv lb sb lt st log1 log2 :
  logN = S (rr + c) -> (nf <= 2 ^ c)%nat ->
  let trainS k := train SOp (KC (maxLevel pp) sc numIter) (2 ^ Z.of_nat rr) (2 ^ Z.of_nat c) k t0 (t0, t0) [] in
  trainS numIter = Ok (((lv, sv), (lb, sb)), log1) -> infer SOp (KC (maxLevel pp) sc numIter) (Z.of_nat nf) t0 (lb, sb) [] = Ok ((lt, st), log2) -> stays trainS numIter lt ->
  lr_correct pp sc rots toy rr c nf numIter lv sv lb sb lt st log1 log2.
Proof.
  intros HN Hnf trainS ES EI Hst lz u Bs B Dm numCompany encode ee Msg decode HR Hc gamma c0 c1 c3 etas feature label xs Hc3 Ht Hl He Hx. 
  assert (Er : Z.of_nat (2 ^ rr) = 2 ^ Z.of_nat rr) by (now rewrite Nat2Z.inj_pow). assert (Ec : Z.of_nat (2 ^ c) = 2 ^ Z.of_nat c) by (now rewrite Nat2Z.inj_pow).
  pose proof (program_ok logN Q P psiQ psiP sc lz u Bs B Dm rots numCompany (ra_pp _ _ _ _ _ _ _ _ HR) (ra_Bs _ _ _ _ _ _ _ _ HR) (ra_B _ _ _ _ _ _ _ _ HR) (ra_Dm0 _ _ _ _ _ _ _ _ HR) (ra_Dm _ _ _ _ _ _ _ _ HR) (ra_samples _ _ _ _ _ _ _ _ HR) Hrots Hc encode ee (ra_enc _ _ _ _ _ _ _ _ HR) decode
    toy rr c nf numIter gamma c0 c1 c3 etas feature label xs lv sv lb sb lt st log1 log2 HN Hc3 Hnf Ht Hl He Hx) as H.
  cbv zeta in H. rewrite Er, Ec in H. exact (H ES EI Hst).
Qed.
Theorem lr_batch_program_correct sl nf batchSize numTrain ne numIter lv sv lb sb lt st log1 log2 :
  let c := Nat.log2_up nf in
  logN = S sl -> (c <= sl)%nat -> (0 < batchSize <= numTrain)%nat -> (batchSize < 2 ^ (sl - c))%nat \/ Nat.divide (2 ^ (sl - c)) batchSize -> (numIter <= ne)%nat ->
  let trainS k := trainBatch SOp (KC (maxLevel pp) sc ne) (2 ^ Z.of_nat (sl - c)) (2 ^ Z.of_nat c) (repeat (repeat (t0, sc, repeat sc ne) (numCtPerBatch (2 ^ sl) nf batchSize)) (numTrain / batchSize)) k (t0, t0) [] in
  trainS numIter = Ok (((lv, sv), (lb, sb)), log1) -> infer SOp (KC (maxLevel pp) sc ne) (Z.of_nat nf) t0 (lb, sb) [] = Ok ((lt, st), log2) -> stays trainS numIter lt ->
  lr_batch_correct pp sc rots sl c nf batchSize numTrain ne numIter lv sv lb sb lt st log1 log2.
Proof.
  intros c HN Hcs Hb Hd Hi trainS ES EI Hst lz u Bs B Dm numCompany encode ee Msg decode HR Hc gn c0 c1 c3 etas feature label xs Hc3 Ht Hl He Hx. 
  assert (Er : Z.of_nat (2 ^ (sl - c)) = 2 ^ Z.of_nat (sl - c)) by (now rewrite Nat2Z.inj_pow). assert (Ec : Z.of_nat (2 ^ c) = 2 ^ Z.of_nat c) by (now rewrite Nat2Z.inj_pow).
  pose proof (program_batch_ok logN Q P psiQ psiP sc lz u Bs B Dm rots numCompany (ra_pp _ _ _ _ _ _ _ _ HR) (ra_Bs _ _ _ _ _ _ _ _ HR) (ra_B _ _ _ _ _ _ _ _ HR) (ra_Dm0 _ _ _ _ _ _ _ _ HR) (ra_Dm _ _ _ _ _ _ _ _ HR) (ra_samples _ _ _ _ _ _ _ _ HR) Hrots Hc encode ee (ra_enc _ _ _ _ _ _ _ _ HR) decode
    sl nf batchSize numTrain ne numIter gn c0 c1 c3 etas feature label xs lv sv lb sb lt st log1 log2) as H.
  cbv zeta in H. fold c in H. specialize (H HN Hc3 Hcs Hb Hd Ht Hl He Hi Hx). rewrite Er, Ec in H. exact (H ES EI Hst).
Qed.
End P.
(** lr.go *)
Theorem lr_go : lr_correct shipped sc38 lrRots false 11 3 7 4 4 (S754_finite false 9007149865596385 (-15)) 4 beta38 1 sc38 (repeat 1%nat 52) (repeat 1%nat 4).
Proof. apply (lr_program_correct 15 shippedQ shippedP shipped_psiQ shipped_psiP sc38 lrRots lrRots_ok); [reflexivity|cbn; lia|exact tr_lr|exact inf_lr|exact st_lr]. Qed.
(** lr_toy.go *)
Theorem lr_toy_go : lr_correct shipped sc38 lrRots true 9 5 20 2 12 (S754_finite false 9007014574901172 (-15)) 12 beta38 9 sc38 (repeat 1%nat 26) (repeat 1%nat 4).
Proof. apply (lr_program_correct 15 shippedQ shippedP shipped_psiQ shipped_psiP sc38 lrRots lrRots_ok); [reflexivity|cbn; lia|exact tr_toy|exact inf_toy|exact st_toy]. Qed.
(** lr_minibatch.go *)
Lemma num_ct nf b sl : (b < 2 ^ (sl - Nat.log2_up nf))%nat -> (0 < b)%nat -> numCtPerBatch (2 ^ sl) nf b = 1%nat.
Proof.
  intros Hb H0. assert (Hs : (0 <= sl)%nat) by lia. unfold numCtPerBatch, numDataPerCt. rewrite Nat.log2_pow2 by lia. set (d := (2 ^ (sl - Nat.log2_up nf))%nat) in *. symmetry. apply (Nat.div_unique _ d 1 (b - 1)); lia.
Qed.
Theorem lr_minibatch_go : lr_batch_correct shipped sc38 lrRots 14 3 7 (2 ^ 9) (2 ^ 11) 4 4 4 (S754_finite false 4503667274105103 (-14)) 4 sc38 1 sc38 (repeat 1%nat 52) (repeat 1%nat 4).
Proof.
  assert (Eb : (2 ^ 11 = 4 * 2 ^ 9)%nat) by (change 11%nat with (2 + 9)%nat at 1; now rewrite Nat.pow_add_r).
  assert (Pb : (0 < 2 ^ 9)%nat) by (apply Nat.neq_0_lt_0, Nat.pow_nonzero; lia).
  assert (Ed : (2 ^ 11 / 2 ^ 9 = 4)%nat) by (rewrite Eb; apply Nat.div_mul; lia).
  assert (Hlt : (2 ^ 9 < 2 ^ (14 - Nat.log2_up 7))%nat) by (apply Nat.pow_lt_mono_r; [lia|cbn; lia]).
  apply (lr_batch_program_correct 15 shippedQ shippedP shipped_psiQ shipped_psiP sc38 lrRots lrRots_ok 14 7); [reflexivity|cbn; lia|lia|left; exact Hlt|lia|rewrite (num_ct _ _ _ Hlt Pb), Ed; exact tr_mini|exact inf_mini|rewrite (num_ct _ _ _ Hlt Pb), Ed; exact st_mini].
Qed.
(** lr_minibatch_toy.go: its loop runs three iterations *)
Theorem lr_minibatch_toy_go : lr_batch_correct shipped sc38 lrRots 14 5 20 (2 ^ 7) (2 ^ 9) 4 3 8 sc38 8 sc38 5 (S754_finite false 4503707005784917 (-14)) (repeat 1%nat 39) (repeat 1%nat 4).
Proof.
  assert (Eb : (2 ^ 9 = 4 * 2 ^ 7)%nat) by (change 9%nat with (2 + 7)%nat at 1; now rewrite Nat.pow_add_r).
  assert (Pb : (0 < 2 ^ 7)%nat) by (apply Nat.neq_0_lt_0, Nat.pow_nonzero; lia).
  assert (Ed : (2 ^ 9 / 2 ^ 7 = 4)%nat) by (rewrite Eb; apply Nat.div_mul; lia).
  assert (Hlt : (2 ^ 7 < 2 ^ (14 - Nat.log2_up 20))%nat) by (apply Nat.pow_lt_mono_r; [lia|cbn; lia]).
  apply (lr_batch_program_correct 15 shippedQ shippedP shipped_psiQ shipped_psiP sc38 lrRots lrRots_ok 14 20); [reflexivity|cbn; lia|lia|left; exact Hlt|lia|rewrite (num_ct _ _ _ Hlt Pb), Ed; exact tr_mini_toy|exact inf_mini_toy|rewrite (num_ct _ _ _ Hlt Pb), Ed; exact st_mini_toy].
Qed.

(** ** a concrete case: the shipped parameters, all samples 1, the encoder of LREncWorld *)
Definition onesParty : partyRnd := let o := KeyWitness.ones (pa_N shipped) in mkPRnd o o o (fun _ => o) (fun _ => o) (fun _ => o) (fun _ _ => o).
Definition onesRun : runRnd := let o := KeyWitness.ones (pa_N shipped) in
  mkRunRnd (fun _ _ => constQP shipped 1) (fun _ _ _ => constQP shipped 1) (fun _ => onesParty) o_id o_id (fun _ => o_id) (fun _ => o_id) (fun _ => (o, o, o)) (fun _ => o_id) (fun _ => (o, o, o)).
Definition listEncode (p : poly) (m : list R) : poly := realEncode shipped sc38 p (ofList 0%R m).
Lemma run_world : exists Dm ee, run_ok shipped sc38 1 19 Dm onesRun listEncode ee.
Proof.
  pose proof shipped_ok as Hpp. destruct (digit_bound_exists shipped Hpp) as (Dm & HDm & HD). exists Dm, (2 * INR (pa_N shipped))%R.
  assert (HO : forall B, 1 <= B -> small_ok (pa_N shipped) B (KeyWitness.ones (pa_N shipped))) by (intros; now apply ones_ok).
  assert (H1 : Forall (fun q => 0 <= 1 < q) (pa_Q shipped ++ pa_P shipped)) by (apply Forall_forall; apply (proj1 (Forall_forall _ _)); repeat constructor; lia).
  assert (HB : forall B, 0 <= B <= 19 -> bound_ok shipped B) by (intros B HB; split; [lia|]; repeat constructor; lia).
  constructor; auto; try (apply HB; lia).
  - constructor; cbn [onesRun u_crs0 u_crs u_party u_enc u_zero u_gen u_ev u_dec u_eo u_oo].
    + intros. now apply const_sample.
    + intros. now apply const_sample.
    + intros id. unfold party_ok, onesParty, errs_ok. cbn [r_sk r_pk r_r r_b r_d r_v r_rot]. assert (X1 := HO 1 ltac:(lia)). assert (X2 := HO 19 ltac:(lia)). refine (conj X1 (conj X2 (conj X1 (conj (fun _ _ => X2) (conj (fun _ _ => X2) (conj (fun _ _ => X2) (fun _ _ _ => X2))))))).
    + intros n. unfold enc_ok. cbn [fst snd]. exact (conj (HO 1 ltac:(lia)) (conj (HO 19 ltac:(lia)) (HO 19 ltac:(lia)))).
    + intros n. unfold enc_ok. cbn [fst snd]. exact (conj (HO 1 ltac:(lia)) (conj (HO 19 ltac:(lia)) (HO 19 ltac:(lia)))).
    + apply o_id_ok.
    + apply o_id_ok.
    + intros. apply o_id_ok.
    + intros. apply o_id_ok.
    + intros. apply o_id_ok.
  - intros m Hm. split; [reflexivity|]. exists (encPoly shipped sc38 (ofList 0%R m)). split; [intros p Hp; exact (realEncode_ok shipped Hpp sc38 (ofList 0%R m) p Hp)|].
    intros i Hi. exact (realEncode_slots shipped sc38 (ofList 0%R m) i (le_n_S 0 14 (Nat.le_0_l 14)) Hi).
Qed.
Theorem setup_run logN Q P psiQ psiP sc lz u Bs B Dm rots numCompany encode ee :
  let pb := bare logN Q P psiQ psiP in let ids := companyNames numCompany in let s := secretOf u in
  run_ok pb sc Bs B Dm u encode ee -> (forall x, In x rots -> 0 < x < Z.of_nat (pa_N pb) / 2) -> (0 < numCompany)%nat ->
  exists pp0 is tc g A U pk, let cp := mkCkp (tc_pp tc) sc in
  NewParameters logN Q P psiQ psiP 2 (u_crs0 u) = Ok pp0 /\ companyIDs numCompany = Ok is /\ (forall x, In x (mkeys is) <-> In x ids) /\
  genTestParams (u_gen u) pp0 rots is (u_crs u) (u_party u) = Ok tc /\ same_rings pb (tc_pp tc) /\ params_ok (tc_pp tc) /\
  GetPublicKey (tc_pk tc) (companyName 0) = Ok pk /\ pk_ID pk = companyName 0 /\
  (exists e a, pk_is (tc_pp tc) pk (s (companyName 0)) e a /\ pnorm_le (pa_N (tc_pp tc)) e B) /\
  (forall ct, (forall id, party ct id -> In id ids) -> sks_ok (tc_pp tc) s ct (tc_sk tc) /\ forall id, party ct id -> has_key (tc_sk tc) id) /\
  forall en, encst_ok cp en -> let (ce, ev) := NewEvaluator (u_ev u) lz cp in e_pp (ce_env ce) = tc_pp tc /\ ce_scale ce = sc /\
    lr_setting ce g A U s (fun id => smallpoly (r_r (u_party u id))) Bs B Dm (Z.of_nat logN - 1) ids (rs_keys (tc_rlk tc)) (tc_rot tc) (u_oo u) (u_zero u) pk encode (repeat 0%R (pa_N pb / 2)) Bs B ee (mkLr ev (tc_rlk tc) en 0).
Proof.
  intros pb ids s HR Hr Hc. exact (setup_ok logN Q P psiQ psiP sc lz u Bs B Dm rots numCompany (ra_pp _ _ _ _ _ _ _ _ HR) (ra_Bs _ _ _ _ _ _ _ _ HR) (ra_B _ _ _ _ _ _ _ _ HR) (ra_Dm0 _ _ _ _ _ _ _ _ HR) (ra_Dm _ _ _ _ _ _ _ _ HR) (ra_samples _ _ _ _ _ _ _ _ HR) Hr Hc encode ee (ra_enc _ _ _ _ _ _ _ _ HR)).
Qed.
