(** A concrete case for sequences of evaluator calls: the shipped parameters, generated keys of two parties, and a sequence that makes every
    kind of call. *)
From Coq Require Import Reals String ZArith Znumtheory List Lia Lra Setoid Morphisms Bool.
From Coq.Floats Require Import SpecFloat.
From Verif Require Import Spec SpecProofs Go GoProofs Lattigo LattigoProofs Arith NegRing NegRingProofs NTT NTTProofs F64 F64Proofs BasisExt BasisExtProofs RingOps RingOpsProofs Maps MapsProofs Params Elements KeySwitch KeySets KeyGen EncDec Evaluator KSProofs ParamsProofs Repr Crt Galois KeyGenProofs ParamsSpec SpecKeys Shipped KeySpec KeyWitness KeyThms SpecCt KSSem MulThms World SpecEnc EncProofs EncThms CkEncThms EncWorld SpecEv EvProofs EvThms EvWorld EvFloat SpecRot RotEvThms RotWorld SpecSlots SlotThms SlotRing SpecLREnc SlotErr LREncProofs SlotInv LREncWorld Circuit SpecCircuit CircErr CircEnc.
Import ListNotations.
Local Open Scope Z_scope.

Definition f_half : f64 := fdiv (f_of_Z 1) (f_of_Z 2).
(** every kind of call *)
Definition case_calls : list call :=
  [CMul 0 1; CRot 2 5; CConj 0; CMulPt 4 0; CSub 3 5; CRotHoisted 6 4; CDrop 7 1; CConst 8 f_half; CRescale 9 sc38; CMul 8 8; CAdd 10 11;
   CMulHoisted 12 8 true false; CConstIn 13 f_half; CRescaleIn 13 sc38; CDropIn 13 1; CRescaleIn 13 sc38; CAdd 13 12].
Lemma half_encoded q : encoded_at q [f_half] (f_of_Z q).
Proof.
  split; [|reflexivity]. intros H. exfalso. inversion H as [|? ? Hi _]; subst. assert (E : needsScale f_half = true) by (vm_compute; reflexivity).
  assert (Hf : finite f_half) by (vm_compute; reflexivity). destruct (proj1 (finite_fval _) Hf) as (r & Fr). apply (needsScale_iff f_half r Fr) in Hi. congruence.
Qed.
Section T.
Context (pp : params) (g : nat -> Z) (s : string -> zpoly) (Bs Be Dm : Z) (ids : list string) (rks : rotset) (cks : conjset) (m0 m1 m2 : Z -> C2) (e ep : R).
Context (HQ : pa_Q pp = shippedQ) (HN : Z.of_nat (pa_N pp) = 32768).
Context (HC : forall ct, (forall id, party ct id -> In id ids) -> conj_keys pp g Be s ct cks).
Context (HR : forall ct i, (forall id, party ct id -> In id ids) -> 0 <= i < 14 -> rot_keys pp g Be s ct (2 ^ i) rks).
Context (H5 : ~ has_crs pp 5).
Lemma case_tracked : exists vs, tracks pp sc38 g s Bs Be Dm ids rks cks [mkVp sc38 m2 ep] [mkV 20 sc38 m0 e; mkV 20 sc38 m1 e] case_calls vs.
Proof.
  eexists. unfold case_calls.
  eapply T_cons. { eapply T_mul with (n := 1%nat); [reflexivity|reflexivity|]. cbn [v_l v_s]. rewrite HQ. apply rsteps_ok. vm_compute. reflexivity. }
  cbn [v_l v_s v_m v_e stored receiver app].
  eapply T_cons. { eapply T_rot with (n := 2); [reflexivity|]. intros ct Hct. rewrite HN. change (5 mod (32768 / 2)) with 5. apply (rr_bits pp g Be s ct rks 5 H5).
    intros i Hi Hb. apply HR; [exact Hct|]. destruct (Z.lt_ge_cases i 14); [lia|]. rewrite Z.bits_above_log2 in Hb; [discriminate|lia|]. change (Z.log2 5) with 2. lia. }
  cbn [v_l v_s v_m v_e stored receiver app].
  eapply T_cons. { eapply T_conj; [reflexivity| |exact HC]. unfold maxLevel, QCount. rewrite HQ. reflexivity. }
  cbn [v_l v_s v_m v_e stored receiver app].
  eapply T_cons. { eapply T_mulpt with (n := 1%nat); [reflexivity|reflexivity|]. cbn [v_l v_s vp_s]. rewrite HQ. apply rsteps_ok. vm_compute. reflexivity. }
  cbn [v_l v_s v_m v_e vp_s vp_m vp_e stored receiver app].
  eapply T_cons. { eapply T_sub; [reflexivity|reflexivity|]. cbn [v_l v_s]. rewrite HQ. apply cmpb_ok. vm_compute. reflexivity. }
  cbn [v_l v_s v_m v_e stored receiver app].
  eapply T_cons. { eapply T_rot_hoisted with (n := 1); [reflexivity|]. right. rewrite HN. change (4 mod (32768 / 2)) with (2 ^ 2). split; [lia|]. split; [reflexivity|]. intros ct Hct. apply HR; [exact Hct|lia]. }
  cbn [v_l v_s v_m v_e stored receiver app].
  eapply T_cons. { eapply T_drop; [reflexivity|]. cbn. lia. }
  cbn [v_l v_s v_m v_e stored receiver app].
  eapply T_cons. { eapply T_const; [reflexivity|vm_compute; reflexivity|apply half_encoded]. }
  cbn [v_l v_s v_m v_e stored receiver app].
  eapply T_cons. { eapply T_rescale with (n := 1%nat); [reflexivity| | |discriminate]; cbn [v_l v_s]; rewrite HQ.
    - intros [H|[H|H]]; revert H; vm_compute; discriminate.
    - apply rcount_ok. vm_compute. reflexivity. }
  cbn [v_l v_s v_m v_e stored receiver app].
  eapply T_cons. { eapply T_mul with (n := 1%nat); [reflexivity|reflexivity|]. cbn [v_l v_s]. rewrite HQ. apply rsteps_ok. vm_compute. reflexivity. }
  cbn [v_l v_s v_m v_e stored receiver app].
  eapply T_cons. { eapply T_add; [reflexivity|reflexivity|]. cbn [v_l v_s]. rewrite HQ. apply cmpb_ok. vm_compute. reflexivity. }
  cbn [v_l v_s v_m v_e stored receiver app].
  eapply T_cons. { apply T_mul_hoisted. eapply T_mul with (n := 1%nat); [reflexivity|reflexivity|]. cbn [v_l v_s]. rewrite HQ. apply rsteps_ok. vm_compute. reflexivity. }
  cbn [v_l v_s v_m v_e stored receiver app].
  eapply T_cons. { apply T_const_in. eapply T_const; [reflexivity|vm_compute; reflexivity|apply half_encoded]. }
  cbn [v_l v_s v_m v_e stored receiver app firstn skipn].
  eapply T_cons. { apply T_rescale_in. eapply T_rescale with (n := 1%nat); [reflexivity| | |discriminate]; cbn [v_l v_s]; rewrite HQ.
    - intros [H|[H|H]]; revert H; vm_compute; discriminate.
    - apply rcount_ok. vm_compute. reflexivity. }
  cbn [v_l v_s v_m v_e stored receiver app firstn skipn].
  eapply T_cons. { apply T_drop_in. eapply T_drop; [reflexivity|]. cbn. lia. }
  cbn [v_l v_s v_m v_e stored receiver app firstn skipn].
  eapply T_cons. { eapply T_rescale_in_0; [reflexivity| |]; cbn [v_l v_s]; rewrite HQ.
    - intros [H|[H|H]]; revert H; vm_compute; discriminate.
    - apply rcount_ok. vm_compute. reflexivity. }
  cbn [v_l v_s v_m v_e stored receiver app firstn skipn].
  eapply T_cons. { eapply T_add; [reflexivity|reflexivity|]. cbn [v_l v_s]. rewrite HQ. apply cmpb_ok. vm_compute. reflexivity. }
  apply T_nil.
Qed.
End T.

Definition two : list string := ["a"; "b"]%string.
Theorem circ_world : exists ce g A U s r Dm keys rks cks pk e a on st, let pp := e_pp (ce_env ce) in let N := pa_N pp in let err := (2 * INR N + 2 * INR N * IZR (19 * (1 + Z.of_nat N * 1 + Z.of_nat N * 1)))%R in
  env_ok (ce_env ce) /\ (0 < Z.of_nat N / 2) /\ circ_keys pp g A U s r 1 19 Dm two keys /\ circ_ok pp two keys st /\
  pa_Q pp = shippedQ /\ pa_P pp = shippedP /\ pa_logN pp = 15%nat /\ ce_scale ce = sc38 /\
  pk_is pp pk (s (pk_ID pk)) e a /\ pnorm_le N e 19 /\ pnorm_le N (s (pk_ID pk)) 1 /\ In (pk_ID pk) two /\ bound_ok pp 1 /\ bound_ok pp 19 /\ small_ok N 1 on /\ small_ok N 19 on /\
  (forall m p, plen p = QCount pp -> plaintext_is pp (maxLevel pp) (cplxEncode pp sc38 p m) (cencPoly pp sc38 m)) /\ (forall m, slots_near pp sc38 m (2 * INR N) (cencPoly pp sc38 m)) /\
  (forall m, exists ct, v_holds pp s two (mkV 20 sc38 m err) ct) /\ (forall m, exists pt, vp_holds pp (mkVp sc38 m (2 * INR N)) pt) /\
  (forall m0 m1 m2, exists vs, tracks pp (ce_scale ce) g s 1 19 Dm two rks cks [mkVp sc38 m2 (2 * INR N)] [mkV 20 sc38 m0 err; mkV 20 sc38 m1 err] case_calls vs) /\
  (forall (m : Z -> C2) i, (cnorm (m i) <= 1)%R -> (4 * (cnorm (cscale (fR sc38) (m i)) + err) < IZR (Ql pp (Nat.min 20 20)))%R).
Proof.
  destruct shipped_key_witness as (pp & sk & Hpp & HQ & HP & Hlog & Hgm & HB & Hsk & He & Hcrs & Hmh & (g & Hg) & Hps & _).
  set (env := fst (NewKeySwitcher (fun _ _ _ => false) pp)). assert (Henv : env_ok env) by (constructor; auto).
  destruct (NewEvaluator o_id (e_lz env) (mkCkp pp sc38)) as [c0 ev] eqn:EN. pose proof (NewEvaluator_ok o_id (e_lz env) (mkCkp pp sc38) Hpp o_id_ok) as HE. rewrite EN in HE. destruct HE as (_ & _ & _ & Hev).
  destruct (digit_bound_exists pp Hpp) as (Dm & HDm & HD).
  assert (C0 : crs_is pp 0 (fun _ => pone)). { apply Hcrs. unfold crsIndices. cbn. auto. }
  assert (C1 : crs_is pp (-1) (fun _ => pone)). { apply Hcrs. unfold crsIndices. cbn. auto. }
  assert (H2 : crs_is pp (-2) (fun _ => pone)). { apply Hcrs. unfold crsIndices. cbn. auto. }
  destruct (rlk_exists pp sk g Hpp HB Hsk Hg C0 C1) as (rl & Hrl).
  destruct (conj_key_lemma pp Hpp sk _ _ _ _ g _ Hsk H2 HB He Hg Hps) as (ck & cpool & _ & _ & _ & HK).
  set (on := KeyWitness.ones (pa_N pp)) in *. set (s := fun _ : string => smallpoly on).
  assert (O19 : small_ok (pa_N pp) 19 on) by (apply ones_ok; lia). assert (O1 : small_ok (pa_N pp) 1 on) by (apply ones_ok; lia).
  destruct (GenPublicKey_ok pp Hpp sk _ _ _ 19 Hsk C0 HB O19) as (pk0 & _ & _ & K1 & _ & K0 & _).
  set (pk := mkPk (pk_0 pk0) (pk_1 pk0) "a"%string).
  set (k := fun id => mkSk (sk_val sk) id). set (parties := map (fun id => (k id, fun (_ : Z) (_ : nat) => on)) two).
  assert (HPC : powers_crs pp). { intros i Hi. exists (fun _ => pone). apply Hcrs. rewrite <- (Z2Nat.id i) by lia. unfold crsIndices. apply in_or_app. right. rewrite Hlog in *. apply (in_map (fun i => 2 ^ Z.of_nat i)), in_seq. lia. }
  assert (HHC : forall i, has_crs pp i -> In i (crsIndices (pa_logN pp))). { intros i [v Hv]. apply Hmh. unfold mhas. change (mget Z.eqb (pa_CRS pp) i = Some v) in Hv. now rewrite Hv. }
  assert (HG : generators_ok pp s 19 parties). { intros sk' es Hin. unfold parties in Hin. apply in_map_iff in Hin as (id & [= <- <-] & _). split; [exact Hsk|intros ix; exact He]. }
  destruct (default_keys pp g 19 s parties _ Hpp Hg HB HPC HG Hps []) as (rks & pool' & _ & _ & HR & _).
  set (keys := map (fun id => (id, rl)) two). set (pools := map (fun id => (id, NewSwitchingKey pp)) two). set (cks := map (fun id => (id, ck)) two).
  set (ce := mkCke env sc38). set (st := mkCs ev (mkRlkSet keys pools pools)).
  exists ce, g, (fun _ => pone), (fun _ => pone), s, s, Dm, keys, rks, cks, pk, (smallpoly on), (pscale W pone), on, st. cbv zeta.
  change (e_pp (ce_env ce)) with pp. change (ce_scale ce) with sc38. set (err := (2 * INR (pa_N pp) + 2 * INR (pa_N pp) * IZR (19 * (1 + Z.of_nat (pa_N pp) * 1 + Z.of_nat (pa_N pp) * 1)))%R).
  assert (Hs1 : pnorm_le (pa_N pp) (smallpoly on) 1) by (apply smallpoly_norm; exact O1). assert (Hs19 : pnorm_le (pa_N pp) (smallpoly on) 19) by (apply smallpoly_norm; exact O19).
  assert (HlN : (1 <= pa_logN pp)%nat) by lia.
  assert (HB1 : bound_ok pp 1). { destruct HB as [_ HF]. split; [lia|]. revert HF. apply Forall_impl. intros q. lia. }
  assert (Hpk : pk_is pp pk (s (pk_ID pk)) (smallpoly on) (pscale W pone)) by (split; [exact K1|exact K0]).
  assert (N0 : ~ In "0"%string two). { unfold two. cbn [In]. intros [H|[H|[]]]; discriminate H. }
  assert (HN : Z.of_nat (pa_N pp) = 32768). { unfold pa_N, deg. rewrite Hlog, Nat2Z.inj_pow. reflexivity. }
  assert (Hmx : maxLevel pp = 20%nat). { unfold maxLevel, QCount. rewrite HQ. reflexivity. }
  assert (PL : plen (ringPoly (ringQ pp)) = QCount pp) by (unfold ringPoly, plen, newPoly; cbn [p_co]; rewrite repeat_length; reflexivity).
  split; [exact Henv|]. split; [rewrite HN; reflexivity|]. split.
  { constructor; auto; try lia. intros id Hid. exists rl. split; [unfold keys, two in *; cbn [In] in Hid; destruct Hid as [<-|[<-|[]]]; reflexivity|].
    destruct Hrl as (eb & ed & ev' & Hn & Hk). exists eb, ed, ev'. split; [|exact Hk]. intros t Ht. destruct (Hn t Ht) as (n1 & n2 & n3).
    repeat split; intros i Hi; [specialize (n1 i Hi)|specialize (n2 i Hi)|specialize (n3 i Hi)]; lia. }
  split.
  { constructor; auto.
    - intros id Hid. exists (NewSwitchingKey pp). split; [|apply NewSwk_ok]. unfold st, pools, two in *. cbn [In] in Hid. destruct Hid as [<-|[<-|[]]]; reflexivity.
    - intros id Hid. exists (NewSwitchingKey pp). split; [|apply NewSwk_ok]. unfold st, pools, two in *. cbn [In] in Hid. destruct Hid as [<-|[<-|[]]]; reflexivity. }
  do 7 (split; [auto|]). split; [cbn; auto|]. do 4 (split; [auto|]).
  split; [intros m p; now apply cplxEncode_ok|]. split; [intros m; now apply cplxEncode_slots|]. split; [|split; [|split]].
  - intros m. destruct (cencrypt_new pp Hpp sc38 (cplxEncode pp sc38) m pk s two (smallpoly on) (pscale W pone) on on on 1 1 19 (cencPoly pp sc38 m) m (2 * INR (pa_N pp))%R) with (o := o_id) (st := NewEncryptor (mkCkp pp sc38)) as (ct & st' & _ & _ & HF); auto.
    + intros p. now apply cplxEncode_ok.
    + now apply cplxEncode_slots.
    + cbn. auto.
    + apply o_id_ok.
    + apply (NewEncryptor_ok (mkCkp pp sc38)).
    + exists ct. rewrite Hmx in HF. exact HF.
  - intros m. exists (cplxEncode pp sc38 (ringPoly (ringQ pp)) m, sc38). split; [reflexivity|]. split; [reflexivity|]. exists (cencPoly pp sc38 m). split; [now apply cplxEncode_ok|now apply cplxEncode_slots].
  - intros m0 m1 m2. apply case_tracked; auto.
    + intros ct Hct. exists (fun _ => pone). split; [exact H2|]. intros id Hid. exists ck. split. { apply Hct in Hid. unfold cks, two in *. cbn [In] in Hid. destruct Hid as [<-|[<-|[]]]; reflexivity. }
      exists (fun t => smallpoly on). split; [intros t Ht; apply smallpoly_norm; apply (He t Ht)|exact HK].
    + intros ct i Hct Hi. apply HR; [|rewrite Hlog; lia]. intros id Hid. exists (k id), (fun _ _ => on). split; [|reflexivity]. unfold parties. apply (in_map (fun id => (k id, fun (_ : Z) (_ : nat) => on))). now apply Hct.
    + intros H. apply HHC in H. rewrite Hlog in H. vm_compute in H. repeat (destruct H as [H|H]; [discriminate H|]). exact H.
  - intros m i Hm. unfold err. rewrite INR_IZR_INZ, HN. change (Nat.min 20 20) with 20%nat. rewrite cnorm_cscale.
    assert (E : Rabs (fR sc38) = IZR (2 ^ 38)). { destruct scales_case as [F _]. rewrite (fR_fval _ _ F). apply Rabs_pos_eq. apply (IZR_le 0). lia. }
    rewrite E. assert (G : (IZR (2 ^ 60) <= IZR (Ql pp 20))%R). { apply IZR_le. unfold Ql. rewrite HQ. vm_compute. discriminate. }
    assert (0 <= cnorm (m i))%R by apply cnorm_pos. assert (IZR (2 ^ 38) * cnorm (m i) <= IZR (2 ^ 38) * 1)%R by (apply Rmult_le_compat_l; [apply (IZR_le 0); lia|exact Hm]).
    eapply Rlt_le_trans; [|exact G]. change (19 * (1 + 32768 * 1 + 32768 * 1)) with 1245203. change (IZR (2 ^ 38)) with (IZR 274877906944) in *. change (IZR (2 ^ 60)) with (IZR 1152921504606846976). lra.
Qed.
