(** The main functions of the four programs: training with the decryptions that are printed, then the inferences. *)
From Coq Require Import Reals String ZArith List Lia Lra Bool RealField.
From Coq.Floats Require Import SpecFloat.
From Verif Require Import Spec Go GoProofs Arith NegRing NTT F64 BasisExt RingOps Maps MapsProofs Params Elements KeySwitch KeySets KeyGen EncDec Evaluator KSProofs Repr KeyGenProofs ParamsSpec SpecKeys SpecCt SpecEnc EncProofs CkEncThms SpecEv SpecRot SpecSlots SlotThms SlotErr Galois LR SpecLR LRProofs LRThms LREval LRShadow LRRel SpecLREnc LREncProofs LREncThms LREncWorld LREncDec LREncLR LRShipped LREncShip LRSetup SpecSetup LRSetupProofs LRSetupThms LRSetupProg.
Import ListNotations.
Local Open Scope Z_scope.

Lemma sfold_cons {S A B} (f : B -> A -> SM S B) a l b st : sfold f (a :: l) b st = bind (f b a st) (fun x => sfold f l (fst x) (snd x)).
Proof. cbn [sfold]. unfold sbind. destruct (f b a st) as [[b1 s1]|]; reflexivity. Qed.

Section G.
Context (ce : ckenv) (g : nat -> Z) (A U : nat -> zpoly) (s r : string -> zpoly) (Bs B Dm nr : Z) (ids : list string) (keys : rlkset) (rks : rotset).
Context (orders : nat -> order) (rnd : nat -> small * small * small) (pk : pubkey) (encode : poly -> list R -> poly) (zero_msg : list R) (Bu : Z) (ez : R) (st0 : lrst).
Context (HS : lr_setting ce g A U s r Bs B Dm nr ids keys rks orders rnd pk encode zero_msg Bu B ez st0).
Notation pp := (e_pp (ce_env ce)).
Notation sc := (ce_scale ce).
Notation cp := (mkCkp pp sc).
Notation top := (maxLevel pp).
Notation EA := (errOps (pa_N pp / 2) (lr_noise pp (Z.of_nat (List.length ids)) Bs B Dm nr Bu B ez) (pa_Q pp) top sc).
Notation EE := (evalOps ce orders rnd rks pk encode zero_msg).
Notation RC := (RCe ce s ids).
Notation RP := (RPe ce).
Notation RS := (RSe ce ids keys).
Context {Msg : Type} (decode : poly -> f64 -> Msg) (u : runRnd) (Hdec : forall n, order_ok (u_dec u n)) (sks : skset).
Context (Hsk : forall ct, (forall id, party ct id -> In id ids) -> sks_ok pp s ct sks /\ forall id, party ct id -> has_key sks id).
Notation vA a := (shows pp decode (a_l a) (a_s a) (a_m a) (a_e a)).
Definition main_ok (L : nat) (st : mainst) : Prop := lr_ok pp sc ids keys (ms_st st) /\ exists pl, (L <= pl)%nat /\ plen (ms_pool st) = (pl + 1)%nat.
Notation printed := (shown pp decode).
Lemma eval_ref : ops_refine RS RC RP EA EE.
Proof. destruct HS as [He Hh HK Ho HZ _]. exact (eval_refines ce He g A U s r Bs B Dm nr ids keys rks HK orders Ho rnd pk encode zero_msg Bu B ez HZ Hh). Qed.
Lemma show_ok L a ct st : RC a ct -> (L <= a_l a)%nat -> main_ok L st -> exists m st', showCt decode cp u sks ct st = Ok (m, st') /\ main_ok L st' /\ printed L a m /\ ms_enc st' = ms_enc st.
Proof.
  intros Hc HL [Hs (pl & Hpl & Hpool)]. destruct (dec_encrypts_any ce (ls_env _ _ _ _ _ _ _ _ _ _ _ _ _ _ _ _ _ _ _ _ _ _ HS) s ids _ _ _ _ _ decode (ms_pool st) pl Hc Hpool) as (pt & D1 & D2 & D3).
  destruct (Hsk (c_ct ct) (ec_ids _ _ _ _ _ _ _ _ Hc)) as [K1 K2].
  unfold showCt. rewrite (D2 _ _ (Hdec (ms_dec st)) K1 K2). cbn [bind]. eexists _, _. split; [reflexivity|]. split; [|split; [|reflexivity]].
  - split; [exact Hs|]. cbn [ms_pool]. exists (Nat.min (a_l a) pl). split; [lia|exact D1].
  - exists (Nat.min (a_l a) pl). split; [lia|]. exists pt. split; [reflexivity|]. split; [exact D1|]. intros Hsm. destruct (D3 Hsm) as (V & _ & _ & V1 & V2). exists V. auto.
Qed.
Lemma shows_ok L : forall as' cts st, Forall2 RC as' cts -> Forall (fun a => L <= a_l a)%nat as' -> main_ok L st -> exists ms st', mapS (showCt decode cp u sks) cts st = Ok (ms, st') /\ main_ok L st' /\ Forall2 (printed L) as' ms /\ ms_enc st' = ms_enc st.
Proof.
  induction as' as [|a l IH]; intros cts st HF HL Hm; inversion HF; subst; cbn [mapS].
  - exists [], st. split; [reflexivity|]. split; [exact Hm|]. split; [constructor|reflexivity].
  - inversion HL; subst. destruct (show_ok L a y st) as (m & st1 & E1 & M1 & P1 & N1); auto. destruct (IH l' st1) as (ms & st2 & E2 & M2 & P2 & N2); auto.
    exists (m :: ms), st2. unfold sbind, sret. rewrite E1. cbn [bind]. rewrite E2. cbn [bind]. split; [reflexivity|]. split; [exact M2|]. split; [constructor; assumption|congruence].
Qed.

(** the training loop *)
Context (pr : bool) (iterA : aval * aval -> nat -> SM (list nat) (aval * aval)) (iterE : ckct * ckct -> nat -> SM lrst (ckct * ckct)).
Context (Hit : forall a v w, RV RC v w -> refines RS (RV RC) (iterA v a) (iterE w a)).
Lemma loop_ok L : forall l vA log vA' log' vb st, sfold iterA l vA log = Ok (vA', log') -> RV RC vA vb -> main_ok L st ->
  (forall k vk lk, (k < length l)%nat -> sfold iterA (firstn (S k) l) vA log = Ok (vk, lk) -> (L <= a_l (fst vk))%nat /\ (L <= a_l (snd vk))%nat) ->
  exists vb' ms st', trainLoop decode cp u sks pr iterE l vb st = Ok ((vb', ms), st') /\ RV RC vA' vb' /\ main_ok L st' /\ ms_enc st' = ms_enc st /\
    (length ms = if pr then length l else 0%nat) /\ forall k, (k < length ms)%nat -> exists vk lk mb mv, sfold iterA (firstn (S k) l) vA log = Ok (vk, lk) /\ nth_error ms k = Some (mb, mv) /\ printed L (snd vk) mb /\ printed L (fst vk) mv.
Proof.
  induction l as [|a l IH]; intros vA log vA' log' vb st ES HR Hm HL.
  - injection ES as <- <-. exists vb, [], st. split; [reflexivity|]. split; [exact HR|]. split; [exact Hm|]. split; [reflexivity|]. split; [now destruct pr|]. intros k Hk. cbn in Hk. lia.
  - rewrite sfold_cons in ES. apply bind_inv in ES as ([v1 log1] & E1 & ES). cbn [fst snd] in ES.
    destruct Hm as [Hs Hpool]. destruct (Hit a vA vb HR log (ms_st st) v1 log1 Hs E1) as (vb1 & st1 & EE1 & HR1 & Hs1).
    assert (HL1 : (L <= a_l (fst v1))%nat /\ (L <= a_l (snd v1))%nat). { apply (HL 0%nat v1 log1); [cbn; lia|]. cbn [firstn]. rewrite sfold_cons, E1. reflexivity. }
    set (st1m := mkMain st1 (ms_pool st) (ms_dec st) (ms_enc st)). assert (M1 : main_ok L st1m) by (split; [exact Hs1|exact Hpool]).
    assert (Hsh : exists ms st2, (if pr then let! mb := showCt decode cp u sks (snd vb1) in let! mv := showCt decode cp u sks (fst vb1) in sret [(mb, mv)] else sret []) st1m = Ok (ms, st2) /\ main_ok L st2 /\ ms_enc st2 = ms_enc st /\
       if pr then exists mb mv, ms = [(mb, mv)] /\ printed L (snd v1) mb /\ printed L (fst v1) mv else ms = []).
    { destruct HR1 as [Rv Rb]. destruct pr; [|exists [], st1m; auto]. destruct (show_ok L (snd v1) (snd vb1) st1m Rb ltac:(tauto) M1) as (mb & st2 & S1 & M2 & P1 & N1). destruct (show_ok L (fst v1) (fst vb1) st2 Rv ltac:(tauto) M2) as (mv & st3 & S2 & M3 & P2 & N2).
      exists [(mb, mv)], st3. unfold sbind, sret. rewrite S1. cbn [bind]. rewrite S2. cbn [bind]. split; [reflexivity|]. split; [exact M3|]. split; [rewrite N2, N1; reflexivity|]. exists mb, mv. auto. }
    destruct Hsh as (ms1 & st2 & Esh & M2 & N2 & Hms1).
    destruct (IH v1 log1 vA' log' vb1 st2 ES HR1 M2) as (vb' & ms & st' & El & HR' & M' & N' & Len & Hk).
    { intros k vk lk Hk E. apply (HL (S k) vk lk); [cbn; lia|]. change (firstn (S (S k)) (a :: l)) with (a :: firstn (S k) l). rewrite sfold_cons, E1. exact E. }
    exists vb', (ms1 ++ ms), st'. split.
    { cbn [trainLoop]. unfold sbind at 1, onEval. rewrite EE1. cbn [bind]. fold st1m. unfold sbind at 1. rewrite Esh. cbn [bind]. unfold sbind at 1. rewrite El. cbn [bind]. reflexivity. }
    split; [exact HR'|]. split; [exact M'|]. split; [congruence|]. destruct pr.
    + destruct Hms1 as (mb & mv & -> & P1 & P2). split; [cbn [app length]; lia|]. intros [|k] Hk'.
      * exists v1, log1, mb, mv. split; [cbn [firstn]; rewrite sfold_cons, E1; reflexivity|]. split; [reflexivity|]. split; assumption.
      * cbn [app length] in Hk'. destruct (Hk k ltac:(lia)) as (vk & lk & mb' & mv' & X1 & X2 & X3 & X4). exists vk, lk, mb', mv'. split; [|split; [exact X2|split; assumption]].
        change (firstn (S (S k)) (a :: l)) with (a :: firstn (S k) l). rewrite sfold_cons, E1. exact X1.
    + subst ms1. cbn [app]. rewrite Len. split; [reflexivity|]. intros k Hk'. lia.
Qed.

(** the inferences *)
Context (KA : lrconst aval apt) (KE : lrconst ckct (poly * f64)) (HK : const_refine RC RP KA KE) (e : R) (hN nf : nat) (is : idset) (lt : nat) (stt : f64) (abA : aval) (b : ckct) (Hb : RC abA b) (log2 : list nat).
Context (Henc : forall n msg en (m : Z -> R), length msg = hN -> (forall i, 0 <= i < Z.of_nat hN -> nth (Z.to_nat i) msg 0%R = m i) -> encst_ok cp en -> exists ct en',
  (let '(a, e0, e1) := u_enc u n in EncryptMsgNewExpand cp encode (u_eo u n) msg pk is a e0 e1 en) = Ok (ct, en') /\ encst_ok cp en' /\ fresh pp sc s ids e m ct).
Context (HI : forall m, exists at', infer EA KA (Z.of_nat nf) (fa top sc e m) abA [] = Ok (at', log2) /\ a_l at' = lt /\ a_s at' = stt).
Definition predicted (x : list R) (m : Msg) : Prop := exists tv at', testVector 0%R hN nf x = Ok tv /\
  infer EA KA (Z.of_nat nf) (fa top sc e (ofList 0%R tv)) abA [] = Ok (at', log2) /\ shows pp decode lt stt (a_m at') (a_e at') m.
Lemma predict_ok x tv st : testVector 0%R hN nf x = Ok tv -> main_ok lt st -> exists m st', predict 0%R encode decode cp u sks pk is EE KE hN nf b x st = Ok (m, st') /\ main_ok lt st' /\ predicted x m.
Proof.
  intros Et [Hs Hpool]. unfold predict. rewrite Et. cbn [bind].
  destruct (Henc (ms_enc st) tv (lr_en (ms_st st)) (ofList 0%R tv) (testVector_len _ _ _ _ Et) (fun _ _ => eq_refl) (lo_en _ _ _ _ _ Hs)) as (ct & en' & E1 & N1 & F1).
  destruct (HI (ofList 0%R tv)) as (at' & E2 & La & Sa).
  destruct (ref_infer RS RC RP EA EE eval_ref KA KE HK (Z.of_nat nf) _ ct _ b (F1 : RC (fa top sc e (ofList 0%R tv)) ct) Hb [] (setEn (ms_st st) en') at' log2) as (t & st1 & E3 & Rt & Hs1); [|exact E2|].
  { destruct Hs as [l1 l2 l3 l4 l5]. constructor; assumption. }
  destruct (u_enc u (ms_enc st)) as [[a0 e0] e1]. rewrite E1. cbn [bind]. rewrite E3. cbn [bind].
  set (st2 := mkMain st1 (ms_pool st) (ms_dec st) (S (ms_enc st))).
  destruct (show_ok lt at' t st2 Rt ltac:(lia)) as (m & st' & E4 & M4 & P4 & _); [split; [exact Hs1|exact Hpool]|].
  exists m, st'. split; [exact E4|]. split; [exact M4|]. exists tv, at'. split; [exact Et|]. split; [exact E2|]. destruct P4 as (l & Hl & P4). assert (l = lt) by lia. subst l. rewrite <- Sa. exact P4.
Qed.
Lemma predicts_ok : forall xs st, (forall x, In x xs -> exists tv, testVector 0%R hN nf x = Ok tv) -> main_ok lt st ->
  exists ms st', mapS (predict 0%R encode decode cp u sks pk is EE KE hN nf b) xs st = Ok (ms, st') /\ Forall2 predicted xs ms.
Proof.
  induction xs as [|x xs IH]; intros st Hx Hm; cbn [mapS].
  - exists [], st. split; [reflexivity|constructor].
  - destruct (Hx x (or_introl eq_refl)) as (tv & Et). destruct (predict_ok x tv st Et Hm) as (m & st1 & E1 & M1 & P1). destruct (IH st1 (fun y Hy => Hx y (or_intror Hy)) M1) as (ms & st2 & E2 & P2).
    exists (m :: ms), st2. unfold sbind, sret. rewrite E1. cbn [bind]. rewrite E2. cbn [bind]. split; [reflexivity|]. constructor; assumption.
Qed.
End G.

Lemma sfold_prefix {S B} (f : B -> nat -> SM S B) k n b st r : (k <= n)%nat -> sfold f (seq 0 n) b st = Ok r -> exists r0, sfold f (seq 0 k) b st = Ok r0.
Proof.
  intros H. replace n with (k + (n - k))%nat by lia. rewrite seq_app. generalize (seq 0 k), (seq (0 + k) (n - k)). intros l1 l2. revert b st. induction l1 as [|a l1 IH]; intros b st E; [exists (b, st); reflexivity|].
  cbn [app] in E. rewrite sfold_cons in E |- *. destruct (f b a st) as [[b1 s1]|]; [|discriminate]. cbn [bind fst snd] in *. exact (IH _ _ E).
Qed.
(** the parameters with their common reference strings *)
Section T.
Context (logN : nat) (Q P psiQ psiP : list Z) (sc : f64) (lz : lazyf) (u : runRnd) (Bs B Dm : Z) (rots : list Z) (numCompany : nat).
Notation pb := (bare logN Q P psiQ psiP).
Context (H0 : params_ok pb) (HBs : bound_ok pb Bs) (HB : bound_ok pb B) (HDm0 : 0 <= Dm) (HDm : digit_bound pb Dm) (HS : samples_ok pb Bs B u).
Context (Hrots : forall x, In x rots -> 0 < x < Z.of_nat (pa_N pb) / 2) (Hc : (0 < numCompany)%nat).
Context (encode : poly -> list R -> poly) (ee : R) (Henc : encoder_ok pb sc encode ee) {Msg : Type} (decode : poly -> f64 -> Msg).
Notation ids := (companyNames numCompany).
Notation s := (fun id => smallpoly (r_sk (u_party u id))).
Notation top := (maxLevel pb).
Notation e := (ierr pb Bs B ee).
Notation EA := (errOps (pa_N pb / 2) (lr_noise pb (Z.of_nat numCompany) Bs B Dm (Z.of_nat logN - 1) Bs B ee) Q top sc).
Notation hN := (pa_N pb / 2)%nat.
Lemma main_gen {Zt} (enc : ckparams -> pubkey -> idset -> res (@lrInputs Zt)) (pre : Zt -> list ckct) (preA : list aval) pr iter iterA (K : lrconst (Z -> R) (Z -> R)) nf numIter xs avb lt st log1 log2 :
  (forall crs pk is, let pp := PC logN Q P psiQ psiP 2 crs in params_ok pp -> samples_ok pp Bs B u -> (exists e a, pk_is pp pk (s (pk_ID pk)) e a /\ pnorm_le (pa_N pp) e B) -> In (pk_ID pk) ids -> (forall x, In x (mkeys is) <-> In x ids) ->
    exists i, enc (mkCkp pp sc) pk is = Ok i /\ encst_ok (mkCkp pp sc) (in_en i) /\ consts_held pp sc s ids e K (in_K i) /\ fresh pp sc s ids e (fun _ => 0%R) (in_v i) /\ fresh pp sc s ids e (fun _ => 0%R) (in_beta i) /\
      Forall2 (fun a c => encrypts pp s ids (a_l a) (a_s a) (a_m a) (a_e a) c) preA (pre (in_z i)) /\
      forall ce keys E, e_pp (ce_env ce) = pp -> ce_scale ce = sc -> ops_refine (RSe ce ids keys) (RCe ce s ids) (RPe ce) EA E -> const_refine (RCe ce s ids) (RPe ce) (errConst top sc e K) (in_K i) ->
        forall a v w, RV (RCe ce s ids) v w -> refines (RSe ce ids keys) (RV (RCe ce s ids)) (iterA v a) (iter E (in_K i) (in_z i) w a)) ->
  Forall (fun a => a_l a = top) preA ->
  sfold iterA (seq 0 numIter) (fa top sc e (fun _ => 0%R), fa top sc e (fun _ => 0%R)) [] = Ok (avb, log1) ->
  (lt <= top)%nat ->
  (forall m, exists at', infer EA (errConst top sc e K) (Z.of_nat nf) (fa top sc e m) (snd avb) [] = Ok (at', log2) /\ a_l at' = lt /\ a_s at' = st) ->
  (forall k vk lk, (k < numIter)%nat -> sfold iterA (seq 0 (S k)) (fa top sc e (fun _ => 0%R), fa top sc e (fun _ => 0%R)) [] = Ok (vk, lk) -> (lt <= a_l (fst vk))%nat /\ (lt <= a_l (snd vk))%nat) ->
  (forall x, In x xs -> exists tv, testVector 0%R hN nf x = Ok tv) ->
  exists rs, mainProgram 0%R encode decode lz u logN Q P psiQ psiP sc rots numCompany hN nf numIter enc pre pr iter xs = Ok rs /\ same_rings pb (tc_pp (mr_tc rs)) /\
    Forall2 (shown pb decode top) preA (mr_pre rs) /\
    (length (mr_iter rs) = if pr then numIter else 0%nat) /\
    (forall k mb mv, nth_error (mr_iter rs) k = Some (mb, mv) -> exists vk lk, sfold iterA (seq 0 (S k)) (fa top sc e (fun _ => 0%R), fa top sc e (fun _ => 0%R)) [] = Ok (vk, lk) /\ shown pb decode lt (snd vk) mb /\ shown pb decode lt (fst vk) mv) /\
    encrypts pb s ids (a_l (fst avb)) (a_s (fst avb)) (a_m (fst avb)) (a_e (fst avb)) (fst (mr_vb rs)) /\ encrypts pb s ids (a_l (snd avb)) (a_s (snd avb)) (a_m (snd avb)) (a_e (snd avb)) (snd (mr_vb rs)) /\
    Forall2 (fun x m => exists tv at', testVector 0%R hN nf x = Ok tv /\ infer EA (errConst top sc e K) (Z.of_nat nf) (fa top sc e (ofList 0%R tv)) (snd avb) [] = Ok (at', log2) /\ shows pb decode lt st (a_m at') (a_e at') m) xs (mr_pred rs).
Proof.
  intros HE HP ES Hlt HI HL Hxs.
  destruct (setup_ok logN Q P psiQ psiP sc lz u Bs B Dm rots numCompany H0 HBs HB HDm0 HDm HS Hrots Hc encode ee Henc) as (pp0 & is & tc & g & A & U & pk & E1 & E2 & E3 & E4 & E5 & Hpp & E6 & E7 & E8 & E9 & E10). cbv zeta in E10.
  assert (EP : exists crs, tc_pp tc = PC logN Q P psiQ psiP 2 crs). { unfold same_rings in E5. destruct (tc_pp tc) as [l1 q1 p1 x1 y1 g1 crs]. cbn in E5. injection E5 as -> -> -> -> -> ->. exists crs. reflexivity. }
  destruct EP as (crs & EP). rewrite EP in *. set (pp := PC logN Q P psiQ psiP 2 crs) in *.
  assert (HSp : samples_ok pp Bs B u) by (destruct HS as [S1 S2 S3 S4 S5 S6 S7 S8 S9 S10]; constructor; assumption).
  assert (Hc0 : In (pk_ID pk) ids). { rewrite E7. unfold companyNames. apply in_map, in_seq. lia. }
  assert (Hpk : exists e a, pk_is pp pk (s (pk_ID pk)) e a /\ pnorm_le (pa_N pp) e B) by (rewrite E7; exact E8).
  assert (Hsn : pnorm_le (pa_N pp) (s (pk_ID pk)) Bs). { destruct (so_party _ _ _ _ HS (pk_ID pk)) as (X1 & _). apply smallpoly_norm. exact X1. }
  destruct (HE crs pk is Hpp HSp Hpk Hc0 E3) as (i & Ei & I0 & IK & Iv & Ib & Ip & Iit). fold pp in Ei, I0, IK, Iv, Ib, Ip, Iit.
  destruct (NewEvaluator (u_ev u) lz (mkCkp pp sc)) as [ce ev] eqn:EN. destruct (E10 _ I0) as (Ec1 & Ec2 & LS).
  pose proof (eval_ref _ _ _ _ _ _ _ _ _ _ _ _ _ _ _ _ _ _ _ _ _ LS) as HR. assert (Lid : length ids = numCompany) by (unfold companyNames; rewrite map_length, seq_length; reflexivity). rewrite Lid in HR. rewrite Ec1, Ec2 in HR.
  assert (HKE : const_refine (RCe ce s ids) (RPe ce) (errConst top sc e K) (in_K i)).
  { pose proof (kE ce s ids K (in_K i) e) as X. rewrite Ec1, Ec2 in X. exact (X IK). }
  specialize (Iit ce (rs_keys (tc_rlk tc)) _ Ec1 Ec2 HR HKE).
  set (sto := mkMain (mkLr ev (tc_rlk tc) (in_en i) 0) (NewDecryptor (mkCkp pp sc)) 0 (in_n i)).
  assert (Hdec := so_dec _ _ _ _ HS).
  assert (M0 : main_ok ce ids (rs_keys (tc_rlk tc)) top sto).
  { split; [exact (ls_st _ _ _ _ _ _ _ _ _ _ _ _ _ _ _ _ _ _ _ _ _ _ LS)|]. exists top. split; [lia|]. exact (NewDecryptor_len (mkCkp pp sc) Hpp). }
  assert (Hsk : forall ct, (forall id, party ct id -> In id ids) -> sks_ok (e_pp (ce_env ce)) s ct (tc_sk tc) /\ (forall id, party ct id -> has_key (tc_sk tc) id)) by (rewrite Ec1; exact E9).
  pose proof (shows_ok ce g A U s (fun id => smallpoly (r_r (u_party u id))) Bs B Dm (Z.of_nat logN - 1) ids (rs_keys (tc_rlk tc)) (tc_rot tc) (u_oo u) (u_zero u) pk encode _ Bs ee _ LS decode u Hdec (tc_sk tc) Hsk top preA (pre (in_z i)) sto) as SH.
  destruct SH as (zs & st1 & Ez & M1 & Pz & _). { unfold RCe. rewrite Ec1. exact Ip. } { eapply Forall_impl; [|exact HP]. cbv beta. intros. lia. } { exact M0. }
  assert (M1' : main_ok ce ids (rs_keys (tc_rlk tc)) lt st1). { destruct M1 as [X (pl & Y & Z')]. split; [exact X|]. exists pl. split; [lia|exact Z']. }
  assert (FS : forall k, (k < numIter)%nat -> firstn (S k) (seq 0 numIter) = seq 0 (S k)). { intros k Hk. replace numIter with (S k + (numIter - S k))%nat by lia. rewrite seq_app, firstn_app, seq_length, Nat.sub_diag. rewrite firstn_all2 by (rewrite seq_length; lia). apply app_nil_r. }
  destruct (loop_ok ce g A U s (fun id => smallpoly (r_r (u_party u id))) Bs B Dm (Z.of_nat logN - 1) ids (rs_keys (tc_rlk tc)) (tc_rot tc) (u_oo u) (u_zero u) pk encode _ Bs ee _ LS decode u Hdec (tc_sk tc) Hsk pr iterA _ Iit lt (seq 0 numIter) _ _ _ _ (in_v i, in_beta i) st1 ES) as (vb & ms & st2 & El & HRv & M2 & _ & Len & Hk).
  { split; cbn [fst snd]; unfold RCe; cbn [fa a_l a_s a_m a_e]; rewrite Ec1; [exact Iv|exact Ib]. } { exact M1'. }
  { rewrite seq_length. intros k vk lk Hk. rewrite (FS k Hk). apply HL. exact Hk. }
  rewrite seq_length in Len. rewrite Ec1, Ec2 in *.
  pose proof (enc_all pp Hpp sc Bs B HBs HB encode ee Henc u HSp s ids pk is Hpk Hsn Hc0 (companyNames_0 _) E3) as HEA.
  pose proof (predicts_ok ce g A U s (fun id => smallpoly (r_r (u_party u id))) Bs B Dm (Z.of_nat logN - 1) ids (rs_keys (tc_rlk tc)) (tc_rot tc) (u_oo u) (u_zero u) pk encode (repeat 0%R hN) Bs ee _ LS decode u Hdec (tc_sk tc)) as HPr.
  rewrite Lid in HPr. rewrite Ec1, Ec2 in HPr.
  destruct (HPr Hsk (errConst top sc e K) (in_K i) HKE e hN nf is lt st (snd avb) (snd vb) (proj2 HRv) log2 HEA HI xs st2 Hxs M2) as (preds & st3 & Ep & Pp).
  exists (mkResult tc zs vb ms preds). split.
  { unfold mainProgram. rewrite E1. cbn [bind]. rewrite E2. cbn [bind]. rewrite E4. cbn [bind]. rewrite EP. fold pp. rewrite EN, E6. cbn [bind]. rewrite Ei. cbn [bind]. fold sto. rewrite Ez. cbn [bind]. rewrite El. cbn [bind fst snd]. rewrite Ep. reflexivity. }
  cbn [mr_tc mr_pre mr_vb mr_iter mr_pred]. rewrite EP. split; [reflexivity|]. split; [exact Pz|]. split; [exact Len|]. split.
  { intros k mb mv Hn. assert (Hk0 : (k < length ms)%nat) by (apply nth_error_Some; congruence). destruct (Hk k Hk0) as (vk & lk & mb' & mv' & X1 & X2 & X3 & X4). rewrite X2 in Hn. injection Hn as <- <-.
    exists vk, lk. rewrite FS in X1 by (rewrite Len in Hk0; destruct pr; lia). auto. }
  destruct HRv as [Rv Rb]. unfold RCe in Rv, Rb. rewrite Ec1 in Rv, Rb. split; [eapply encrypts_crs; exact Rv|]. split; [eapply encrypts_crs; exact Rb|]. unfold predicted in Pp. rewrite Lid, Ec1, Ec2 in Pp. exact Pp.
Qed.

Notation SO := (scaleOps Q top sc).
Notation t0 := (top, sc).
Notation zeroA := (fa top sc e (fun _ => 0%R)).
Notation nzb := (lr_noise pb (Z.of_nat numCompany) Bs B Dm (Z.of_nat logN - 1) Bs B ee).
Lemma cS (K : lrconst (Z -> R) (Z -> R)) : const_refine RCs RPs (scaleConst top sc K) (errConst top sc e K).
Proof. apply (const_map eq eq); [intros; subst; split; reflexivity|intros; subst; reflexivity|apply const_refl]. Qed.
Lemma cX (K : lrconst (Z -> R) (Z -> R)) : const_refine RCx RPx (errConst top sc e K) K.
Proof. eapply (const_mapl eq eq); [| |apply const_refl]; intros a b <- i; reflexivity. Qed.
Lemma rS : ops_refine eq RCs RPs SO EA. Proof. apply scale_refines. Qed.
Lemma rX : ops_refine RSx RCx RPx EA (exactOps 0%R Rplus Rmult (Z.of_nat hN)). Proof. apply exact_refines. reflexivity. Qed.
Lemma fS m : RCs t0 (fa top sc e m). Proof. split; reflexivity. Qed.
Lemma fX m : RCx (fa top sc e m) m. Proof. intros i; reflexivity. Qed.
Lemma sbind_inv {S A' B'} (m : SM S A') (k : A' -> SM S B') st0 b st1 : sbind m k st0 = Ok (b, st1) -> exists a st', m st0 = Ok (a, st') /\ k a st' = Ok (b, st1).
Proof. unfold sbind. intros H. apply bind_inv in H as ([a st'] & E & H). eauto. Qed.
Lemma infer_level K nf t b log at' log' : infer EA (errConst top sc e K) nf t b log = Ok (at', log') -> (a_l at' <= top)%nat.
Proof.
  unfold infer. intros H. do 6 (apply sbind_inv in H as (? & ? & _ & H)). cbn [o_add errOps] in H. destruct (cmpb _ _); [|discriminate]. injection H as <- _. cbn [a_l]. cbn [errConst mapConst k_9 fa a_l]. apply Nat.le_min_r.
Qed.
(** the inference on a data point *)
Lemma infer_gen K nf c0 c1 c3 (ab : aval) lb sb lt st log (x : list R) sl : hN = (2 ^ sl)%nat -> c3 <> 0%R -> (nf <= hN)%nat -> (nf <= length x)%nat -> RCs (lb, sb) ab ->
  k_5 K = (fun _ => (c1 / c3)%R) -> k_8 K = (fun _ => c3) -> k_9 K = (fun _ => c0) ->
  infer SO (scaleConst top sc K) (Z.of_nat nf) t0 (lb, sb) [] = Ok ((lt, st), log) ->
  (forall m, exists at', infer EA (errConst top sc e K) (Z.of_nat nf) (fa top sc e m) ab [] = Ok (at', log) /\ a_l at' = lt /\ a_s at' = st) /\
  exists tv, testVector 0%R hN nf x = Ok tv /\ forall at', infer EA (errConst top sc e K) (Z.of_nat nf) (fa top sc e (ofList 0%R tv)) ab [] = Ok (at', log) ->
    a_m at' 0 = sigma3 Rplus Rmult c0 c1 c3 (dot 0%R Rplus Rmult nf (entry1 0%R x) (fun k => a_m ab (Z.of_nat k))).
Proof.
  intros En Hc3 Hnf Hx Hab K5 K8 K9 ES. split.
  - intros m. destruct (ref_infer eq RCs RPs SO EA rS _ _ (cS K) (Z.of_nat nf) t0 (fa top sc e m) (lb, sb) ab (fS m) Hab [] [] _ _ eq_refl ES) as (at' & log' & E & [L1 L2] & <-). exists at'. auto.
  - assert (Hc13 : (c3 * (c1 / c3) = c1)%R) by (field; exact Hc3).
    pose proof (lrInfer_ok 0%R 1%R Rplus Rmult Rminus Ropp RTheory sl nf c0 c1 c3 (c1 / c3)%R (a_m ab) x Hc13 ltac:(lia) Hx) as EI. rewrite <- En in EI. unfold lrInfer in EI. apply bind_inv in EI as (tv & Et & EI). cbv zeta in EI. apply bind_inv in EI as ([w []] & EI & Ew). injection Ew as Ew.
    exists tv. split; [exact Et|]. intros at' E. destruct (ref_infer RSx RCx RPx EA _ rX _ _ (cX K) (Z.of_nat nf) _ (ofList 0%R tv) ab (a_m ab) (fX _) (fun i => eq_refl) [] tt _ _ I E) as (w' & [] & E' & Hw & _).
    assert (EK : infer (exactOps 0%R Rplus Rmult (Z.of_nat hN)) K (Z.of_nat nf) (ofList 0%R tv) (a_m ab) tt = infer (exactOps 0%R Rplus Rmult (Z.of_nat hN)) (vconst 0%R 1%R Rmult Rminus Ropp 0%R c0 c3 (c1 / c3)%R [] [] (fun _ => 0%R)) (Z.of_nat nf) (ofList 0%R tv) (a_m ab) tt).
    { clear - K5 K8 K9. destruct K as [x1 x2 x3 x4 x5 x6 x7 x8 x9 x10]. cbn in K5, K8, K9. subst x6 x9 x10. reflexivity. }
    pose proof (eq_trans (eq_sym EI) (eq_trans (eq_sym EK) E')) as E3. injection E3 as <-. rewrite (Hw 0). exact Ew.
Qed.
Theorem program_ok toy rr c nf numIter gamma c0 c1 c3 etas feature label xs lv sv lb sb lt st log1 log2 :
  logN = S (rr + c) -> c3 <> 0%R -> (nf <= 2 ^ c)%nat -> table feature (2 ^ rr) nf -> (2 ^ rr <= length label)%nat -> length etas = numIter -> (forall x, In x xs -> nf <= length x)%nat ->
  let n := (2 ^ rr * 2 ^ c)%nat in let gn := (gamma / INR (2 ^ rr))%R in
  let trainS k := train SO (KC top sc numIter) (Z.of_nat (2 ^ rr)) (Z.of_nat (2 ^ c)) k t0 (t0, t0) [] in
  trainS numIter = Ok (((lv, sv), (lb, sb)), log1) -> infer SO (KC top sc numIter) (Z.of_nat nf) t0 (lb, sb) [] = Ok ((lt, st), log2) -> stays trainS numIter lt ->
  let nb k := nesterovAll 0%R 1%R Rplus Rmult Rminus c0 c1 c3 gn nf (entry 0%R feature) (entry1 0%R label) (fun _ => seq 0 (2 ^ rr)) (firstn k etas) in
  exists zv yv rs, zVector 0%R n (2 ^ rr) (2 ^ c) nf feature = Ok zv /\ labelVector 0%R n (2 ^ rr) (2 ^ c) label = Ok yv /\
    let KA := errConst top sc e (vconst 0%R 1%R Rmult Rminus Ropp gn c0 c3 (c1 / c3)%R etas (maskVector 0%R 1%R n (2 ^ c)) (ofList 0%R yv)) in
    let trainA k := train EA KA (Z.of_nat (2 ^ rr)) (Z.of_nat (2 ^ c)) k (fa top sc e (ofList 0%R zv)) (zeroA, zeroA) [] in
    lrProgram 0%R 1%R Rmult Rminus Ropp encode decode lz toy u logN Q P psiQ psiP sc rots numCompany n (2 ^ rr) (2 ^ c) nf numIter gn c0 c3 (c1 / c3)%R etas feature label xs = Ok rs /\
    run_result pb decode s ids n (2 ^ rr) (2 ^ c) nf numIter c0 c1 c3 nb EA KA (fa top sc e) trainA (if toy then [fa top sc e (ofList 0%R zv)] else []) (negb toy) lv sv lb sb lt st log1 log2 xs rs.
Proof.
  intros HN Hc3 Hnf Ht Hl He Hx n gn trainS ES EI Hst nb. assert (Hc13 : (c3 * (c1 / c3) = c1)%R) by (field; exact Hc3).
  assert (En : n = hN). { unfold n. rewrite <- Nat.pow_add_r. unfold pa_N, bare. cbn [pa_logN]. unfold deg. rewrite HN, Nat.pow_succ_r', Nat.mul_comm. symmetry. apply Nat.div_mul. lia. }
  assert (En2 : hN = (2 ^ (rr + c))%nat) by (rewrite <- En; unfold n; now rewrite Nat.pow_add_r).
  destruct (lrTrain_rows 0%R 1%R Rplus Rmult Rminus Ropp RTheory rr c nf numIter gn c0 c1 c3 (c1 / c3)%R etas feature label Hc13 Hnf Ht Hl ltac:(lia)) as (wv & wb & ET & _). fold n in ET.
  unfold lrTrain in ET. apply bind_inv in ET as (zv & Ez & ET). apply bind_inv in ET as (yv & Ey & _). clear wv wb.
  set (K := vconst 0%R 1%R Rmult Rminus Ropp gn c0 c3 (c1 / c3)%R etas (maskVector 0%R 1%R n (2 ^ c)) (ofList 0%R yv)).
  set (KA := errConst top sc e K). set (zA := fa top sc e (ofList 0%R zv)).
  set (trainA := fun k => train EA KA (Z.of_nat (2 ^ rr)) (Z.of_nat (2 ^ c)) k zA (zeroA, zeroA) []).
  assert (HKS : scaleConst top sc K = KC top sc numIter). { apply scaleConst_len. rewrite <- He. apply vconst_len. }
  assert (HSA : forall k lv sv lb sb log, trainS k = Ok (((lv, sv), (lb, sb)), log) -> exists av ab, trainA k = Ok ((av, ab), log) /\ RCs (lv, sv) av /\ RCs (lb, sb) ab).
  { intros k lv' sv' lb' sb' log E. unfold trainS in E. rewrite <- HKS in E.
    destruct (ref_train eq RCs RPs SO EA rS _ _ (cS K) (Z.of_nat (2 ^ rr)) (Z.of_nat (2 ^ c)) k t0 zA (t0, t0) (zeroA, zeroA) (fS _) (conj (fS _) (fS _)) [] [] _ _ eq_refl E) as ([av ab] & log' & E1 & [R1 R2] & <-). exists av, ab. auto. }
  assert (HXk : forall k vk lk, (k <= numIter)%nat -> trainA k = Ok (vk, lk) -> rows_hold (2 ^ rr) (2 ^ c) nf (a_m (fst vk)) (fst (nb k)) /\ rows_hold (2 ^ rr) (2 ^ c) nf (a_m (snd vk)) (snd (nb k))).
  { intros k vk lk Hk E. destruct (lrTrain_rows 0%R 1%R Rplus Rmult Rminus Ropp RTheory rr c nf k gn c0 c1 c3 (c1 / c3)%R etas feature label Hc13 Hnf Ht Hl ltac:(lia)) as (wv & wb & ET' & HT). fold n in ET'.
    unfold lrTrain in ET'. rewrite Ez, Ey in ET'. cbn [bind] in ET'. cbv zeta in ET'. apply bind_inv in ET' as ([vb []] & ET' & Evb). injection Evb as ->. fold K in ET'.
    destruct (ref_train RSx RCx RPx EA _ rX _ _ (cX K) (Z.of_nat (2 ^ rr)) (Z.of_nat (2 ^ c)) k zA (ofList 0%R zv) (zeroA, zeroA) (fun _ => 0%R, fun _ => 0%R) (fX _) (conj (fX _) (fX _)) [] tt _ _ I E) as ([xv xb] & [] & E1 & [R1 R2] & _).
    rewrite <- En in E1. pose proof (eq_trans (eq_sym ET') E1) as E3. injection E3 as <- <-. cbn [fst snd] in *. fold (nb k) in HT. split; intros row j Hr Hj; destruct (HT row j Hr Hj) as [T1 T2]; [rewrite (R1 _)|rewrite (R2 _)]; assumption. }
  destruct (HSA _ _ _ _ _ _ ES) as (av & ab & EA1 & [Lv Sv] & RB). pose proof RB as [Lb Sb]. cbn [fst snd] in Lv, Sv, Lb, Sb. rewrite <- HKS in EI.
  assert (Hnf' : (nf <= hN)%nat). { rewrite En2, Nat.pow_add_r. pose proof (pow2_pos rr). nia. }
  assert (Hnb : forall k, (k < nf)%nat -> a_m ab (Z.of_nat k) = snd (nb numIter) k). { intros k Hk. destruct (HXk numIter _ _ (Nat.le_refl _) EA1) as [_ X]. specialize (X 0%nat k (pow2_pos rr) Hk). rewrite Nat.mul_0_r in X. exact X. }
  assert (HIg : forall x, In x xs -> exists tv, testVector 0%R hN nf x = Ok tv /\ forall at', infer EA KA (Z.of_nat nf) (fa top sc e (ofList 0%R tv)) ab [] = Ok (at', log2) ->
     a_m at' 0 = sigma3 Rplus Rmult c0 c1 c3 (dot 0%R Rplus Rmult nf (entry1 0%R x) (snd (nb numIter)))).
  { intros x Hin. destruct (infer_gen K nf c0 c1 c3 ab lb sb lt st log2 x (rr + c) En2 Hc3 Hnf' (Hx x Hin) RB eq_refl eq_refl eq_refl EI) as [_ (tv & Et & Hat)]. exists tv. split; [exact Et|]. intros at' E. rewrite (Hat at' E). f_equal. unfold dot. apply SlotThms.sum_ext. intros k Hk. now rewrite Hnb. }
  destruct (infer_gen K nf c0 c1 c3 ab lb sb lt st log2 (repeat 0%R nf) (rr + c) En2 Hc3 Hnf' ltac:(rewrite repeat_length; lia) RB eq_refl eq_refl eq_refl EI) as [HIA _]. fold KA in HIA.
  destruct (main_gen (fun cp pk ids => lrEncrypt 0%R 1%R Rmult Rminus Ropp encode cp u pk ids hN (2 ^ rr) (2 ^ c) nf gn c0 c3 (c1 / c3)%R etas feature label)
     (fun z => if toy then [z] else []) (if toy then [zA] else []) (negb toy) (fun E K z => trainIter E K (Z.of_nat (2 ^ rr)) (Z.of_nat (2 ^ c)) z)
     (trainIter EA KA (Z.of_nat (2 ^ rr)) (Z.of_nat (2 ^ c)) zA) K nf numIter xs (av, ab) lt st log1 log2) as (rs & G1 & G2 & G3 & G4 & G5 & G6 & G7 & G8).
  - intros crs pk is pp Hpp HSp Hpk Hin His.
    assert (Hsn : pnorm_le (pa_N pp) (s (pk_ID pk)) Bs). { destruct (so_party _ _ _ _ HS (pk_ID pk)) as (X1 & _). apply smallpoly_norm. exact X1. }
    pose proof (encrypt_inputs pp Hpp sc Bs B HBs HB encode ee Henc u HSp s ids pk is Hpk Hsn Hin (companyNames_0 _) His (2 ^ rr) (2 ^ c) nf gn c0 c3 (c1 / c3)%R etas feature label zv yv) as HEi. change (pa_N pp) with (pa_N pb) in HEi. rewrite <- En in HEi.
    destruct (HEi Ez Ey) as (i & Ei & I0 & IK & Iz & Iv & Ib). exists i. rewrite <- En. split; [exact Ei|]. split; [exact I0|]. split; [exact IK|]. split; [exact Iv|]. split; [exact Ib|]. split.
    + destruct toy; [|constructor]. constructor; [exact Iz|constructor].
    + intros ce keys E Ec1 Ec2 HR HK a v w Hvw. apply (ref_trainIter _ _ _ _ _ HR _ _ HK); [|exact Hvw]. unfold RCe. rewrite Ec1. exact Iz.
  - destruct toy; [|constructor]. constructor; [reflexivity|constructor].
  - exact EA1.
  - destruct (HIA (fun _ => 0%R)) as (at' & E & <- & _). exact (infer_level _ _ _ _ _ _ _ E).
  - exact HIA.
  - intros k vk lk Hk E. assert (Hp : exists r0, trainS (S k) = Ok r0). { apply (sfold_prefix (trainIter SO (KC top sc numIter) (Z.of_nat (2 ^ rr)) (Z.of_nat (2 ^ c)) t0) (S k) numIter (t0, t0) [] _ ltac:(lia) ES). }
    destruct Hp as ([[[lv' sv'] [lb' sb']] log'] & Ek). destruct (Hst k _ _ _ _ _ Hk Ek) as [X1 X2]. destruct (HSA _ _ _ _ _ _ Ek) as (av' & ab' & EA' & [Y1 _] & [Y2 _]). unfold trainA, train in EA'. rewrite E in EA'. injection EA' as -> ->. cbn [fst snd] in *. lia.
  - intros x Hin. destruct (HIg x Hin) as (tv & Et & _). exists tv. exact Et.
  - exists zv, yv, rs. split; [exact Ez|]. split; [exact Ey|]. cbv zeta. fold K KA zA. unfold lrProgram. rewrite En. split; [exact G1|]. constructor; [exact G2|exact HXk|exact G3|exact G4| |].
    { intros k mb mv Hn. destruct (G5 k mb mv Hn) as ([av' ab'] & lk & X1 & X2 & X3). exists av', ab', lk. auto. }
    exists av, ab. split; [exact EA1|]. cbn [fst snd] in *. rewrite Lv, Sv, Lb, Sb in *. split; [exact G6|]. split; [exact G7|].
    clear -G8 HIg En Hx. revert HIg. induction G8 as [|x m xs0 ms (tv & at' & X1 & X2 & X3) _ IH]; intros HIg; constructor.
    + destruct (HIg x (or_introl eq_refl)) as (tv' & Et & Hat). rewrite X1 in Et. injection Et as <-. exists tv, at'. split; [exact X1|]. split; [exact X2|]. split; [exact (Hat at' X2)|exact X3].
    + apply IH. * intros y Hy. apply Hx. now right. * intros y Hy. apply HIg. now right.
Qed.

Theorem program_batch_ok sl nf batchSize numTrain ne numIter gn c0 c1 c3 etas feature label xs lv sv lb sb lt st log1 log2 :
  let c := Nat.log2_up nf in
  logN = S sl -> c3 <> 0%R -> (c <= sl)%nat -> (0 < batchSize <= numTrain)%nat -> (batchSize < 2 ^ (sl - c))%nat \/ Nat.divide (2 ^ (sl - c)) batchSize ->
  table feature numTrain nf -> (numTrain <= length label)%nat -> length etas = ne -> (numIter <= ne)%nat -> (forall x, In x xs -> nf <= length x)%nat ->
  let n := (2 ^ sl)%nat in let rows := (2 ^ (sl - c))%nat in
  let trainS k := trainBatch SO (KC top sc ne) (Z.of_nat rows) (Z.of_nat (2 ^ c)) (repeat (repeat (t0, sc, repeat sc ne) (numCtPerBatch n nf batchSize)) (numTrain / batchSize)) k (t0, t0) [] in
  trainS numIter = Ok (((lv, sv), (lb, sb)), log1) -> infer SO (KC top sc ne) (Z.of_nat nf) t0 (lb, sb) [] = Ok ((lt, st), log2) -> stays trainS numIter lt ->
  let nb k := nesterovAll 0%R 1%R Rplus Rmult Rminus c0 c1 c3 gn nf (entry 0%R feature) (entry1 0%R label) (fun a => seq (a mod (numTrain / batchSize) * batchSize) batchSize) (firstn k etas) in
  exists bs rs, packBatches 0%R 1%R Rmult Rminus Ropp n nf numTrain batchSize gn c0 c3 (c1 / c3)%R etas feature label = Ok bs /\
    let KA := errConst top sc e (vconst 0%R 1%R Rmult Rminus Ropp gn c0 c3 (c1 / c3)%R etas (maskVector 0%R 1%R n (2 ^ c)) (fun _ => 0%R)) in
    let trainA k := trainBatch EA KA (Z.of_nat rows) (Z.of_nat (2 ^ c)) (mapBatches (fa top sc e) (fp sc e) bs) k (zeroA, zeroA) [] in
    lrBatchProgram 0%R 1%R Rmult Rminus Ropp encode decode lz u logN Q P psiQ psiP sc rots numCompany n nf (2 ^ c) numTrain batchSize numIter gn c0 c3 (c1 / c3)%R etas feature label xs = Ok rs /\
    run_result pb decode s ids n rows (2 ^ c) nf numIter c0 c1 c3 nb EA KA (fa top sc e) trainA [] true lv sv lb sb lt st log1 log2 xs rs.
Proof.
  intros c HN Hc3 Hs Hb0 Hd Ht Hl He Hni Hx n rows trainS ES EI Hst nb. assert (Hc13 : (c3 * (c1 / c3) = c1)%R) by (field; exact Hc3).
  assert (En : n = hN). { unfold n, pa_N, bare. cbn [pa_logN]. unfold deg. rewrite HN, Nat.pow_succ_r', Nat.mul_comm. symmetry. apply Nat.div_mul. lia. }
  assert (Er : numDataPerCt n nf = rows). { unfold numDataPerCt, rows, n. rewrite Nat.log2_pow2 by lia. reflexivity. }
  assert (Hbs : exists bs, packBatches 0%R 1%R Rmult Rminus Ropp n nf numTrain batchSize gn c0 c3 (c1 / c3)%R etas feature label = Ok bs).
  { destruct (lrTrainBatch_exact 0%R 1%R Rplus Rmult Rminus Ropp RTheory sl nf batchSize numTrain numIter gn c0 c1 c3 (c1 / c3)%R etas feature label Hc13 Hs Hb0 Hd Ht Hl ltac:(lia)) as (wv & wb & ET & _).
    unfold lrTrainBatch in ET. apply bind_inv in ET as (bs & Eb & _). exists bs. exact Eb. }
  destruct Hbs as (bs & Eb).
  set (K := vconst 0%R 1%R Rmult Rminus Ropp gn c0 c3 (c1 / c3)%R etas (maskVector 0%R 1%R n (2 ^ c)) (fun _ => 0%R)).
  set (KA := errConst top sc e K). set (bA := mapBatches (fa top sc e) (fp sc e) bs).
  set (trainA := fun k => trainBatch EA KA (Z.of_nat rows) (Z.of_nat (2 ^ c)) bA k (zeroA, zeroA) []).
  assert (HKS : scaleConst top sc K = KC top sc ne). { apply scaleConst_len. rewrite <- He. apply vconst_len. }
  assert (HBS : mapBatches (fun _ => t0) (fun _ => sc) bs = repeat (repeat (t0, sc, repeat sc ne) (numCtPerBatch n nf batchSize)) (numTrain / batchSize)).
  { rewrite <- He. exact (batches_shape _ _ _ _ _ _ _ _ _ _ _ _ t0 sc Eb). }
  assert (Bs1 : Forall2 (Forall2 (RD RCs RPs)) (mapBatches (fun _ => t0) (fun _ => sc) bs) bA).
  { apply (f2_map _ eq); [|apply f2_same; auto]. intros l ? <-. apply (f2_map _ eq); [|apply f2_same; auto]. intros [[a b] d] ? <-. split; [apply fS|]. split; [reflexivity|]. apply (f2_map _ eq); [|apply f2_same; auto]. intros; subst; reflexivity. }
  assert (Bs3 : Forall2 (Forall2 (RD RCx RPx)) bA bs).
  { apply (f2_mapl _ eq); [|apply f2_same; auto]. intros l ? <-. apply (f2_mapl _ eq); [|apply f2_same; auto]. intros [[a b] d] ? <-. split; [apply fX|]. split; [intros i; reflexivity|]. apply (f2_mapl _ eq); [|apply f2_same; auto]. intros a0 ? <- i; reflexivity. }
  assert (HSA : forall k lv sv lb sb log, trainS k = Ok (((lv, sv), (lb, sb)), log) -> exists av ab, trainA k = Ok ((av, ab), log) /\ RCs (lv, sv) av /\ RCs (lb, sb) ab).
  { intros k lv' sv' lb' sb' log E. unfold trainS in E. rewrite <- HKS, <- HBS in E.
    destruct (ref_trainBatch eq RCs RPs SO EA rS _ _ (cS K) (Z.of_nat rows) (Z.of_nat (2 ^ c)) _ _ k (t0, t0) (zeroA, zeroA) Bs1 (conj (fS _) (fS _)) [] [] _ _ eq_refl E) as ([av ab] & log' & E1 & [R1 R2] & <-). exists av, ab. auto. }
  assert (HXk : forall k vk lk, (k <= numIter)%nat -> trainA k = Ok (vk, lk) -> rows_hold rows (2 ^ c) nf (a_m (fst vk)) (fst (nb k)) /\ rows_hold rows (2 ^ c) nf (a_m (snd vk)) (snd (nb k))).
  { intros k vk lk Hk E. destruct (lrTrainBatch_exact 0%R 1%R Rplus Rmult Rminus Ropp RTheory sl nf batchSize numTrain k gn c0 c1 c3 (c1 / c3)%R etas feature label Hc13 Hs Hb0 Hd Ht Hl ltac:(lia)) as (wv & wb & ET' & HT). fold n c rows in ET', HT.
    unfold lrTrainBatch in ET'. rewrite Eb in ET'. cbn [bind] in ET'. cbv zeta in ET'. apply bind_inv in ET' as ([vb []] & ET' & Evb). injection Evb as ->. fold K in ET'. rewrite Er in ET'. change (slotsPerData nf) with (2 ^ c)%nat in ET'.
    destruct (ref_trainBatch RSx RCx RPx EA _ rX _ _ (cX K) (Z.of_nat rows) (Z.of_nat (2 ^ c)) _ _ k (zeroA, zeroA) (fun _ => 0%R, fun _ => 0%R) Bs3 (conj (fX _) (fX _)) [] tt _ _ I E) as ([xv xb] & [] & E1 & [R1 R2] & _).
    rewrite <- En in E1. pose proof (eq_trans (eq_sym ET') E1) as E3. injection E3 as <- <-. cbn [fst snd] in *. fold (nb k) in HT. split; intros row j Hr Hj; destruct (HT row j Hr Hj) as [T1 T2]; [rewrite (R1 _)|rewrite (R2 _)]; assumption. }
  destruct (HSA _ _ _ _ _ _ ES) as (av & ab & EA1 & [Lv Sv] & RB). pose proof RB as [Lb Sb]. cbn [fst snd] in Lv, Sv, Lb, Sb. rewrite <- HKS in EI.
  assert (Hnc : (nf <= 2 ^ c)%nat). { unfold c. destruct nf as [|[|m]]; [cbn; lia|cbn; lia|]. pose proof (Nat.log2_up_spec (S (S m)) ltac:(lia)). lia. }
  assert (Hnf' : (nf <= hN)%nat). { rewrite <- En. eapply Nat.le_trans; [exact Hnc|]. apply Nat.pow_le_mono_r; [lia|exact Hs]. }
  assert (Hnb : forall k, (k < nf)%nat -> a_m ab (Z.of_nat k) = snd (nb numIter) k). { intros k Hk. destruct (HXk numIter _ _ (Nat.le_refl _) EA1) as [_ X]. specialize (X 0%nat k (pow2_pos _) Hk). rewrite Nat.mul_0_r in X. exact X. }
  assert (HIg : forall x, In x xs -> exists tv, testVector 0%R hN nf x = Ok tv /\ forall at', infer EA KA (Z.of_nat nf) (fa top sc e (ofList 0%R tv)) ab [] = Ok (at', log2) ->
     a_m at' 0 = sigma3 Rplus Rmult c0 c1 c3 (dot 0%R Rplus Rmult nf (entry1 0%R x) (snd (nb numIter)))).
  { intros x Hin. destruct (infer_gen K nf c0 c1 c3 ab lb sb lt st log2 x sl (eq_sym En) Hc3 Hnf' (Hx x Hin) RB eq_refl eq_refl eq_refl EI) as [_ (tv & Et & Hat)]. exists tv. split; [exact Et|]. intros at' E. rewrite (Hat at' E). f_equal. unfold dot. apply SlotThms.sum_ext. intros k Hk. now rewrite Hnb. }
  destruct (infer_gen K nf c0 c1 c3 ab lb sb lt st log2 (repeat 0%R nf) sl (eq_sym En) Hc3 Hnf' ltac:(rewrite repeat_length; lia) RB eq_refl eq_refl eq_refl EI) as [HIA _]. fold KA in HIA.
  destruct (main_gen (fun cp pk ids => lrBatchEncrypt 0%R 1%R Rmult Rminus Ropp encode cp u pk ids hN nf (2 ^ c) numTrain batchSize gn c0 c3 (c1 / c3)%R etas feature label)
     (fun _ => []) [] true (fun E K z => batchIter E K (Z.of_nat (numDataPerCt hN nf)) (Z.of_nat (slotsPerData nf)) z)
     (batchIter EA KA (Z.of_nat rows) (Z.of_nat (2 ^ c)) bA) K nf numIter xs (av, ab) lt st log1 log2) as (rs & G1 & G2 & G3 & G4 & G5 & G6 & G7 & G8).
  - intros crs pk is pp Hpp HSp Hpk Hin His.
    assert (Hsn : pnorm_le (pa_N pp) (s (pk_ID pk)) Bs). { destruct (so_party _ _ _ _ HS (pk_ID pk)) as (X1 & _). apply smallpoly_norm. exact X1. }
    pose proof (encrypt_batches pp Hpp sc Bs B HBs HB encode ee Henc u HSp s ids pk is Hpk Hsn Hin (companyNames_0 _) His nf (2 ^ c) numTrain batchSize gn c0 c3 (c1 / c3)%R etas feature label bs) as HEi. change (pa_N pp) with (pa_N pb) in HEi. rewrite <- En in HEi.
    destruct (HEi Eb) as (i & Ei & I0 & IK & Iz & Iv & Ib). exists i. rewrite <- En. split; [exact Ei|]. split; [exact I0|]. split; [exact IK|]. split; [exact Iv|]. split; [exact Ib|]. split; [constructor|].
    intros ce keys E Ec1 Ec2 HR HK a v w Hvw. rewrite Er. change (slotsPerData nf) with (2 ^ c)%nat. apply (ref_batchIter _ _ _ _ _ HR _ _ HK); [|exact Hvw].
    unfold bA. unfold batches_held in Iz. eapply f2_mapl; [|exact Iz]. intros l l' Hll. eapply f2_mapl; [|exact Hll]. intros x y (X1 & X2 & X3). unfold RD, RCe, RPe. rewrite Ec1. split; [exact X1|]. split; [exact X2|]. eapply f2_mapl; [|exact X3]. intros a0 b0 X; exact X.
  - constructor.
  - exact EA1.
  - destruct (HIA (fun _ => 0%R)) as (at' & E & <- & _). exact (infer_level _ _ _ _ _ _ _ E).
  - exact HIA.
  - intros k vk lk Hk E. assert (Hp : exists r0, trainS (S k) = Ok r0). { apply (sfold_prefix _ (S k) numIter (t0, t0) [] _ ltac:(lia) ES). }
    destruct Hp as ([[[lv' sv'] [lb' sb']] log'] & Ek). destruct (Hst k _ _ _ _ _ Hk Ek) as [X1 X2]. destruct (HSA _ _ _ _ _ _ Ek) as (av' & ab' & EA' & [Y1 _] & [Y2 _]). unfold trainA, trainBatch in EA'. rewrite E in EA'. injection EA' as -> ->. cbn [fst snd] in *. lia.
  - intros x Hin. destruct (HIg x Hin) as (tv & Et & _). exists tv. exact Et.
  - exists bs, rs. split; [exact Eb|]. cbv zeta. fold K KA bA. unfold lrBatchProgram. rewrite En. split; [exact G1|]. constructor; [exact G2|exact HXk|exact G3|exact G4| |].
    { intros k mb mv Hn. destruct (G5 k mb mv Hn) as ([av' ab'] & lk & X1 & X2 & X3). exists av', ab', lk. auto. }
    exists av, ab. split; [exact EA1|]. cbn [fst snd] in *. rewrite Lv, Sv, Lb, Sb in *. split; [exact G6|]. split; [exact G7|].
    clear -G8 HIg En Hx. revert HIg. induction G8 as [|x m xs0 ms (tv & at' & X1 & X2 & X3) _ IH]; intros HIg; constructor.
    + destruct (HIg x (or_introl eq_refl)) as (tv' & Et & Hat). rewrite X1 in Et. injection Et as <-. exists tv, at'. split; [exact X1|]. split; [exact X2|]. split; [exact (Hat at' X2)|exact X3].
    + apply IH. * intros y Hy. apply Hx. now right. * intros y Hy. apply HIg. now right.
Qed.
End T.
