(** RotateNew, RotateHoistedNew, ConjugateNew and HoistedForm. *)
From Coq Require Import String ZArith Znumtheory List Lia Setoid Morphisms Bool Permutation.
From Verif Require Import Spec SpecProofs Go GoProofs Lattigo LattigoProofs Arith Fermat NegRing NegRingProofs NTT NTTProofs F64 BasisExt BasisExtProofs ModDownProofs DecomposeProofs RingOps RingOpsProofs Maps MapsProofs Params Elements KeySwitch KeySets EncDec Utils Evaluator KSProofs KSMulProofs Crt ParamsProofs KSAlg KSNorm Repr SpecKeys KeySpec SpecCt KSSem MulThms SpecEnc EncProofs EncThms CkEncThms SpecEv EvProofs RescaleProofs EvThms AddThms MulEvThms Galois RotProofs SpecRot RotThms ConjThms KeyGenProofs.
Import ListNotations.
Local Open Scope Z_scope.
Local Open Scope list_scope.

(** * copying into a ciphertext of the same parties and level *)
Lemma pCopy_full dst src : plen dst = plen src -> pCopy dst src = src.
Proof. intros H. rewrite pCopy_short by lia. rewrite H. unfold plen. rewrite firstn_all. now destruct src. Qed.
Lemma ctCopy_ok pp l o el ct : ct_ok pp l ct -> NoDup (mkeys el) -> (forall id p, sget el id = Some p -> plen p = (l + 1)%nat) -> same_keys el ct -> order_ok o ->
  exists r, ctCopy o el ct = Ok r /\ mkeys r = mkeys el /\ same_ct r ct.
Proof.
  intros HC Hn Hp Hk Ho. unfold ctCopy. set (S0 := o 0%nat (mkeys ct)).
  match goal with |- context [foldM ?ff S0 ?st] =>
    destruct (foldM_inv ff (fun don c => ctall (mkeys el) c (fun id p => plen p = (l + 1)%nat /\ (In id don -> sget ct id = Some p))) S0 st) as (r & E & HR) end.
  { intros don id rest c El HR. assert (Hin : In id (mkeys ct)) by (rewrite <- (order_in o 0%nat _ id Ho); fold S0; rewrite El; apply in_elt).
    assert (Hik : In id (mkeys el)) by now apply Hk. destruct (mget_ex _ seqb ct id Hin) as (src & Es). destruct (proj2 HR id Hik) as (dst & Ed & Hd & _).
    unfold mptr. rewrite Es. cbn [bind]. rewrite Ed. cbn [bind]. eexists. split; [reflexivity|].
    destruct (ck_comp _ _ _ HC id src Es) as (_ & Hsl & _). rewrite pCopy_full by lia.
    eapply ctall_set; [exact HR|exact Hik| |]. { auto. }
    intros x px Hne Hxk [X1 X2]. split; [auto|]. rewrite in_app_iff. cbn. intros [|[->|[]]]; auto. contradiction. }
  { split; [reflexivity|]. intros id Hin. destruct (mget_ex _ seqb el id Hin) as (p & E). exists p. split; [auto|]. split; [eauto|intros []]. }
  exists r. split; [exact E|]. split; [apply HR|]. split; [rewrite (proj1 HR); auto|]. split; [apply HC|]. intros id.
  destruct (in_dec string_dec id (mkeys el)) as [Hi|Hi].
  - destruct (proj2 HR id Hi) as (p & Ep & _ & G). rewrite Ep. symmetry. apply G. apply (order_in o 0%nat _ id Ho). now apply Hk.
  - assert (G : forall m : ciphertext, ~ In id (mkeys m) -> sget m id = None). { intros m Hm. destruct (sget m id) eqn:E'; auto. apply (mget_key _ seqb) in E'. contradiction. }
    rewrite !G; auto; [intros X; apply Hi; now apply Hk|]. now rewrite (proj1 HR).
Qed.
Lemma same_ct_sym a b : same_ct a b -> same_ct b a. Proof. intros (H1 & H2 & H3). split; [auto|]. split; auto. Qed.
Lemma same_ct_trans a b c : same_ct a b -> same_ct b c -> same_ct a c. Proof. intros (H1 & H2 & H3) (K1 & K2 & K3). split; [auto|]. split; [auto|]. intros id. now rewrite H3. Qed.

Section T.
Context (ce : ckenv) (He : env_ok (ce_env ce)).
Notation env := (ce_env ce).
Notation pp := (e_pp env).
Notation N := (pa_N pp).
Notation rQ := (ringQ pp).
Let Hpp := Hpp env He.
Let HN : (0 < N)%nat. Proof. apply deg_pos. Qed.

Lemma rot_setting_same g s Bs Dm a b l : same_keys b a -> ct_ok pp l b -> rot_setting pp g s Bs Dm a l -> rot_setting pp g s Bs Dm b l.
Proof.
  intros Hk Hb [H1 H2 H3 H4 H5]. constructor; auto. intros id [Hi Hne]. apply H4. split; [now apply Hk|auto].
Qed.
Lemma rot_keys_same g Be s a b k rks : same_keys b a -> rot_keys pp g Be s a k rks -> rot_keys pp g Be s b k rks.
Proof.
  intros Hk (A & g' & H1 & H2 & H3 & H4). exists A, g'. split; [auto|]. split; [auto|]. split; [auto|]. intros id [Hi Hne]. apply H4. split; [now apply Hk|auto].
Qed.
Lemma step_noise_same l a b Bs Be Dm : NoDup (mkeys a) -> NoDup (mkeys b) -> same_keys b a -> step_noise pp l b Bs Be Dm = step_noise pp l a Bs Be Dm.
Proof.
  intros H1 H2 Hk. unfold step_noise. f_equal. unfold nparties. do 2 f_equal. apply Permutation_length, NoDup_Permutation; auto.
Qed.
Lemma pow5_odd m : 0 <= m -> Z.Odd (5 ^ m).
Proof.
  intros Hm. rewrite <- Z.odd_spec. destruct (Z.eq_dec m 0) as [->|]; [reflexivity|]. rewrite Z.odd_pow by lia. reflexivity.
Qed.
Lemma auto_comp s l ct e1 e2 B1 B2 c1 c2 : Z.Odd e1 -> Z.Odd e2 -> auto_result pp s l ct e1 B1 c1 -> auto_result pp s l c1 e2 B2 c2 -> auto_result pp s l ct (e2 * e1) (B1 + B2) c2.
Proof.
  intros O1 O2 (A1 & A2 & w1 & A3 & A4) (C1 & C2 & w2 & C3 & C4). split; [auto|]. split. { intros id. rewrite (C2 id). apply A2. }
  exists (padd (psigma N e2 w1) w2). split.
  - eapply pnorm_peq. 2:{ apply pnorm_add; [|exact C3]. apply (pnorm_psigma (pa_logN pp) e2 (pscale (bigP pp) w1) B1 O2 A3). }
    change (deg (pa_logN pp)) with N. rewrite (psigma_scale (pa_logN pp)). change (deg (pa_logN pp)) with N. intros i _. apply cong_eq. unfold padd, pscale. ring.
  - intros j Hj. rewrite (C4 j Hj). rewrite (A4 j Hj). rewrite (psigma_add (pa_logN pp)). rewrite (psigma_comp (pa_logN pp)) by auto. change (deg (pa_logN pp)) with N.
    intros i _. apply cong_eq. unfold padd. ring.
Qed.
Lemma auto_weaken s l ct e B B' c : B <= B' -> auto_result pp s l ct e B c -> auto_result pp s l ct e B' c.
Proof. intros H (A1 & A2 & w & A3 & A4). split; [auto|]. split; [auto|]. exists w. split; [|auto]. eapply pnorm_le_trans; eauto. Qed.
Lemma auto_exp s l ct e e' B c : cong (2 * Z.of_nat N) e e' -> auto_result pp s l ct e B c -> auto_result pp s l ct e' B c.
Proof.
  intros H (A1 & A2 & w & A3 & A4). split; [auto|]. split; [auto|]. exists w. split; [auto|]. intros j Hj. rewrite (A4 j Hj). apply padd_proper; [|reflexivity]. now apply (psigma_cong (pa_logN pp)).
Qed.

(** * rotation by the binary digits of the index *)
Lemma rot_bits g s Bs Be Dm l rks : forall p i ct, 0 <= i -> rot_setting pp g s Bs Dm ct l ->
  (forall b, 0 <= b -> Z.testbit (Zpos p) b = true -> rot_keys pp g Be s ct (2 ^ (i + b)) rks) ->
  exists cout, auto_result pp s l ct (5 ^ (2 ^ i * Zpos p)) (ones p * step_noise pp l ct Bs Be Dm) cout /\
    forall o tmp out kp, same_ct tmp ct -> ct_ok pp l out -> same_keys out ct -> order_ok o -> pool_ok pp kp ->
      exists out' kp', rotBits ce o p (2 ^ i) rks tmp out kp = Ok (out', kp') /\ pool_ok pp kp' /\ same_ct out' cout.
Proof.
  assert (Hone : forall i ct, 0 <= i -> rot_setting pp g s Bs Dm ct l -> rot_keys pp g Be s ct (2 ^ i) rks ->
    exists cout, auto_result pp s l ct (5 ^ (2 ^ i)) (step_noise pp l ct Bs Be Dm) cout /\
    forall o tmp out kp, same_ct tmp ct -> ct_ok pp l out -> same_keys out ct -> order_ok o -> pool_ok pp kp ->
      exists out' tmp' kp', Rotate env o tmp (2 ^ i) rks out kp = Ok (out', kp') /\ ctCopy o tmp out' = Ok tmp' /\ pool_ok pp kp' /\ same_ct out' cout /\ same_ct tmp' cout).
  { intros i ct Hi HS HK. assert (H2 : 0 <= 2 ^ i) by now apply Z.pow_nonneg.
    assert (HNN : normNeg (pa_logN pp) (2 ^ i) = 2 ^ i) by (unfold normNeg; rewrite (proj2 (Z.ltb_ge _ _)); auto).
    destruct (rot_step env He g s Bs Be Dm ct l l rks (2 ^ i) (2 ^ i) None HS (le_n l) H2) as (cout & HA & HR); [reflexivity|now rewrite HNN|exact I|].
    exists cout. split; [exact HA|]. intros o tmp out kp Ht HO Hk Ho Hp. destruct (HR tmp out o None kp Ht HO Hk Ho Hp (or_introl eq_refl)) as (out' & kp' & E & Hp' & HK' & HSm).
    assert (HO' : ct_ok pp l out') by (eapply same_ct_ok; [eauto|apply HA]).
    assert (HT : ct_ok pp l tmp) by (eapply same_ct_ok; [eauto|apply HS]).
    destruct (ctCopy_ok pp l o tmp out' HO' (ck_nd _ _ _ HT)) as (tmp' & E2 & _ & HS2); auto.
    - intros id q Eq. now destruct (ck_comp _ _ _ HT id q Eq) as (_ & X & _).
    - intros id. rewrite (same_ct_keys _ _ Ht id), HK'. symmetry. apply Hk.
    - exists out', tmp', kp'. split; [exact E|]. split; [exact E2|]. split; [auto|]. split; [auto|]. eapply same_ct_trans; eauto. }
  induction p as [p IH|p IH|]; intros i ct Hi HS HK.
  - destruct (Hone i ct Hi HS) as (c1 & HA1 & HR1). { specialize (HK 0 ltac:(lia) eq_refl). now rewrite Z.add_0_r in HK. }
    pose proof HA1 as (Hc1 & Hk1 & _).
    destruct (IH (i + 1) c1 ltac:(lia)) as (c2 & HA2 & HR2).
    { eapply rot_setting_same; eauto. }
    { intros b Hb Hbit. eapply rot_keys_same; [exact Hk1|]. replace (i + 1 + b) with (i + (b + 1)) by lia. apply HK; [lia|].
      change (Z.pos p~1) with (2 * Z.pos p + 1). rewrite (Z.add_1_r b), Z.testbit_odd_succ by auto. exact Hbit. }
    exists c2. split.
    + rewrite (step_noise_same l ct c1) in HA2; [|apply HS|apply Hc1|exact Hk1].
      replace (5 ^ (2 ^ i * Z.pos p~1)) with (5 ^ (2 ^ (i + 1) * Z.pos p) * 5 ^ (2 ^ i)).
      * replace (ones p~1 * step_noise pp l ct Bs Be Dm) with (step_noise pp l ct Bs Be Dm + ones p * step_noise pp l ct Bs Be Dm) by (cbn [ones]; ring).
        eapply auto_comp; eauto; apply pow5_odd; [now apply Z.pow_nonneg|]. apply Z.mul_nonneg_nonneg; [apply Z.pow_nonneg|]; lia.
      * rewrite <- Z.pow_add_r; [|apply Z.mul_nonneg_nonneg; [apply Z.pow_nonneg|]; lia|now apply Z.pow_nonneg]. f_equal. rewrite Z.pow_add_r by lia. change (Z.pos p~1) with (2 * Z.pos p + 1). ring.
    + intros o tmp out kp Ht HO Hk Ho Hp. destruct (HR1 o tmp out kp Ht HO Hk Ho Hp) as (out1 & tmp1 & kp1 & E1 & E2 & Hp1 & HS1 & HS2).
      destruct (HR2 o tmp1 out1 kp1 HS2) as (out2 & kp2 & E3 & Hp2 & HS3); auto.
      { eapply same_ct_ok; [eauto|exact Hc1]. } { intros id. apply same_ct_keys. exact HS1. }
      exists out2, kp2. split; [|auto]. cbn [rotBits]. rewrite E1. cbn [bind]. rewrite E2. cbn [bind]. rewrite <- E3. f_equal. rewrite Z.pow_add_r by lia. change (2 ^ 1) with 2. ring.
  - destruct (IH (i + 1) ct ltac:(lia) HS) as (c2 & HA2 & HR2).
    { intros b Hb Hbit. replace (i + 1 + b) with (i + (b + 1)) by lia. apply HK; [lia|].
      change (Z.pos p~0) with (2 * Z.pos p). rewrite (Z.add_1_r b), Z.testbit_even_succ by auto. exact Hbit. }
    exists c2. split.
    + cbn [ones]. replace (2 ^ i * Z.pos p~0) with (2 ^ (i + 1) * Z.pos p); [exact HA2|]. rewrite Z.pow_add_r by lia. change (Z.pos p~0) with (2 * Z.pos p). ring.
    + intros o tmp out kp Ht HO Hk Ho Hp. destruct (HR2 o tmp out kp Ht HO Hk Ho Hp) as (out2 & kp2 & E3 & Hp2 & HS3). exists out2, kp2. split; [|auto]. cbn [rotBits]. rewrite <- E3. f_equal. rewrite Z.pow_add_r by lia. change (2 ^ 1) with 2. ring.
  - destruct (Hone i ct Hi HS) as (c1 & HA1 & HR1). { specialize (HK 0 ltac:(lia) eq_refl). now rewrite Z.add_0_r in HK. }
    exists c1. split. { rewrite Z.mul_1_r. cbn [ones]. rewrite Z.mul_1_l. exact HA1. }
    intros o tmp out kp Ht HO Hk Ho Hp. destruct (HR1 o tmp out kp Ht HO Hk Ho Hp) as (out1 & tmp1 & kp1 & E1 & E2 & Hp1 & HS1 & HS2).
    exists out1, kp1. split; [|auto]. cbn [rotBits]. rewrite E1. cbn [bind]. rewrite E2. reflexivity.
Qed.

Lemma prelude l ct o : (l < QCount pp)%nat -> ct_ok pp l ct -> order_ok o -> exists ids, ctIDSet o ct = Ok ids /\
  ct_ok pp l (NewCiphertext o pp ids l) /\ same_keys (NewCiphertext o pp ids l) ct.
Proof.
  intros Hl Hc Ho. destruct (ctIDSet_perm o ct _ Ho (ids_of_ct_ok ct (ck_nd _ _ _ Hc))) as (ids & E & _ & HP). exists ids. split; [auto|]. split; [now apply (fresh_ok ce He)|].
  destruct (NewCiphertext_ok o pp ids l Ho) as (_ & B2 & _). intros id. rewrite B2. destruct (ids_of_ct_ok ct (ck_nd _ _ _ Hc)) as [_ HI].
  split.
  - intros [->|Hin]; [apply Hc|]. apply HI. eapply Permutation_in; eauto.
  - intros Hin. destruct (string_dec id z0) as [->|Hne]; [now left|right]. eapply Permutation_in; [symmetry; exact HP|]. apply HI. auto.
Qed.
Lemma has_crs_b k : has_crs pp k -> mhas Z.eqb (pa_CRS pp) k = true.
Proof. intros (v & E). unfold mhas. now rewrite E. Qed.
Lemma has_crs_nb k : ~ has_crs pp k -> mhas Z.eqb (pa_CRS pp) k = false.
Proof. intros H. unfold mhas. destruct (zget (pa_CRS pp) k) eqn:E; auto. exfalso. apply H. eexists. exact E. Qed.
Lemma rot_keys_crs g Be s ct k rks : rot_keys pp g Be s ct k rks -> has_crs pp k.
Proof. intros (A & g' & (v & E & _) & _). unfold getCRS, mptr in E. destruct (zget (pa_CRS pp) k) eqn:Ez; [|discriminate]. eexists. exact Ez. Qed.
Lemma auto_id l ct s : ct_ok pp l ct -> auto_result pp s l ct 1 0 ct.
Proof.
  intros Hc. split; [auto|]. split; [intros id; tauto|]. exists pzero. split. { intros i Hi. unfold pscale, pzero. lia. }
  intros j Hj. rewrite (psigma_1 (pa_logN pp)). intros i _. apply cong_eq. unfold padd, pzero. ring.
Qed.
Lemma norm_small k m : 0 <= m -> cong (Z.of_nat N / 2) k m -> 0 <= normRot ce k /\ normNeg (pa_logN pp) (normRot ce k) = normRot ce k /\ cong (Z.of_nat N / 2) (normRot ce k) m /\ cong (2 * Z.of_nat N) (5 ^ normRot ce k) (5 ^ m).
Proof.
  intros Hm Hk. assert (HlN : (1 <= pa_logN pp)%nat) by (apply (ro_log rQ (po_rQ _ Hpp))). destruct (half_pos (pa_logN pp) HlN) as [Hh _]. change (deg (pa_logN pp)) with N in *.
  unfold normRot. pose proof (Z.mod_pos_bound k (Z.of_nat N / 2) Hh) as Hb. split; [lia|]. split. { unfold normNeg. rewrite (proj2 (Z.ltb_ge _ _)); lia. }
  assert (Hc : cong (Z.of_nat N / 2) (k mod (Z.of_nat N / 2)) m). { eapply cong_trans; [|exact Hk]. apply cong_mod. lia. }
  split; [exact Hc|]. apply five_cong; auto. lia.
Qed.
(** C30 *)
Lemma rotate_new g s Bs Be Dm ct sc l rks k m n : rot_setting pp g s Bs Dm ct l -> 0 <= m -> cong (Z.of_nat N / 2) k m ->
  rot_ready pp g Be s ct rks (k mod (Z.of_nat N / 2)) n ->
  exists cout, auto_result pp s l ct (5 ^ m) (n * step_noise pp l ct Bs Be Dm) cout /\
    forall o st, order_ok o -> ev_ok pp st -> exists out st', RotateNew ce o (mkCk ct sc) k rks st = Ok (mkCk out sc, st') /\ same_ct out cout /\ ev_ok pp st'.
Proof.
  intros HS Hm Hk HR. destruct (norm_small k m Hm Hk) as (Hr0 & HNN & Hrc & H5). change (k mod (Z.of_nat N / 2)) with (normRot ce k) in HR.
  pose proof (rs_ct _ _ _ _ _ _ _ HS) as Hc. pose proof (rs_l _ _ _ _ _ _ _ HS) as Hl.
  remember (normRot ce k) as r eqn:Er.
  inversion HR as [E0 En|r0 Hr HK E0 En|p Hn HK E0 En]; subst n.
  - exists ct. split. { eapply auto_exp; [|apply (auto_id l ct s); auto]. rewrite <- H5, <- E0. reflexivity. }
    intros o st Ho Hst. destruct (prelude l ct o Hl Hc Ho) as (ids & E1 & HO & HKs). unfold RotateNew. cbn [c_ct c_scale]. rewrite E1. cbn [bind]. rewrite (ct_level env l ct Hc). cbn [bind].
    rewrite <- Er, <- E0. destruct (ctCopy_ok pp l o (NewCiphertext o pp ids l) ct Hc (ck_nd _ _ _ HO)) as (c & E2 & _ & HSm); auto.
    { intros id q Eq. now destruct (ck_comp _ _ _ HO id q Eq) as (_ & X & _). }
    rewrite E2. cbn [bind]. eexists _, st. split; [reflexivity|]. auto.
  - subst r0. destruct (rot_step env He g s Bs Be Dm ct l l rks r m None HS (le_n l) Hm Hrc) as (cout & HA & HRs); [now rewrite HNN|exact I|].
    exists cout. split; [now rewrite Z.mul_1_l|]. intros o st Ho Hst. destruct (prelude l ct o Hl Hc Ho) as (ids & E1 & HO & HKs). unfold RotateNew. cbn [c_ct c_scale]. rewrite E1. cbn [bind].
    rewrite (ct_level env l ct Hc). cbn [bind]. rewrite <- Er. rewrite (has_crs_b r (rot_keys_crs _ _ _ _ _ _ HK)).
    destruct (HRs ct (NewCiphertext o pp ids l) o None (ev_k st) (same_ct_refl _ (ck_nd _ _ _ Hc)) HO HKs Ho (eo_k _ _ Hst) (or_introl eq_refl)) as (c & k' & E2 & Hk' & _ & HSm).
    destruct r as [|p|p]; [lia| |lia]. unfold Rotate. rewrite E2. cbn [bind]. eexists _, (set_k k' st). split; [reflexivity|]. split; [auto|]. now apply set_k_ok.
  - destruct (rot_bits g s Bs Be Dm l rks p 0 ct (Z.le_refl 0) HS) as (cout & HA & HRs); [intros b Hb Hbit; apply HK; auto|].
    exists cout. split. { rewrite Z.pow_0_r, Z.mul_1_l in HA. eapply auto_exp; [|exact HA]. rewrite E0. exact H5. }
    intros o st Ho Hst. destruct (prelude l ct o Hl Hc Ho) as (ids & E1 & HO & HKs). unfold RotateNew. cbn [c_ct c_scale]. rewrite E1. cbn [bind].
    rewrite (ct_level env l ct Hc). cbn [bind]. rewrite <- Er, <- E0. rewrite (has_crs_nb _ Hn).
    unfold ckCopyNew, ctCopyNew. cbn [c_ct c_scale]. destruct (mget_ex _ seqb ct _ (ck_0 _ _ _ Hc)) as (c0 & Ec0). unfold mptr at 1. rewrite Ec0. cbn [bind c_ct].
    destruct (HRs o ct (NewCiphertext o pp ids l) (ev_k st) (same_ct_refl _ (ck_nd _ _ _ Hc)) HO HKs Ho (eo_k _ _ Hst)) as (c & k' & E2 & Hk' & HSm).
    change (2 ^ 0) with 1 in E2. rewrite E2. cbn [bind]. eexists _, (set_k k' st). split; [reflexivity|]. split; [auto|]. now apply set_k_ok.
Qed.
(** C33: the hoisted rotation returns the same ciphertext *)
Lemma rotate_hoisted g s Bs Be Dm ct sc l rks k m n : rot_setting pp g s Bs Dm ct l -> 0 <= m -> cong (Z.of_nat N / 2) k m ->
  (k mod (Z.of_nat N / 2) = 0 /\ n = 0 \/ k mod (Z.of_nat N / 2) <> 0 /\ rot_keys pp g Be s ct (k mod (Z.of_nat N / 2)) rks /\ n = 1) ->
  exists cout, auto_result pp s l ct (5 ^ m) (n * step_noise pp l ct Bs Be Dm) cout /\
    (forall o st, order_ok o -> ev_ok pp st -> exists out st', RotateNew ce o (mkCk ct sc) k rks st = Ok (mkCk out sc, st') /\ same_ct out cout /\ ev_ok pp st') /\
    forall o h st, order_ok o -> hoisted_at env l ct h -> ev_ok pp st -> exists out st', RotateHoistedNew ce o (mkCk ct sc) k h rks st = Ok (mkCk out sc, st') /\ same_ct out cout /\ ev_ok pp st'.
Proof.
  intros HS Hm Hk HR. destruct (norm_small k m Hm Hk) as (Hr0 & HNN & Hrc & H5). change (k mod (Z.of_nat N / 2)) with (normRot ce k) in HR.
  pose proof (rs_ct _ _ _ _ _ _ _ HS) as Hc. pose proof (rs_l _ _ _ _ _ _ _ HS) as Hl.
  remember (normRot ce k) as r eqn:Er. destruct (Z.eq_dec r 0) as [Hz|Hnz].
  - exists ct. split.
    { destruct HR as [[_ ->]|(X & _)]; [|contradiction].
      eapply auto_exp; [|apply (auto_id l ct s); auto]. rewrite <- H5, Hz. reflexivity. }
    assert (HCp : forall o, order_ok o -> exists ids, ctIDSet o ct = Ok ids /\ exists c, ctCopy o (NewCiphertext o pp ids l) ct = Ok c /\ same_ct c ct).
    { intros o Ho. destruct (prelude l ct o Hl Hc Ho) as (ids & E1 & HO & HKs). exists ids. split; [auto|]. destruct (ctCopy_ok pp l o (NewCiphertext o pp ids l) ct Hc (ck_nd _ _ _ HO)) as (c & E2 & _ & HSm); auto.
      { intros id q Eq. now destruct (ck_comp _ _ _ HO id q Eq) as (_ & X & _). } eauto. }
    split.
    + intros o st Ho Hst. destruct (HCp o Ho) as (ids & E1 & c & E2 & HSm). unfold RotateNew. cbn [c_ct c_scale]. rewrite E1. cbn [bind]. rewrite (ct_level env l ct Hc). cbn [bind].
      rewrite <- Er, Hz, E2. cbn [bind]. eexists _, st. split; [reflexivity|]. auto.
    + intros o h st Ho Hh Hst. destruct (HCp o Ho) as (ids & E1 & c & E2 & HSm). unfold RotateHoistedNew. cbn [c_ct c_scale]. rewrite E1. cbn [bind]. rewrite (ct_level env l ct Hc). cbn [bind].
      rewrite <- Er, Hz, E2. cbn [bind Z.eqb]. eexists _, st. split; [reflexivity|]. auto.
  - destruct HR as [[X _]|(_ & HK & ->)]; [contradiction|].
    destruct (rot_step env He g s Bs Be Dm ct l l rks r m None HS (le_n l) Hm Hrc) as (cout & HA & HRs); [now rewrite HNN|exact I|].
    exists cout. split; [now rewrite Z.mul_1_l|]. split.
    + intros o st Ho Hst. destruct (prelude l ct o Hl Hc Ho) as (ids & E1 & HO & HKs). unfold RotateNew. cbn [c_ct c_scale]. rewrite E1. cbn [bind].
      rewrite (ct_level env l ct Hc). cbn [bind]. rewrite <- Er. rewrite (has_crs_b r (rot_keys_crs _ _ _ _ _ _ HK)).
      destruct (HRs ct (NewCiphertext o pp ids l) o None (ev_k st) (same_ct_refl _ (ck_nd _ _ _ Hc)) HO HKs Ho (eo_k _ _ Hst) (or_introl eq_refl)) as (c & k' & E2 & Hk' & _ & HSm).
      destruct r as [|p|p]; [lia| |lia]. unfold Rotate. rewrite E2. cbn [bind]. eexists _, (set_k k' st). split; [reflexivity|]. split; [auto|]. now apply set_k_ok.
    + intros o h st Ho Hh Hst. destruct (prelude l ct o Hl Hc Ho) as (ids & E1 & HO & HKs). unfold RotateHoistedNew. cbn [c_ct c_scale]. rewrite E1. cbn [bind].
      rewrite (ct_level env l ct Hc). cbn [bind]. rewrite <- Er. rewrite (has_crs_b r (rot_keys_crs _ _ _ _ _ _ HK)). rewrite (proj2 (Z.eqb_neq r 0) Hnz).
      destruct (HRs ct (NewCiphertext o pp ids l) o (Some h) (ev_k st) (same_ct_refl _ (ck_nd _ _ _ Hc)) HO HKs Ho (eo_k _ _ Hst) (or_intror (conj eq_refl Hh))) as (c & k' & E2 & Hk' & _ & HSm).
      unfold RotateHoisted. rewrite E2. cbn [bind]. eexists _, (set_k k' st). split; [reflexivity|]. split; [auto|]. now apply set_k_ok.
Qed.
Lemma rotate_hoisted_panics ct sc l rks k o h st : ct_ok pp l ct -> order_ok o -> k mod (Z.of_nat N / 2) <> 0 -> ~ has_crs pp (k mod (Z.of_nat N / 2)) ->
  RotateHoistedNew ce o (mkCk ct sc) k h rks st = Panic (PMsg "Hoisted rotation only works for precomputed rotation keys").
Proof.
  intros Hc Ho Hnz Hn. unfold RotateHoistedNew. cbn [c_ct c_scale]. destruct (ctIDSet_perm o ct _ Ho (ids_of_ct_ok ct (ck_nd _ _ _ Hc))) as (ids & E1 & _). rewrite E1. cbn [bind].
  rewrite (ct_level env l ct Hc). cbn [bind]. change (normRot ce k) with (k mod (Z.of_nat N / 2)). rewrite (proj2 (Z.eqb_neq _ 0) Hnz). now rewrite (has_crs_nb _ Hn).
Qed.
(** the hoisted form: for every party the decomposition of its component *)
Lemma hoisted_new ct sc l o st : (l < QCount pp)%nat -> ct_ok pp l ct -> order_ok o -> ev_ok pp st ->
  exists h st', HoistedForm ce o (mkCk ct sc) st = Ok (h, st') /\ (forall id, party ct id -> exists p s k k', sget ct id = Some p /\ p_ntt p = false /\ sget h id = Some s /\ pool_ok pp k /\ Decompose env l p (NewSwitchingKey pp) k = Ok (s, k')) /\
    (forall id, In id (mkeys h) <-> party ct id) /\ ev_ok pp st'.
Proof.
  intros Hl Hc Ho Hst. unfold HoistedForm. cbn [c_ct]. pose proof (ids_of_ct_ok ct (ck_nd _ _ _ Hc)) as HL. destruct (ctIDSet_perm o ct _ Ho HL) as (ids & E1 & _ & HP). rewrite E1. cbn [bind].
  set (S0 := o 1%nat (mkeys ids)). assert (HS0 : forall id, In id S0 <-> party ct id).
  { intros id. unfold S0. rewrite (order_in o 1%nat _ id Ho). split.
    - intros X. apply HL. eapply Permutation_in; eauto. - intros X. eapply Permutation_in; [symmetry; exact HP|]. apply HL. exact X. }
  destruct (ct_lift env He l ct Hl Hc) as (f & Hf).
  match goal with |- context [foldM ?ff S0 ?st0] =>
    destruct (foldM_inv ff (fun don '(h, st) => ev_ok pp st /\ (forall id, In id (mkeys h) <-> In id don) /\ forall id, In id don -> exists p s k k', sget ct id = Some p /\ p_ntt p = false /\ sget h id = Some s /\ pool_ok pp k /\ Decompose env l p (NewSwitchingKey pp) k = Ok (s, k')) S0 st0) as ([h st'] & E & HR) end.
  { intros don id rest [h s1] El (Hs1 & Hkh & HD). assert (Hin : party ct id) by (apply HS0; rewrite El; apply in_elt).
    destruct (Hf id (proj1 Hin)) as (p & Ep & HPp & Hnt & _ & Hsh). rewrite (ct_level env l ct Hc). cbn [bind]. unfold mptr. rewrite Ep. cbn [bind].
    destruct (digits_exist env He l (p_co p) Hl) as (D & HDg). { eapply (prep_input env l (p_co p) (f id) (fun q => q + 1)); eauto. intros; lia. }
    pose proof (NewSwk_ok pp) as HSK.
    destruct (Decompose_ok env He l p D (NewSwitchingKey pp) (ev_k s1) Hl (dsrc_coeff env l p D Hnt HDg) HSK (eo_k _ _ Hs1)) as (sw & k & Ed & _ & Hs & Hk & _).
    rewrite Ed. cbn [bind]. eexists. split; [reflexivity|]. split; [now apply set_k_ok|]. split.
    - intros x. rewrite in_app_iff, <- Hkh. cbn. rewrite (mkeys_mset _ seqb). intuition congruence.
    - intros x Hx. destruct (string_dec x id) as [->|Hne].
      + exists p, sw, (ev_k s1), k. split; [auto|]. split; [auto|]. split; [now apply (mget_mset_same _ seqb)|]. split; [apply Hs1|auto].
      + rewrite in_app_iff in Hx. cbn in Hx. destruct Hx as [Hx|[Hx|[]]]; [|congruence]. destruct (HD x Hx) as (p' & s' & k0 & k0' & X1 & X2 & X3 & X4). exists p', s', k0, k0'. split; [auto|]. split; [auto|]. split; [|auto]. now rewrite (mget_mset_other _ seqb). }
  { split; [auto|]. split; [intros id; cbn; tauto|intros id []]. }
  rewrite E. exists h, st'. split; [reflexivity|]. destruct HR as (X1 & X2 & X3). split; [intros id Hid; apply X3; now apply HS0|]. split; [intros id; now rewrite X2, HS0|auto].
Qed.
Lemma hoisted_form ct sc l o st : (l < QCount pp)%nat -> ct_ok pp l ct -> order_ok o -> ev_ok pp st ->
  exists h st', HoistedForm ce o (mkCk ct sc) st = Ok (h, st') /\ hoisted_at env l ct h /\ (forall id, In id (mkeys h) <-> party ct id) /\ ev_ok pp st'.
Proof.
  intros Hl Hc Ho Hst. destruct (hoisted_new ct sc l o st Hl Hc Ho Hst) as (h & st' & E & HD & R). exists h, st'. split; [auto|]. split; [|auto].
  intros id Hid. destruct (HD id Hid) as (p & s & k & k' & X1 & _ & X2 & X3 & X4). exists p, (NewSwitchingKey pp), s, k, k'. split; [auto|]. split; [auto|]. split; [apply NewSwk_ok|auto].
Qed.
(** C34 *)
Lemma conjugate_new g s Bs Be Dm ct sc l cks : rot_setting pp g s Bs Dm ct l -> QCount pp = (l + 1)%nat -> conj_keys pp g Be s ct cks ->
  exists cout, auto_result pp s l ct (-1) (step_noise pp l ct Bs Be Dm) cout /\
    forall o st, order_ok o -> ev_ok pp st -> exists out st', ConjugateNew ce o (mkCk ct sc) cks st = Ok (mkCk out sc, st') /\ same_ct out cout /\ ev_ok pp st'.
Proof.
  intros HS Hmax HK. destruct (conj_step env He g s Bs Be Dm ct l cks HS Hmax HK) as (cout & HA & HR). exists cout. split; [exact HA|].
  pose proof (rs_ct _ _ _ _ _ _ _ HS) as Hc. pose proof (rs_l _ _ _ _ _ _ _ HS) as Hl.
  intros o st Ho Hst. destruct (prelude l ct o Hl Hc Ho) as (ids & E1 & HO & HKs). unfold ConjugateNew. cbn [c_ct c_scale]. rewrite E1. cbn [bind]. rewrite (ct_level env l ct Hc). cbn [bind].
  destruct (HR (NewCiphertext o pp ids l) o (ev_k st) HO HKs Ho (eo_k _ _ Hst)) as (c & k' & E2 & Hk' & _ & HSm). rewrite E2. cbn [bind].
  eexists _, (set_k k' st). split; [reflexivity|]. split; [auto|]. now apply set_k_ok.
Qed.
(** C52 *)
Lemma conjugate_panics ct sc l cks o st : ct_ok pp l ct -> (l + 1 < QCount pp)%nat -> order_ok o -> ConjugateNew ce o (mkCk ct sc) cks st = Panic PIndex.
Proof.
  intros Hc Hl Ho. destruct (prelude l ct o ltac:(lia) Hc Ho) as (ids & E1 & HO & HKs). unfold ConjugateNew. cbn [c_ct c_scale]. rewrite E1. cbn [bind]. rewrite (ct_level env l ct Hc). cbn [bind].
  now rewrite (conj_panics env ct (NewCiphertext o pp ids l) l l cks o (ev_k st)).
Qed.
(** C35: a rotation whose index has a common reference string needs the key of that index from every party *)
Lemma foldM_each {A S} (f : S -> A -> res S) : forall l s s', foldM f l s = Ok s' -> forall a, In a l -> exists st st', f st a = Ok st'.
Proof.
  induction l as [|x l IH]; intros s s' E a Hin; [destruct Hin|]. cbn [foldM] in E. destruct (f s x) as [s1|] eqn:E1; [|discriminate]. cbn [bind] in E. destruct Hin as [->|Hin]; [eauto|]. eapply IH; eauto.
Qed.
Lemma rotgen_missing ct l rks rotidx h out o k id : ct_ok pp l ct -> order_ok o -> party ct id -> (forall e, GetRotationKey rks id (normNeg (pa_logN pp) rotidx) <> Ok e) ->
  exists e, RotateGen env o ct rotidx h rks out k = Panic e.
Proof.
  intros Hc Ho Hid Hn. destruct (RotateGen env o ct rotidx h rks out k) as [[c k']|e] eqn:E; [|eauto]. exfalso. unfold RotateGen in E.
  destruct (ctLevel out) as [lo|]; [|discriminate]. cbn [bind] in E.
  pose proof (ids_of_ct_ok ct (ck_nd _ _ _ Hc)) as HL. destruct (ctIDSet_perm o ct _ Ho HL) as (ids & E1 & _ & HP). rewrite E1 in E. cbn [bind] in E.
  rewrite (ct_level env l ct Hc) in E. cbn [bind] in E. destruct (l <? lo)%nat; [discriminate|]. destruct (sptr ct "0"%string) as [c0|]; [|discriminate]. cbn [bind] in E.
  destruct (ctUpd out "0" _) as [c1|]; [|discriminate]. cbn [bind] in E.
  match type of E with (let* _ := ?F in _) = _ => destruct F as [[c2 k2]|] eqn:EF; [|discriminate] end.
  assert (Hin : In id (o 1%nat (mkeys ids))). { apply (order_in o 1%nat _ id Ho). eapply Permutation_in; [symmetry; exact HP|]. apply HL. exact Hid. }
  destruct (foldM_each _ _ _ _ EF id Hin) as ([ct1 k1] & st' & Es). cbn beta iota in Es. destruct (GetRotationKey rks id (normNeg (pa_logN pp) rotidx)) as [rk|] eqn:Ek; [|discriminate]. now apply (Hn rk).
Qed.
Lemma rotate_missing ct sc l rks k o st id : (l < QCount pp)%nat -> ct_ok pp l ct -> order_ok o -> k mod (Z.of_nat N / 2) <> 0 -> has_crs pp (k mod (Z.of_nat N / 2)) -> party ct id ->
  (forall m, sget rks id = Some m -> zget m (k mod (Z.of_nat N / 2)) = None) ->
  (exists e, RotateNew ce o (mkCk ct sc) k rks st = Panic e) /\ forall h, exists e, RotateHoistedNew ce o (mkCk ct sc) k h rks st = Panic e.
Proof.
  intros Hl Hc Ho Hnz Hcr Hid Hn. destruct (prelude l ct o Hl Hc Ho) as (ids & E1 & HO & HKs).
  assert (HlN : (1 <= pa_logN pp)%nat) by (apply (ro_log rQ (po_rQ _ Hpp))). destruct (half_pos (pa_logN pp) HlN) as [Hh _]. change (deg (pa_logN pp)) with N in *.
  pose proof (Z.mod_pos_bound k (Z.of_nat N / 2) Hh) as Hb.
  unfold RotateNew, RotateHoistedNew. cbn [c_ct c_scale]. rewrite E1. cbn [bind]. rewrite (ct_level env l ct Hc). cbn [bind].
  change (normRot ce k) with (k mod (Z.of_nat N / 2)). set (r := k mod (Z.of_nat N / 2)) in *. rewrite (has_crs_b r Hcr), (proj2 (Z.eqb_neq r 0) Hnz).
  assert (HG : forall h, exists e, RotateGen env o ct r h rks (NewCiphertext o pp ids l) (ev_k st) = Panic e).
  { intros h. eapply rotgen_missing; eauto. intros rk. unfold normNeg. rewrite (proj2 (Z.ltb_ge r 0)) by lia. unfold GetRotationKey. destruct (sget rks id) as [m|] eqn:Em; [|discriminate]. rewrite (Hn m eq_refl). discriminate. }
  split.
  - destruct (HG None) as (e & Ee). exists e. destruct r as [|p|p]; [lia| |lia]. unfold Rotate. rewrite Ee. reflexivity.
  - intros h. destruct (HG (Some h)) as (e & Ee). exists e. unfold RotateHoisted. rewrite Ee. reflexivity.
Qed.
(** * the default keys *)
Lemma ones_le p n : Zpos p < 2 ^ Z.of_nat n -> 0 <= ones p <= Z.of_nat n.
Proof.
  revert n. induction p as [p IH|p IH|]; intros n Hn; cbn [ones].
  - destruct n as [|n]; [cbn in Hn; lia|]. specialize (IH n). rewrite Nat2Z.inj_succ, Z.pow_succ_r in Hn by lia. lia.
  - destruct n as [|n]; [cbn in Hn; lia|]. specialize (IH n). rewrite Nat2Z.inj_succ, Z.pow_succ_r in Hn by lia. lia.
  - destruct n as [|n]; [cbn in Hn; lia|]. lia.
Qed.
Lemma default_ready g Be s ct rks k : (forall i, has_crs pp i -> In i (crsIndices (pa_logN pp))) ->
  (forall i, 0 <= i < Z.of_nat (pa_logN pp) - 1 -> rot_keys pp g Be s ct (2 ^ i) rks) ->
  exists n, 0 <= n <= Z.of_nat (pa_logN pp) - 1 /\ rot_ready pp g Be s ct rks (k mod (Z.of_nat N / 2)) n.
Proof.
  intros Hd HK. assert (HlN : (1 <= pa_logN pp)%nat) by (apply (ro_log rQ (po_rQ _ Hpp))). destruct (half_pos (pa_logN pp) HlN) as [Hh _]. change (deg (pa_logN pp)) with N in *.
  pose proof (Z.mod_pos_bound k (Z.of_nat N / 2) Hh) as Hb. set (r := k mod (Z.of_nat N / 2)) in *.
  assert (HE : Z.of_nat N / 2 = 2 ^ (Z.of_nat (pa_logN pp) - 1)).
  { unfold pa_N, deg. rewrite Nat2Z.inj_pow. change (Z.of_nat 2) with 2. replace (Z.of_nat (pa_logN pp)) with (Z.succ (Z.of_nat (pa_logN pp) - 1)) at 1 by lia. rewrite Z.pow_succ_r by lia. rewrite Z.mul_comm, Z.div_mul; lia. }
  destruct (Z.eq_dec r 0) as [->|Hnz]. { exists 0. split; [lia|constructor]. }
  destruct (zget (pa_CRS pp) r) as [v|] eqn:Ev.
  - assert (Hc : has_crs pp r) by (exists v; auto). specialize (Hd r Hc). unfold crsIndices in Hd. apply in_app_or in Hd as [Hd|Hd]; [cbn in Hd; lia|].
    apply in_map_iff in Hd as (i & Ei & Hi). apply in_seq in Hi. exists 1. split; [lia|]. rewrite <- Ei. apply rr_key; [lia|]. apply HK. lia.
  - destruct r as [|p|p]; [lia| |lia]. exists (ones p). split. { pose proof (ones_le p (pa_logN pp - 1)) as X. rewrite Nat2Z.inj_sub in X by lia. rewrite HE in Hb. change (Z.of_nat 1) with 1 in X. lia. }
    apply rr_bits. { intros (v & E). congruence. }
    intros i Hi Hbit. apply HK. split; [auto|]. destruct (Z.lt_ge_cases i (Z.of_nat (pa_logN pp) - 1)); auto. exfalso.
    assert (Z.log2 (Z.pos p) < i). { apply Z.log2_lt_pow2; [lia|]. eapply Z.lt_le_trans; [apply Hb|]. rewrite HE. apply Z.pow_le_mono_r; lia. }
    rewrite Z.bits_above_log2 in Hbit by lia. discriminate.
Qed.
End T.
