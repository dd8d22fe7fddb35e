(** What MultByConst computes. *)
From Coq Require Import String ZArith Znumtheory List Lia Setoid Morphisms Bool Permutation.
From Verif Require Import Spec SpecProofs Go GoProofs Lattigo LattigoProofs Arith Fermat NegRing NegRingProofs NTT NTTProofs F64 F64Proofs BasisExt BasisExtProofs ModDownProofs DecomposeProofs RingOps RingOpsProofs Maps MapsProofs Params Elements KeySwitch KeySets EncDec Utils Evaluator KSProofs KSMulProofs Crt ParamsProofs KSAlg KSNorm Repr SpecCt KSSem SpecEnc EncProofs EncThms CkEncThms SpecEv EvProofs RescaleProofs EvThms F64More EvFloat ConstProofs.
Import ListNotations.
Local Open Scope Z_scope.
Local Open Scope list_scope.

Section C.
Context (ce : ckenv).
Notation pp := (e_pp (ce_env ce)).
Context (He : env_ok (ce_env ce)).
Notation N := (pa_N pp).
Notation rQ := (ringQ pp).
Notation qq j := (nth j (pa_Q pp) 0).
Let Hpp : params_ok pp := eo_pp _ He.
Let HN : (0 < N)%nat := deg_pos _.

Lemma limb_lrep l ct id p j : ct_ok pp l ct -> sget ct id = Some p -> (j <= l)%nat -> lrep N (qq j) (qq j + 1) (nth j (p_co p) []) (limb ct id j).
Proof.
  intros Hc E Hj. destruct (ck_comp _ _ _ Hc id p E) as (_ & _ & H). destruct (H j Hj) as [L B]. split; [exact L|]. intros i Hi. split; [specialize (B i Hi); lia|]. unfold limb. rewrite E. reflexivity.
Qed.
Definition kfst (re im s : f64) (j : nat) : Z := match multConsts ce re im s (qq j) (nth j (pa_psiQ pp) 0) with Ok (a, _) => a | _ => 0 end.
Definition ksnd (re im s : f64) (j : nat) : Z := match multConsts ce re im s (qq j) (nth j (pa_psiQ pp) 0) with Ok (_, b) => b | _ => 0 end.

Lemma mult_gen re im s c ct0 sc out so l0 l1 : (l0 < QCount pp)%nat -> ct_ok pp l0 ct0 -> const_receiver pp ct0 out l1 ->
  getConstAndScale ce (Nat.min l0 l1) c = Ok (re, im, s) -> finite re -> finite im -> finite s ->
  exists cout, (forall o, order_ok o -> MultByConst ce o (mkCk ct0 sc) c (mkCk out so) = Ok (mkCk cout (fmul sc s))) /\
    ct_ok pp l1 cout /\ mkeys cout = mkeys out /\
    (forall id j, In id (mkeys ct0) -> (j <= Nat.min l0 l1)%nat ->
       peq N (qq j) (limb cout id j) (half_scaled N (scaled_const re s + scaled_const im s * root4 pp j) (scaled_const re s - scaled_const im s * root4 pp j) (limb ct0 id j))) /\
    (forall id j x, (Nat.min l0 l1 < j)%nat -> limb cout id j x = limb out id j x).
Proof.
  intros Hl0 Hc0 (Hl1 & Hc1 & HK) Eg Fr Fi Fs. set (l := Nat.min l0 l1) in *. set (lo := kfst re im s). set (hi := ksnd re im s).
  exists (upd_all (mkeys ct0) (mc_comp ce l lo hi ct0 out) out).
  assert (Hm : forall j, (j <= l)%nat -> multConsts ce re im s (qq j) (nth j (pa_psiQ pp) 0) = Ok (lo j, hi j) /\ 0 <= lo j < qq j /\ 0 <= hi j < qq j /\
     cong (qq j) (lo j) (W * (scaled_const re s + scaled_const im s * root4 pp j)) /\ cong (qq j) (hi j) (W * (scaled_const re s - scaled_const im s * root4 pp j))).
  { intros j Hj. destruct (multConsts_ok ce He re im s j ltac:(lia) Fr Fi Fs) as (a & b & E & R). subst lo hi. unfold kfst, ksnd. rewrite E. auto. }
  assert (Hget : forall id, In id (mkeys ct0) -> exists a p, sget ct0 id = Some a /\ sget out id = Some p /\ plen a = (l0 + 1)%nat /\ plen p = (l1 + 1)%nat).
  { intros id Hi. destruct (mget_ex _ seqb ct0 id Hi) as (a & Ea). destruct (mget_ex _ seqb out id) as (p & Ep); [apply HK; exact Hi|]. exists a, p.
    split; [auto|]. split; [auto|]. split; [apply (ck_comp _ _ _ Hc0 id a Ea)|apply (ck_comp _ _ _ Hc1 id p Ep)]. }
  assert (Hcomp : forall id a p, sget ct0 id = Some a -> sget out id = Some p ->
    mc_comp ce l lo hi ct0 out id = mkPoly (p_ntt p) (map (fun j => mulHalves ce (qq j) (lo j) (hi j) (nth j (p_co a) [])) (seq 0 (l + 1)) ++ skipn (l + 1) (p_co p))).
  { intros id a p Ea Ep. unfold mc_comp. now rewrite Ea, Ep. }
  assert (Hlimb : forall id a p j, sget ct0 id = Some a -> sget out id = Some p -> plen p = (l1 + 1)%nat ->
    nth j (p_co (mc_comp ce l lo hi ct0 out id)) [] = if (j <=? l)%nat then mulHalves ce (qq j) (lo j) (hi j) (nth j (p_co a) []) else nth j (p_co p) []).
  { intros id a p j Ea Ep Lp. rewrite (Hcomp id a p Ea Ep). cbn [p_co]. destruct (Nat.leb_spec j l).
    - rewrite app_nth1 by (rewrite map_length, seq_length; lia). rewrite (nth_map_seq _ _ j) by lia. reflexivity.
    - rewrite app_nth2; rewrite map_length, seq_length; [|lia]. rewrite nth_skipnl. f_equal. lia. }
  assert (Hrep : forall id a p j, sget ct0 id = Some a -> sget out id = Some p -> (j <= l)%nat ->
    lrep N (qq j) (qq j) (mulHalves ce (qq j) (lo j) (hi j) (nth j (p_co a) [])) (half_scaled N (scaled_const re s + scaled_const im s * root4 pp j) (scaled_const re s - scaled_const im s * root4 pp j) (limb ct0 id j))).
  { intros id a p j Ea Ep Hj. destruct (Hm j Hj) as (_ & B1 & B2 & C1 & C2). apply mulHalves_ok; auto. - apply (ring_okm' ce He). lia. - eapply limb_lrep; eauto. lia. }
  split; [|split; [|split; [|split]]].
  - intros o Ho. unfold MultByConst. cbn [c_ct c_scale]. rewrite (ct_level (ce_env ce) l0 ct0 Hc0), (ct_level (ce_env ce) l1 out Hc1). cbn [bind]. fold l. rewrite Eg. cbn [bind].
    rewrite (mult_loop ce He l lo hi); auto; [lia|apply Hc0|apply Hc1|intros j Hj; apply Hm; lia|]. intros id Hi. destruct (Hget id Hi) as (a & p & Ea & Ep & La & Lp). exists a, p. repeat split; auto; lia.
  - constructor; rewrite ?upd_all_keys; [apply Hc1|apply Hc1|]. intros id p E. rewrite upd_all_get in E. destruct (sget out id) as [p0|] eqn:Ep; [|discriminate].
    assert (Hin : In id (mkeys ct0)) by (apply HK; eapply mget_key; eauto; exact seqb). rewrite (proj2 (inb_In id (mkeys ct0)) Hin) in E. injection E as <-.
    destruct (Hget id Hin) as (a & p1 & Ea & Ep1 & La & Lp). rewrite Ep in Ep1. injection Ep1 as <-. destruct (ck_comp _ _ _ Hc1 id p0 Ep) as (N1 & N2 & N3).
    split; [rewrite (Hcomp id a p0 Ea Ep); exact N1|]. split.
    + rewrite (Hcomp id a p0 Ea Ep). unfold plen in *. cbn [p_co]. rewrite app_length, map_length, seq_length, skipn_length. lia.
    + intros j Hj. rewrite (Hlimb id a p0 j Ea Ep Lp). destruct (Nat.leb_spec j l) as [Hjl|]; [|apply N3; exact Hj]. destruct (Hrep id a p0 j Ea Ep Hjl) as [L1 B1]. split; [exact L1|]. intros x Hx. destruct (B1 x Hx) as [? _]. lia.
  - now rewrite upd_all_keys.
  - intros id j Hi Hj x Hx. destruct (Hget id Hi) as (a & p & Ea & Ep & La & Lp). unfold limb at 1. rewrite upd_all_get, Ep, (proj2 (inb_In id (mkeys ct0)) Hi).
    rewrite (Hlimb id a p j Ea Ep Lp). destruct (Nat.leb_spec j l); [|lia]. apply (Hrep id a p j Ea Ep Hj). exact Hx.
  - intros id j x Hj. unfold limb. rewrite upd_all_get. destruct (sget out id) as [p|] eqn:Ep; auto. destruct (inb id (mkeys ct0)) eqn:Eb; auto. apply inb_In in Eb.
    destruct (Hget id Eb) as (a & p1 & Ea & Ep1 & La & Lp). rewrite Ep in Ep1. injection Ep1 as <-. rewrite (Hlimb id a p j Ea Ep Lp). destruct (Nat.leb_spec j l); [lia|reflexivity].
Qed.

Lemma times_phase l k cin cout s : NoDup (mkeys cin) -> NoDup (mkeys cout) -> same_keys cin cout -> times_const pp l k cin cout ->
  forall j, (j <= l)%nat -> peq N (qq j) (phase N s cout j) (pscale k (phase N s cin j)).
Proof.
  intros H1 H2 HK HT j Hj. rewrite (phase_over pp (qq j) s cout j (mkeys cin)); [|auto|auto|intros x; apply HK]. unfold phase. rewrite psumL_scale. apply psumL_ext. intros id Hi.
  rewrite <- pscale_mul_r. apply pmul_proper; [reflexivity|]. apply HT; auto.
Qed.
Lemma halves_real a A q : peq N q (half_scaled N (a + 0 * 0) (a - 0 * 0) A) (pscale a A).
Proof. intros x _. unfold half_scaled, pscale. destruct (x <? N / 2)%nat; apply cong_eq; ring. Qed.

(** real constants (C21) *)
Lemma scale_real l c : (l < QCount pp)%nat -> finite c -> exists s, getConstAndScale ce l (KFloat c) = Ok (c, f0, s) /\ encoded_at (qq l) [c] s /\ finite s.
Proof.
  intros Hl Hc. unfold getConstAndScale. unfold QCount in Hl. rewrite (idx_nth (pa_Q pp) l 0) by lia. cbn [bind]. eexists. split; [reflexivity|].
  pose proof (proj1 (finite_fval c) Hc) as (r & Fr). pose proof (needsScale_iff c r Fr) as HI. destruct (qbig pp Hpp l Hl) as [Hq1 HqW]. rewrite W_val in HqW. split.
  - split.
    + intros HF. inversion HF as [|? ? Hi _]; subst. unfold integral in Hi. apply HI in Hi. now rewrite Hi.
    + intros HF. destruct (needsScale c) eqn:E; [reflexivity|]. exfalso. apply HF. constructor; [|constructor]. unfold integral. now apply HI.
  - destruct (needsScale c); apply finite_q; lia.
Qed.
Theorem mult_real c ct0 sc out so l0 l1 : (l0 < QCount pp)%nat -> ct_ok pp l0 ct0 -> const_receiver pp ct0 out l1 -> finite c ->
  exists s cout, encoded_at (qq (Nat.min l0 l1)) [c] s /\
    (forall o, order_ok o -> MultByConst ce o (mkCk ct0 sc) (KFloat c) (mkCk out so) = Ok (mkCk cout (fmul sc s))) /\
    ct_ok pp l1 cout /\ same_keys ct0 cout /\
    (forall sk j, (j <= Nat.min l0 l1)%nat -> peq N (qq j) (phase N sk cout j) (pscale (scaled_const c s) (phase N sk ct0 j))) /\
    (forall id j x, (Nat.min l0 l1 < j)%nat -> limb cout id j x = limb out id j x).
Proof.
  intros Hl0 Hc0 Hr Hc. destruct (scale_real (Nat.min l0 l1) c ltac:(lia) Hc) as (s & Eg & Es & Fs).
  destruct (mult_gen c f0 s (KFloat c) ct0 sc out so l0 l1 Hl0 Hc0 Hr Eg Hc I Fs) as (cout & E & Hco & HK & HL & HU). exists s, cout.
  assert (HS : same_keys ct0 cout) by (intros id; rewrite HK; symmetry; apply Hr).
  split; [auto|]. split; [auto|]. split; [auto|]. split; [exact HS|]. split; [|auto]. intros sk j Hj.
  apply (times_phase (Nat.min l0 l1)); [apply Hc0|apply Hco|exact HS| |exact Hj]. intros id j' Hi Hj'. change (modulus (pa_Q pp) j') with (qq j'). rewrite (HL id j' Hi Hj').
  rewrite (scaled_zero f0 s eq_refl Fs). intros x _. unfold half_scaled, pscale. destruct (x <? N / 2)%nat; apply cong_eq; ring.
Qed.
(** integer constants *)
Definition int_const (c : gconst) (z : Z) : Prop := c = KInt z /\ - 2 ^ 63 <= z < 2 ^ 63 \/ c = KInt64 z /\ - 2 ^ 63 <= z < 2 ^ 63 \/ c = KUint64 z /\ 0 <= z < 2 ^ 64.
Lemma scale_int l c z : (l < QCount pp)%nat -> int_const c z -> getConstAndScale ce l c = Ok (f_of_Z z, f0, f_of_Z 1) /\ Z.abs z <= 2 ^ 64.
Proof.
  intros Hl H. unfold getConstAndScale. unfold QCount in Hl. rewrite (idx_nth (pa_Q pp) l 0) by lia. cbn [bind].
  destruct H as [[-> ?]|[[-> ?]|[-> ?]]]; (split; [reflexivity|lia]).
Qed.
Theorem mult_int c z ct0 sc out so l0 l1 : (l0 < QCount pp)%nat -> ct_ok pp l0 ct0 -> const_receiver pp ct0 out l1 -> int_const c z ->
  exists cout,
    (forall o, order_ok o -> MultByConst ce o (mkCk ct0 sc) c (mkCk out so) = Ok (mkCk cout (fmul sc (f_of_Z 1)))) /\
    ct_ok pp l1 cout /\ same_keys ct0 cout /\
    (forall sk j, (j <= Nat.min l0 l1)%nat -> peq N (qq j) (phase N sk cout j) (pscale (scaled_const (f_of_Z z) (f_of_Z 1)) (phase N sk ct0 j))) /\
    (Z.abs z < 2 ^ 52 -> scaled_const (f_of_Z z) (f_of_Z 1) = z).
Proof.
  intros Hl0 Hc0 Hr Hc. destruct (scale_int (Nat.min l0 l1) c z ltac:(lia) Hc) as (Eg & Bz).
  destruct (mult_gen (f_of_Z z) f0 (f_of_Z 1) c ct0 sc out so l0 l1 Hl0 Hc0 Hr Eg (finite_q' z Bz) I (finite_q' 1 ltac:(lia))) as (cout & E & Hco & HK & HL & HU). exists cout.
  assert (HS : same_keys ct0 cout) by (intros id; rewrite HK; symmetry; apply Hr).
  split; [auto|]. split; [auto|]. split; [exact HS|]. split.
  - intros sk j Hj.
    apply (times_phase (Nat.min l0 l1)); [apply Hc0|apply Hco|exact HS| |exact Hj]. intros id j' Hi Hj'. change (modulus (pa_Q pp) j') with (qq j'). rewrite (HL id j' Hi Hj').
    rewrite (scaled_zero f0 _ eq_refl (finite_q' 1 ltac:(lia))). intros x _. unfold half_scaled, pscale. destruct (x <? N / 2)%nat; apply cong_eq; ring.
  - intros Hz. apply scaled_int; [|exact Hz]. apply fval_Z. lia.
Qed.
(** types MultByConst does not know: the result is zero *)
Theorem mult_other ct0 sc out so l0 l1 : (l0 < QCount pp)%nat -> ct_ok pp l0 ct0 -> const_receiver pp ct0 out l1 ->
  exists cout, (forall o, order_ok o -> MultByConst ce o (mkCk ct0 sc) KOther (mkCk out so) = Ok (mkCk cout (fmul sc (f_of_Z 1)))) /\ ct_ok pp l1 cout /\
    forall sk j, (j <= Nat.min l0 l1)%nat -> peq N (qq j) (phase N sk cout j) pzero.
Proof.
  intros Hl0 Hc0 Hr. assert (Eg : getConstAndScale ce (Nat.min l0 l1) KOther = Ok (f0, f0, f_of_Z 1)).
  { unfold getConstAndScale. unfold QCount in Hl0. rewrite (idx_nth (pa_Q pp) (Nat.min l0 l1) 0) by lia. reflexivity. }
  destruct (mult_gen f0 f0 (f_of_Z 1) KOther ct0 sc out so l0 l1 Hl0 Hc0 Hr Eg I I (finite_q' 1 ltac:(lia))) as (cout & E & Hco & HK & HL & HU). exists cout. split; [auto|]. split; [auto|].
  assert (HS : same_keys ct0 cout) by (intros id; rewrite HK; symmetry; apply Hr). intros sk j Hj.
  rewrite (times_phase (Nat.min l0 l1) 0 ct0 cout sk); [|apply Hc0|apply Hco|exact HS| |exact Hj].
  - intros x _. unfold pscale, pzero. apply cong_eq. ring.
  - intros id j' Hi Hj'. change (modulus (pa_Q pp) j') with (qq j'). rewrite (HL id j' Hi Hj').
    rewrite (scaled_zero f0 _ eq_refl (finite_q' 1 ltac:(lia))). intros x _. unfold half_scaled, pscale. destruct (x <? N / 2)%nat; apply cong_eq; ring.
Qed.
(** complex constants (C22) *)
Lemma scale_cplx l a b : (l < QCount pp)%nat -> finite a -> finite b -> exists s, getConstAndScale ce l (KComplex a b) = Ok (a, b, s) /\ encoded_at (qq l) [a; b] s /\ finite s.
Proof.
  intros Hl Ha Hb. unfold getConstAndScale. unfold QCount in Hl. rewrite (idx_nth (pa_Q pp) l 0) by lia. cbn [bind]. cbv zeta. eexists. split; [reflexivity|].
  pose proof (proj1 (finite_fval a) Ha) as (ra & Fa). pose proof (needsScale_iff a ra Fa) as HA. pose proof (proj1 (finite_fval b) Hb) as (rb & Fb). pose proof (needsScale_iff b rb Fb) as HB.
  destruct (qbig pp Hpp l Hl) as [Hq1 HqW]. rewrite W_val in HqW. split.
  - split.
    + intros HF. inversion HF as [|? ? Hi HF2]; subst. inversion HF2 as [|? ? Hi2 _]; subst. unfold integral in *. apply HA in Hi. apply HB in Hi2. now rewrite Hi, Hi2.
    + intros HF. destruct (needsScale b) eqn:E; [reflexivity|]. destruct (needsScale a) eqn:E2; [reflexivity|]. exfalso. apply HF. constructor; [|constructor; [|constructor]]; unfold integral; [now apply HA|now apply HB].
  - destruct (needsScale b); [|destruct (needsScale a)]; apply finite_q; lia.
Qed.
Theorem mult_complex a b ct0 sc out so l0 l1 : (l0 < QCount pp)%nat -> ct_ok pp l0 ct0 -> const_receiver pp ct0 out l1 -> finite a -> finite b ->
  exists s cout, encoded_at (qq (Nat.min l0 l1)) [a; b] s /\
    (forall o, order_ok o -> MultByConst ce o (mkCk ct0 sc) (KComplex a b) (mkCk out so) = Ok (mkCk cout (fmul sc s))) /\
    ct_ok pp l1 cout /\ same_keys ct0 cout /\
    (forall id j, In id (mkeys ct0) -> (j <= Nat.min l0 l1)%nat ->
       peq N (qq j) (limb cout id j) (half_scaled N (scaled_const a s + scaled_const b s * root4 pp j) (scaled_const a s - scaled_const b s * root4 pp j) (limb ct0 id j))).
Proof.
  intros Hl0 Hc0 Hr Ha Hb. destruct (scale_cplx (Nat.min l0 l1) a b ltac:(lia) Ha Hb) as (s & Eg & Es & Fs).
  destruct (mult_gen a b s (KComplex a b) ct0 sc out so l0 l1 Hl0 Hc0 Hr Eg Ha Hb Fs) as (cout & E & Hco & HK & HL & HU). exists s, cout.
  split; [auto|]. split; [auto|]. split; [auto|]. split; [intros id; rewrite HK; symmetry; apply Hr|exact HL].
Qed.
Definition ct_one : ciphertext := [("0"%string, canon ce 0 pone)].
Lemma ct_one_ok : ct_ok pp 0 ct_one.
Proof.
  assert (H0 : (0 < QCount pp)%nat) by (pose proof (po_Q _ Hpp); lia). constructor; [constructor; [intros []|constructor]|now left|]. intros id p E. cbn in E. destruct (String.eqb_spec id "0"); [|discriminate]. injection E as <-.
  destruct (canon_held ce He 0 pone H0) as [HP HL]. split; [reflexivity|]. split; [exact HL|]. intros j Hj. destruct (canon_limb_ok ce He 0 pone j H0 Hj) as [A B]. split; [exact A|]. intros x Hx. specialize (B x Hx). lia.
Qed.
Lemma ct_one_limb : peq N (qq 0) (limb ct_one "0" 0) pone.
Proof. assert (H0 : (0 < QCount pp)%nat) by (pose proof (po_Q _ Hpp); lia). destruct (canon_held ce He 0 pone H0) as [HP HL]. apply (limb_prep (ce_env ce) 0 id ct_one "0" (canon ce 0 pone) pone 0 eq_refl HP). lia. Qed.
Lemma ct_one_phase s ct : mkeys ct = mkeys ct_one -> peq N (qq 0) (phase N s ct 0) (limb ct "0" 0).
Proof.
  intros E. unfold phase. rewrite E. cbn [ct_one mkeys map fst psumL]. change (secret s "0") with pone. rewrite (pmul_one_l N (qq 0) HN). intros x _. unfold padd, pzero. apply cong_eq. ring.
Qed.
Theorem mult_complex_wrong (sc : f64) (sk : string -> zpoly) : (1 < N)%nat -> exists ct cout : ciphertext,
  ct_ok pp 0 ct /\ peq N (qq 0) (phase N sk ct 0) pone /\
  (forall o, order_ok o -> MultByConst ce o (mkCk ct sc) (KComplex f0 (f_of_Z 1)) (mkCk ct sc) = Ok (mkCk cout (fmul sc (f_of_Z 1)))) /\
  ~ peq N (qq 0) (phase N sk cout 0) (pmul N (cplx N 0 1) (phase N sk ct 0)).
Proof.
  intros HN1. assert (H0 : (0 < QCount pp)%nat) by (pose proof (po_Q _ Hpp); lia). pose proof ct_one_ok as Hc. exists ct_one.
  destruct (mult_complex f0 (f_of_Z 1) ct_one sc ct_one sc 0 0 H0 Hc) as (s & cout & [Es _] & E & Hco & HS & HL); [split; [auto|]; split; [auto|tauto]|exact I|apply finite_q'; lia|].
  assert (s = f_of_Z 1) as ->. { apply Es. constructor; [exists 0; split; [lia|apply fval_f0]|]. constructor; [exists 1; split; [lia|apply fval_Z; lia]|constructor]. }
  exists cout. split; [exact Hc|]. assert (HP : peq N (qq 0) (phase N sk ct_one 0) pone) by (rewrite (ct_one_phase sk ct_one eq_refl); apply ct_one_limb). split; [exact HP|]. split; [exact E|].
  specialize (HL "0"%string 0%nat (or_introl eq_refl) ltac:(lia)). destruct (qbig pp Hpp 0 H0) as [Hq1 HqW].
  assert (HO : peq N (qq 0) (phase N sk cout 0) (limb cout "0" 0)).
  { rewrite (phase_over pp (qq 0) sk cout 0 (mkeys ct_one)); [|apply Hco|apply Hc|intros x; apply HS]. cbn [ct_one mkeys map fst psumL]. change (secret sk "0") with pone. rewrite (pmul_one_l N (qq 0) HN). intros x _. unfold padd, pzero. apply cong_eq. ring. }
  rewrite HO, HL, HP. intros HB. assert (HB2 : peq N (qq 0) (half_scaled N (scaled_const f0 (f_of_Z 1) + scaled_const (f_of_Z 1) (f_of_Z 1) * root4 pp 0) (scaled_const f0 (f_of_Z 1) - scaled_const (f_of_Z 1) (f_of_Z 1) * root4 pp 0) (limb ct_one "0" 0)) (cplx N 0 1)).
  { rewrite HB. rewrite (pmul_comm N HN). apply (pmul_one_l N (qq 0) HN). }
  set (h := (N / 2)%nat) in *. assert (Hh : (0 < h < N)%nat). { split; [apply Nat.div_str_pos; lia|apply Nat.div_lt; lia]. }
  specialize (HB2 h (proj2 Hh)). pose proof (ct_one_limb h (proj2 Hh)) as HO1. unfold half_scaled, cplx in HB2. fold h in HB2. rewrite Nat.ltb_irrefl, Nat.eqb_refl in HB2. destruct (Nat.eqb_spec h 0); [lia|].
  rewrite HO1 in HB2. assert (Hz : pone h = 0) by (destruct h; [lia|reflexivity]). rewrite Hz, Z.mul_0_r in HB2. destruct HB2 as [k Hk]. destruct (Z.eq_dec k 0); nia.
Qed.
End C.
