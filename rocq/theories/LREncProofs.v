(** Every call of a logistic-regression program on the evaluator computes on the slots what the exact slots say, up to the error of
    [errOps]. *)
From Coq Require Import Reals String ZArith Znumtheory List Lia Lra Setoid Morphisms Bool Permutation.
From Coq.Floats Require Import SpecFloat.
From Flocq Require Import Core.Core IEEE754.Binary IEEE754.BinarySingleNaN.
From Verif Require Import Spec SpecProofs Go GoProofs Arith NegRing NegRingProofs NTT NTTProofs F64 F64Proofs BasisExt RingOps RingOpsProofs Maps MapsProofs Params Elements KeySwitch KeySets KeyGen EncDec Evaluator KSProofs Repr SpecKeys SpecCt KSSem SpecEnc EncProofs EncThms CkEncThms SpecEv EvProofs RescaleProofs EvThms AddThms MulEvThms SpecRot RotThms RotEvThms Galois SpecSlots SlotThms SlotRing SpecLREnc SlotErr LR LREval LRShadow LRRel.
Import ListNotations.
Local Open Scope Z_scope.

(** * levels and scales: the executable conditions *)
Lemma scale_shift Q l s i : scale_after Q (S l) s (S i) = scale_after Q l (fdiv s (f_of_Z (modulus Q (S l)))) i.
Proof.
  induction i as [|i IH]; [reflexivity|]. change (scale_after Q (S l) s (S (S i))) with (fdiv (scale_after Q (S l) s (S i)) (f_of_Z (modulus Q (S l - S i)))). rewrite IH. reflexivity.
Qed.
Lemma scale_0 Q l s : scale_after Q l s 1 = fdiv s (f_of_Z (modulus Q l)).
Proof. cbn [scale_after]. now rewrite Nat.sub_0_r. Qed.
Lemma rcount_ok Q half s l n : rcount Q half s l = Some n -> rescale_count Q l s half n.
Proof.
  revert s n; induction l as [|l IH]; intros s n; cbn [rcount]; destruct (fleb half _) eqn:E; try discriminate.
  - intros H. injection H as <-. split; [lia|]. split; [intros; lia|]. cbn [Nat.add]. now rewrite scale_0.
  - destruct (rcount Q half _ l) as [k|] eqn:Ek; [|discriminate]. intros H. injection H as <-. destruct (IH _ _ Ek) as (H1 & H2 & H3). split; [lia|]. split.
    + intros i Hi. destruct i as [|i]; [lia|]. rewrite scale_shift. destruct i as [|i]; [exact E|]. apply H2. lia.
    + replace (S k + 1)%nat with (S (k + 1)) by lia. now rewrite scale_shift.
  - intros H. injection H as <-. split; [lia|]. split; [intros; lia|]. cbn [Nat.add]. now rewrite scale_0.
Qed.
Lemma rsteps_ok Q l s thr n : rsteps Q l s thr = Some n -> rescale_steps Q l s thr n.
Proof.
  unfold rsteps. destruct (fleb thr f0) eqn:E1; cbn [orb]. { intros H; injection H as <-. left. split; [left; auto|auto]. }
  destruct (feqb s f0) eqn:E2; cbn [orb]. { intros H; injection H as <-. left. split; [right; left; auto|auto]. }
  destruct (Nat.eqb_spec l 0) as [->|E3]. { intros H; injection H as <-. left. split; [right; right; auto|auto]. }
  intros H. right. split; [intros [H1|[H1|H1]]; congruence|now apply rcount_ok].
Qed.
Lemma rsteps_le Q l s thr n : rsteps Q l s thr = Some n -> (n <= l)%nat.
Proof.
  intros H. unfold rsteps in H. destruct (_ || _ || _). { injection H as <-. lia. } now destruct (rcount_ok _ _ _ _ _ H).
Qed.
Lemma posb_ok s : posb s = true -> exists r, fval s r /\ (0 < r)%R.
Proof.
  destruct s as [| | |sg m e]; try discriminate. destruct sg; [discriminate|]. cbn. intros H.
  exists (F2R (Float radix2 (Zpos m) e)). split; [|now apply F2R_gt_0].
  exists (B754_finite false m e H : bf). split; [reflexivity|]. split; reflexivity.
Qed.
Lemma cmpb_ok s s' : cmpb s s' = true -> comparable s s'.
Proof.
  unfold cmpb. rewrite !andb_true_iff. intros [[[H1 H2] H3] H4]. split; [now apply posb_ok|]. split; [now apply posb_ok|]. split; auto.
Qed.
Lemma fR_fval x r : fval x r -> fR x = r.
Proof.
  intros (b & -> & Hf & <-). destruct b as [s|s| |s m e Hb]; try discriminate; [reflexivity|]. cbn [B2SF fR B2R]. unfold F2R. cbn [Fnum Fexp]. rewrite bpow_powerRZ.
  destruct s; reflexivity.
Qed.

(** * bounds grow with the number of parties *)
Lemma ks_noise_pos N b Bs Be Dm P : 0 <= b -> 0 <= Bs -> 0 <= Be -> 0 <= Dm -> 0 <= P -> 0 <= ks_noise N b Bs Be Dm P.
Proof. intros. unfold ks_noise. assert (0 <= Z.of_nat N) by lia. repeat apply Z.add_nonneg_nonneg; repeat apply Z.mul_nonneg_nonneg; lia. Qed.
Lemma mul_noise_mono N k0 k1 k b Bs Be Dm P : 0 <= k0 <= k -> 0 <= k1 <= k -> 0 <= b -> 0 <= Bs -> 0 <= Be -> 0 <= Dm -> 0 <= P ->
  mul_noise_bound N k0 k1 b Bs Be Dm P <= mul_noise_bound N k k b Bs Be Dm P.
Proof.
  intros [A0 A1] [B0 B1] Hb HBs HBe HDm HP. unfold mul_noise_bound. pose proof (ks_noise_pos N b Bs Be Dm P Hb HBs HBe HDm HP) as HK. set (K := ks_noise N b Bs Be Dm P) in *.
  set (X := b * _). set (Y := Z.of_nat N * (Bs * (2 * P))).
  assert (HX : 0 <= X) by (unfold X; assert (0 <= Z.of_nat N) by lia; repeat apply Z.mul_nonneg_nonneg; try lia; repeat apply Z.add_nonneg_nonneg; repeat apply Z.mul_nonneg_nonneg; lia).
  assert (HY : 0 <= Y) by (unfold Y; repeat apply Z.mul_nonneg_nonneg; lia).
  assert (k1 * X <= k * X) by now apply Z.mul_le_mono_nonneg_r. assert (0 <= k1 * X) by now apply Z.mul_nonneg_nonneg.
  assert (k0 * (k1 * X) <= k * (k * X)) by (apply Z.mul_le_mono_nonneg; auto).
  assert (k1 * Y <= k * Y) by now apply Z.mul_le_mono_nonneg_r. assert (k0 * Y <= k * Y) by now apply Z.mul_le_mono_nonneg_r. assert (k0 * K <= k * K) by now apply Z.mul_le_mono_nonneg_r. lia.
Qed.
Lemma rescale_noise_mono N k0 k Bs D : 0 <= k0 <= k -> 0 <= Bs -> 0 <= D -> rescale_noise N k0 Bs D <= rescale_noise N k Bs D.
Proof.
  intros [A B] HB HD. unfold rescale_noise. assert (0 <= D / 2) by (apply Z.div_pos; lia). assert (0 <= Z.of_nat N * (Bs * (D / 2))) by (repeat apply Z.mul_nonneg_nonneg; lia).
  assert (k0 * (Z.of_nat N * (Bs * (D / 2))) <= k * (Z.of_nat N * (Bs * (D / 2)))) by now apply Z.mul_le_mono_nonneg_r. lia.
Qed.
Lemma nparties_le pp l ct ids : ct_ok pp l ct -> (forall id, party ct id -> In id ids) -> 0 <= nparties ct <= Z.of_nat (List.length ids).
Proof.
  intros Hc H. unfold nparties. pose proof (ck_nd _ _ _ Hc) as Hnd. pose proof (ck_0 _ _ _ Hc) as H0. split.
  - destruct (mkeys ct); [destruct H0|]. cbn [List.length]. lia.
  - assert (HL : (List.length (mkeys ct) <= List.length ("0"%string :: ids))%nat). { apply NoDup_incl_length; auto. intros x Hx. destruct (string_dec x "0") as [->|Hne]; [left; auto|right]. apply H. split; auto. }
    cbn [List.length] in HL. lia.
Qed.
Lemma same_ct_ok pp l a b : same_ct a b -> ct_ok pp l b -> ct_ok pp l a.
Proof.
  intros (H1 & H2 & H3) [K1 K2 K3]. constructor; auto.
  - destruct (mget_ex _ seqb _ _ K2) as (p & E). rewrite <- (H3 "0"%string) in E. eapply mget_key; eauto; exact seqb.
  - intros id p E. rewrite H3 in E. exact (K3 id p E).
Qed.

Section E.
Context (ce : ckenv) (He : env_ok (ce_env ce)).
Notation pp := (e_pp (ce_env ce)).
Notation N := (pa_N pp).
Context (g : nat -> Z) (A U : nat -> zpoly) (s r : string -> zpoly) (Bs Be Dm nr : Z) (ids : list string) (keys : rlkset) (rks : rotset).
Context (HK : lr_keys pp g A U s r Bs Be Dm nr ids keys rks).
Context (orders : nat -> order) (Ho : forall n, order_ok (orders n)) (rnd : nat -> small * small * small) (pk : pubkey) {Msg : Type} (encode : poly -> Msg -> poly) (zero_msg : Msg).
Context (Bu B : Z) (ez : R).
Notation h := (Z.of_nat N / 2).
Notation kp := (Z.of_nat (List.length ids)).
Notation nz := (lr_noise pp kp Bs Be Dm nr Bu B ez).
Notation hn := (N / 2)%nat.
Notation EA := (errOps hn nz (pa_Q pp) (maxLevel pp) (ce_scale ce)).
Notation EE := (evalOps ce orders rnd rks pk encode zero_msg).
Definition RCe (a : aval) (c : ckct) : Prop := encrypts pp s ids (a_l a) (a_s a) (a_m a) (a_e a) c.
Definition RPe (p : apt) (q : poly * f64) : Prop := encodes pp (ap_s p) (ap_m p) (ap_e p) q.
Definition RSe (log : list nat) (st : lrst) : Prop := lr_ok pp (ce_scale ce) ids keys st.
Let HN : (0 < N)%nat := deg_pos _.
Let Hpp : params_ok pp := eo_pp _ He.
Lemma hn_h : Z.of_nat hn = h. Proof. rewrite Nat2Z.inj_div. reflexivity. Qed.
(** division by the dropped moduli, on slots *)
Lemma divided_slot l n A0 w' B0 M0 : divided pp l n A0 w' B0 -> (forall j, (j <= l)%nat -> peq N (modulus (pa_Q pp) j) (A0 j) M0) ->
  exists M', (forall j, (j <= l - n)%nat -> peq N (modulus (pa_Q pp) j) (B0 j) M') /\
    forall i, cmul (creal (IZR (dropped (pa_Q pp) l n))) (slot N M' i) = csub (slot N M0 i) (slot N w' i).
Proof.
  intros H HM. destruct (H M0 HM) as (M' & E & HB). exists M'. split; [auto|]. intros i. change (creal (IZR (dropped (pa_Q pp) l n))) with ((IZR (dropped (pa_Q pp) l n), 0) : C2)%R.
  rewrite <- slot_scale. assert (EQ : slot N M0 i = slot N (padd (pscale (dropped (pa_Q pp) l n) M') w') i). { apply slot_ext. intros k Hk. unfold padd, pscale. rewrite E by auto. lia. }
  rewrite EQ, slot_add. set (x := slot N (pscale _ M') i). set (y := slot N w' i). unfold csub. destruct x, y. unfold cadd, copp. cbn [fst snd]. apply f_equal2; ring.
Qed.

Lemma err_pos a c : RCe a c -> (0 < h) -> (0 <= a_e a)%R.
Proof. intros [_ _ _ _ (M & _ & H)] Hh. specialize (H 0 ltac:(lia)). eapply Rle_trans; [apply cnorm_pos|exact H]. Qed.
Lemma hoist_all pool (ct : ciphertext) : (forall id, In id ids -> exists v, sget pool id = Some v /\ swk_ok pp v) -> (forall id, party ct id -> In id ids) -> hoist_ready pp pool ct.
Proof. intros H HI id Hid. apply H, HI, Hid. Qed.
Lemma scaled_norm P w W i : 0 < P -> 0 <= i -> pnorm_le N (pscale P w) W -> (cnorm (slot N w i) <= 2 * INR N * (IZR W / IZR P))%R.
Proof.
  intros HP Hi Hw. pose proof (slot_norm N HN _ _ i Hi Hw) as H. rewrite slot_scale in H. change ((IZR P, 0) : C2)%R with (creal (IZR P)) in H. rewrite cnorm_scale in H.
  apply IZR_lt in HP. rewrite Rabs_pos_eq in H by lra. apply Rmult_le_reg_l with (IZR P); [lra|]. eapply Rle_trans; [exact H|]. right. field. lra.
Qed.

(** the common part of the two products *)
Lemma prod_ok l n sc0 sc1 m0 m1 e0 e1 M0 M1 w w' (ph : nat -> zpoly) (out : nat -> zpoly) W1 W2 :
  (n <= l)%nat -> (l < QCount pp)%nat ->
  (forall i, (0 <= i < h)%Z -> cnorm (csub (slot N M0 i) (creal (fR sc0 * m0 i))) <= e0)%R ->
  (forall i, (0 <= i < h)%Z -> cnorm (csub (slot N M1 i) (creal (fR sc1 * m1 i))) <= e1)%R ->
  (forall j, (j <= l)%nat -> peq N (modulus (pa_Q pp) j) (ph j) (padd (pmul N M0 M1) w)) -> divided pp l n ph w' out ->
  (forall i, (0 <= i)%Z -> cnorm (slot N w i) <= W1)%R -> (forall i, (0 <= i)%Z -> cnorm (slot N w' i) <= W2)%R ->
  let sc := scale_after (pa_Q pp) l (fmul sc0 sc1) n in let D := dropped (pa_Q pp) l n in
  exists M', (forall j, (j <= l - n)%nat -> peq N (modulus (pa_Q pp) j) (out j) M') /\
    forall i, 0 <= i < h -> (cnorm (csub (slot N M' i) (creal (fR sc * (m0 i * m1 i)))) <= mul_err hn sc0 sc1 sc D m0 m1 e0 e1 + (W1 + W2) / IZR D)%R.
Proof.
  intros Hn Hl H0 H1 Hph Hdiv HW1 HW2 sc D. destruct (divided_slot l n ph w' out _ Hdiv Hph) as (M' & HM & HS). exists M'. split; [auto|]. intros i Hi.
  specialize (HS i). fold D in HS. rewrite slot_add, (slot_mul N HN) in HS by lia. unfold mul_err. pose proof (dropped_pos pp Hpp l n Hn Hl) as HD. fold D in HD.
  assert (Hi' : (0 <= i < Z.of_nat hn)%Z) by (rewrite hn_h; lia).
  apply (mul_est (slot N M0 i) (slot N M1 i) (csub (slot N w i) (slot N w' i))).
  - now apply IZR_lt.
  - rewrite HS. unfold csub. set (a := cmul _ _). set (b := slot N w i). set (c := slot N w' i). destruct a, b, c. unfold cadd, copp. cbn [fst snd]. apply f_equal2; ring.
  - now apply H0. - now apply H1. - now apply sup_le. - now apply sup_le.
  - eapply Rle_trans; [apply cnorm_sub|]. apply Rplus_le_compat; [apply HW1|apply HW2]; lia.
Qed.

Lemma ref_mul (same : bool) a c b d : RCe a c -> RCe b d -> (same = true -> d = c) -> refines RSe RCe (o_mul EA same a b) (o_mul EE same c d).
Proof.
  intros Ha Hb Hs log st a1 log' HST E. cbn [o_mul errOps] in E. set (l := Nat.min (a_l a) (a_l b)) in *.
  destruct (rsteps (pa_Q pp) l (fmul (a_s a) (a_s b)) (ce_scale ce)) as [n|] eqn:En; [|discriminate]. injection E as <- <-.
  pose proof (rsteps_le _ _ _ _ _ En) as Hn. apply rsteps_ok in En.
  destruct Ha as [La Ca Ia Sa (M0 & P0 & E0)], Hb as [Lb Cb Ib Sb (M1 & P1 & E1)]. destruct c as [c sc0], d as [d sc1]. cbn [c_ct c_scale] in *. subst sc0 sc1.
  destruct HST as [V1 V2 V3 V4 V5]. assert (Hl : (l < QCount pp)%nat) by lia.
  assert (HMS : mul_setting pp g A U s r Bs Be Dm c d (a_l a) (a_l b) (rs_keys (lr_rs st))).
  { constructor; auto; try apply HK.
    - intros id [H|H]; apply (lk_s _ _ _ _ _ _ _ _ _ _ _ _ _ HK); auto.
    - rewrite V2. intros id [H|H]; apply (lk_rlk _ _ _ _ _ _ _ _ _ _ _ _ _ HK); auto. }
  destruct (mul_relin_new ce He g A U s r Bs Be Dm c d (a_s a) (a_s b) (a_l a) (a_l b) (lr_rs st) same (orders (lr_n st)) (lr_ev st) HMS) as [HR _].
  { destruct same; [injection (Hs eq_refl) as E; congruence|now apply hoist_all]. } { now apply hoist_all. } { apply Ho. } { exact V1. }
  destruct (HR n En) as (out & rs' & st' & ER & (w & w' & C1 & _ & C2 & C3 & C4 & C5 & C6) & V1' & K1 & K2 & K3). fold l in C1, C3, C4, C5, C6.
  eexists out, _. cbn [o_mul evalOps]. rewrite ER. cbn [bind]. split; [reflexivity|].
  assert (Iout : forall id, party (c_ct out) id -> In id ids). { intros id [Hid Hne]. apply C2 in Hid as [Hid|Hid]; [apply Ia|apply Ib]; split; auto. }
  pose proof (bigP_pos (ce_env ce) He) as HP. pose proof (dropped_pos pp Hpp l n Hn Hl) as HD.
  split.
  - unfold RCe. cbn [a_l a_s a_m a_e]. constructor; auto; [lia|].
    destruct (prod_ok l n (a_s a) (a_s b) (a_m a) (a_m b) (a_e a) (a_e b) M0 M1 w w' (fun j => padd (pmul N (phase N s c j) (phase N s d j)) w) (phase N s (c_ct out))
       (2 * INR N * (IZR (mul_noise_bound N kp kp (Z.of_nat (Beta pp l)) Bs Be Dm (bigP pp)) / IZR (bigP pp))) (2 * INR N * IZR (rescale_noise N kp Bs (dropped (pa_Q pp) l n)))) as (M' & HM & HS); auto.
    + intros j Hj. apply padd_proper; [|reflexivity]. apply pmul_proper; [apply P0|apply P1]; lia.
    + intros i Hi. apply scaled_norm; auto. eapply pnorm_le_trans; [|exact C4]. apply mul_noise_mono; try apply HK; try lia; eapply nparties_le; eauto.
    + intros i Hi. apply slot_norm; auto. eapply pnorm_le_trans; [|exact C5]. apply rescale_noise_mono; try apply HK; try lia. eapply nparties_le; eauto.
    + exists M'. split; [exact HM|]. intros i Hi. eapply Rle_trans; [apply HS; auto|]. right. f_equal. cbn [n_mul lr_noise]. unfold Rdiv. ring.
  - constructor; cbn [lr_ev lr_rs lr_en]; auto.
    + congruence.
    + intros id Hid. destruct (V4 id Hid) as (v & Hv & Hv'). destruct (string_dec id "0") as [->|Hz]; [destruct (lk_0 _ _ _ _ _ _ _ _ _ _ _ _ _ HK); auto|].
      apply (K2 [(id, mkPoly false [])]); [|split; [left; reflexivity|auto]]. intros id' [[<-|[]] _]. eauto.
    + intros id Hid. destruct (V5 id Hid) as (v & Hv & Hv'). destruct (string_dec id "0") as [->|Hz]; [destruct (lk_0 _ _ _ _ _ _ _ _ _ _ _ _ _ HK); auto|].
      apply (K3 [(id, mkPoly false [])]); [|split; [left; reflexivity|auto]]. intros id' [[<-|[]] _]. eauto.
Qed.

Lemma ref_mulp a c p q : RCe a c -> RPe p q -> refines RSe RCe (o_mulp EA a p) (o_mulp EE c q).
Proof.
  intros Ha Hp log st a1 log' HST E. cbn [o_mulp errOps] in E.
  destruct (rsteps (pa_Q pp) (a_l a) (fmul (a_s a) (ap_s p)) (ce_scale ce)) as [n|] eqn:En; [|discriminate]. injection E as <- <-.
  pose proof (rsteps_le _ _ _ _ _ En) as Hn. apply rsteps_ok in En.
  destruct Ha as [La Ca Ia Sa (M0 & P0 & E0)], Hp as (Sp & Fp & Mp & Pp & Ep). destruct c as [c sc0], q as [q sc1]. cbn [c_ct c_scale fst snd] in *. subst sc0 sc1.
  destruct HST as [V1 V2 V3 V4 V5]. assert (Hle : (a_l a <= maxLevel pp)%nat) by (unfold maxLevel; lia).
  destruct (mul_ptxt ce He c (a_s a) q (ap_s p) Mp (a_l a) (maxLevel pp) n La Ca Fp Pp Hle En) as (cout & C1 & _ & C2 & C3 & C4).
  destruct (C4 (orders (lr_n st)) (lr_ev st) (Ho _) V1) as (out & st' & ER & HSm & HSc & V1').
  destruct (C3 s Bs) as (w & Hw & Hdiv). { intros id Hid. apply (lk_s _ _ _ _ _ _ _ _ _ _ _ _ _ HK). auto. }
  eexists out, _. cbn [o_mulp evalOps fst snd]. rewrite ER. cbn [bind]. split; [reflexivity|].
  pose proof (dropped_pos pp Hpp (a_l a) n Hn La) as HD. pose proof (same_ct_keys _ _ HSm) as SK.
  split.
  - unfold RCe. cbn [a_l a_s a_m a_e]. constructor; auto; [lia|eapply same_ct_ok; eauto|intros id [Hid Hne]; apply Ia; split; auto; apply C2, SK, Hid|].
    destruct (prod_ok (a_l a) n (a_s a) (ap_s p) (a_m a) (ap_m p) (a_e a) (ap_e p) M0 Mp pzero w (fun j => pmul N Mp (phase N s c j)) (phase N s cout)
       0%R (2 * INR N * IZR (rescale_noise N kp Bs (dropped (pa_Q pp) (a_l a) n)))) as (M' & HM & HS); auto.
    + intros j Hj. rewrite (P0 j Hj). rewrite (pmul_comm N HN). intros k Hk. apply cong_eq. unfold padd, pzero. lia.
    + intros i Hi. pose proof (slot_norm N HN pzero 0 i Hi) as H. rewrite Rmult_0_r in H. apply H. intros k Hk. unfold pzero. lia.
    + intros i Hi. apply slot_norm; auto. eapply pnorm_le_trans; [|exact Hw]. apply rescale_noise_mono; try apply HK; try lia. eapply nparties_le; eauto.
    + exists M'. split; [intros j Hj; rewrite (phase_same pp s (c_ct out) cout j _ HSm); auto|]. intros i Hi. eapply Rle_trans; [apply HS; auto|]. right. f_equal. cbn [n_mulp lr_noise]. unfold Rdiv. ring.
  - constructor; cbn [lr_ev lr_rs lr_en]; auto.
Qed.

Lemma align_pos x y : (1 <= align_factor x y). Proof. unfold align_factor. lia. Qed.
Lemma ref_add a c b d : RCe a c -> RCe b d -> refines RSe RCe (o_add EA a b) (o_add EE c d).
Proof.
  intros Ha Hb log st a1 log' HST E. cbn [o_add errOps] in E. destruct (cmpb (a_s a) (a_s b)) eqn:Ec; [|discriminate]. injection E as <- <-. apply cmpb_ok in Ec.
  destruct Ha as [La Ca Ia Sa (M0 & P0 & E0)], Hb as [Lb Cb Ib Sb (M1 & P1 & E1)]. destruct c as [c sc0], d as [d sc1]. cbn [c_ct c_scale] in *. subst sc0 sc1.
  destruct HST as [V1 V2 V3 V4 V5]. set (l := Nat.min (a_l a) (a_l b)).
  destruct (add_new ce He c d (a_s a) (a_s b) (a_l a) (a_l b) La Lb Ca Cb Ec) as (cout & (C1 & C2 & C3) & C4). fold l in C1, C3.
  destruct (C4 (orders (lr_n st)) (lr_ev st) (Ho _) V1) as (out & st' & ER & HSm & V1'). pose proof (same_ct_keys _ _ HSm) as SK.
  eexists _, _. cbn [o_add evalOps fst snd]. rewrite ER. cbn [bind]. split; [reflexivity|]. set (k0 := align_factor (a_s a) (a_s b)) in *. set (k1 := align_factor (a_s b) (a_s a)) in *.
  split; [|constructor; cbn [lr_ev lr_rs lr_en]; auto].
  unfold RCe. cbn [a_l a_s a_m a_e]. constructor; cbn [c_ct c_scale]; auto; [lia|eapply same_ct_ok; eauto|intros id [Hid Hne]; apply SK, C2 in Hid as [Hid|Hid]; [apply Ia|apply Ib]; split; auto|].
  exists (padd (pscale k0 M0) (pscale k1 M1)). split.
  - intros j Hj. rewrite (phase_same pp s out cout j _ HSm). rewrite (C3 s j Hj). apply padd_proper; apply pscale_proper; [apply P0|apply P1]; lia.
  - intros i Hi. rewrite slot_add, !slot_scale. assert (Hi' : (0 <= i < Z.of_nat hn)%Z) by (rewrite hn_h; lia). unfold add_err.
    apply add_est; auto; try (apply IZR_le; pose proof (align_pos (a_s a) (a_s b)); pose proof (align_pos (a_s b) (a_s a)); unfold k0, k1; lia); now apply sup_le.
Qed.

Lemma ref_rot a c k : 0 < h -> RCe a c -> refines RSe RCe (o_rot EA a k) (o_rot EE c k).
Proof.
  intros Hh Ha log st a1 log' HST E. cbn [o_rot errOps] in E. injection E as <- <-.
  destruct Ha as [La Ca Ia Sa (M0 & P0 & E0)]. destruct c as [c sc0]. cbn [c_ct c_scale] in *. subst sc0. destruct HST as [V1 V2 V3 V4 V5].
  destruct (lk_rot _ _ _ _ _ _ _ _ _ _ _ _ _ HK c k Ia) as (n & Hn & Hr). set (m := k mod h) in *. pose proof (Z.mod_pos_bound k h Hh) as Hm. fold m in Hm.
  assert (HRS : rot_setting pp g s Bs Dm c (a_l a)). { constructor; auto; try apply HK. intros id Hid. apply (lk_s _ _ _ _ _ _ _ _ _ _ _ _ _ HK). auto. }
  destruct (rotate_new ce He g s Bs Be Dm c (a_s a) (a_l a) rks k m n HRS ltac:(lia)) as (cout & (C1 & C2 & w & Hw & C3) & C4); [exists (k / h); unfold m; rewrite Z.mod_eq by lia; lia|exact Hr|].
  destruct (C4 (orders (lr_n st)) (lr_ev st) (Ho _) V1) as (out & st' & ER & HSm & V1'). pose proof (same_ct_keys _ _ HSm) as SK.
  eexists _, _. cbn [o_rot evalOps fst snd]. rewrite ER. cbn [bind]. split; [reflexivity|]. split; [|constructor; cbn [lr_ev lr_rs lr_en]; auto].
  unfold RCe. cbn [a_l a_s a_m a_e]. constructor; cbn [c_ct c_scale]; auto; [eapply same_ct_ok; eauto|intros id [Hid Hne]; apply Ia; split; auto; apply C2, SK, Hid|].
  exists (padd (psigma N (5 ^ m) M0) w). split.
  - intros j Hj. rewrite (phase_same pp s out cout j _ HSm), (C3 j Hj). apply padd_proper; [|reflexivity]. apply psigma_proper. now apply P0.
  - intros i Hi. rewrite slot_add. change (fst (Nat.divmod N 1 0 1)) with hn. rewrite hn_h. pose proof (Z.mod_pos_bound (i + k) h Hh) as Hik.
    assert (Hlog : (1 <= pa_logN pp)%nat) by apply (ro_log _ (po_rQ _ Hpp)).
    unfold N. rewrite (slots (pa_logN pp) M0 i m ((i + k) mod h)); auto; try lia.
    + apply shift_est; [now apply E0|]. eapply Rle_trans; [apply (scaled_norm (bigP pp)); [apply (bigP_pos _ He)|lia|exact Hw]|]. cbn [n_rot lr_noise]. unfold Rdiv. rewrite <- Rmult_assoc. apply Rmult_le_compat_r.
      * left. apply Rinv_0_lt_compat, IZR_lt, (bigP_pos _ He).
      * apply Rmult_le_compat_l; [apply Rmult_le_pos; [lra|apply pos_INR]|]. apply IZR_le. unfold step_noise.
        pose proof (nparties_le _ _ _ _ Ca Ia) as HNp. pose proof (ks_noise_pos N (Z.of_nat (Beta pp (a_l a))) Bs Be Dm (bigP pp) ltac:(lia) (lk_Bs _ _ _ _ _ _ _ _ _ _ _ _ _ HK) (lk_Be _ _ _ _ _ _ _ _ _ _ _ _ _ HK) (lk_Dm _ _ _ _ _ _ _ _ _ _ _ _ _ HK) ltac:(pose proof (bigP_pos _ He); lia)) as HKn.
        apply Z.mul_le_mono_nonneg; [lia|lia|apply Z.mul_nonneg_nonneg; [apply HNp|exact HKn]|apply Z.mul_le_mono_nonneg_r; [exact HKn|apply HNp]].
    + change (Z.of_nat (deg (pa_logN pp)) / 2) with h. unfold m. exists ((i + k) / h - k / h). rewrite !Z.mod_eq by lia. lia.
Qed.

Context (HZ : zero_setting pp s ids pk encode zero_msg rnd Bu B ez).
Lemma ref_zero : refines RSe RCe (o_zero EA) (o_zero EE).
Proof.
  intros log st a1 log' HST E. cbn [o_zero errOps] in E. injection E as <- <-.
  destruct HZ as [(e & a & Hpk & Hpe) Hid HBu HB Hr (M & HM & HMz)]. destruct HST as [V1 V2 V3 V4 V5].
  destruct (rnd (lr_n st)) as [[u e0] e1] eqn:ER. destruct (Hr (lr_n st)) as (R1 & R2 & R3). rewrite ER in R1, R2, R3. cbn [fst snd] in R1, R2, R3.
  assert (Hid0 : pk_ID pk <> "0"%string). { intros E. apply (lk_0 _ _ _ _ _ _ _ _ _ _ _ _ _ HK). congruence. }
  destruct (encmsg_full (mkCkp pp (ce_scale ce)) Hpp encode (fun _ _ => zero_msg) zero_msg M pk (s (pk_ID pk)) e a u e0 e1 Bu B HM Hpk Hid0 HBu HB R1 R2 R3 (orders (lr_n st)) (sset NewIDSet (pk_ID pk) tt) (lr_en st) (Ho _))
    as (ct & en' & EC & HEn & CS & CL & CP & CR & CD); auto. { cbn. auto. } { cbn. intros [H|[]]; congruence. }
  eexists ct, _. cbn [o_zero evalOps]. rewrite ER. unfold EncryptMsgNew, idAdd. destruct (String.eqb_spec (pk_ID pk) "0"); [congruence|]. cbn [bind]. cbn [cp_pp cp_scale] in EC, CL, CR, CD, CS |- *. rewrite EC. cbn [bind]. split; [reflexivity|].
  split; [|constructor; cbn [lr_ev lr_rs lr_en]; auto].
  set (F := encF _ _ _ _ _ _ _ _ _ _) in *. specialize (CD s eq_refl).
  assert (Hmx : (maxLevel pp < QCount pp)%nat) by apply (cr_l _ _ _ _ _ CR).
  unfold RCe. cbn [a_l a_s a_m a_e]. constructor; auto.
  - constructor; [apply (cr_nd _ _ _ _ _ CR)| |].
    + destruct (cr_0 _ _ _ _ _ CR) as (p & E & _). eapply mget_key; eauto; exact seqb.
    + intros x p E. destruct (cr_c _ _ _ _ _ CR x p E) as (Ep & _ & _ & Hp). split; [auto|]. split; [eauto|]. intros j Hj. destruct (Hp j ltac:(lia)) as (Hl & Hx). split; [exact Hl|].
      intros k Hk. destruct (Hx k Hk) as [Hx0 _]. cbv beta in Hx0. change (r_mods (ringQ pp)) with (pa_Q pp) in Hx0. lia.
  - intros x Hx. apply CP in Hx. cbn in Hx. destruct Hx as [<-|[]]. exact Hid.
  - exists (padd M (fresh_noise N (s (pk_ID pk)) e (smallpoly u) (smallpoly e0) (smallpoly e1))). split.
    + intros j Hj. rewrite (phase_lift (ce_env ce) (maxLevel pp) s (c_ct ct) F j); [|apply (cr_nd _ _ _ _ _ CR)| |exact Hj].
      * apply peq_0. exact CD.
      * intros x Hx. destruct (mget_ex _ seqb _ x Hx) as (p & E). destruct (cr_c _ _ _ _ _ CR x p E) as (_ & Hp). eauto.
    + intros i Hi. rewrite slot_add, Rmult_0_r.
      pose proof (fresh_bound pp _ _ _ _ _ _ _ _ (proj1 (lk_s _ _ _ _ _ _ _ _ _ _ _ _ _ HK _ Hid)) Hpe R1 R2 R3) as HFb. pose proof (slot_norm N HN _ _ i (proj1 Hi) HFb) as HFn. pose proof (HMz i Hi) as HMn.
      set (z1 := slot N M i) in *. set (z2 := slot N _ i) in *. cbn [n_zero lr_noise].
      replace (csub (cadd z1 z2) (creal 0)) with (cadd z1 z2) by (destruct z1, z2; unfold csub, cadd, copp, creal; cbn [fst snd]; apply f_equal2; ring).
      eapply Rle_trans; [apply cnorm_add|]. apply Rplus_le_compat; [exact HMn|exact HFn].
Qed.

Theorem eval_refines : 0 < h -> ops_refine RSe RCe RPe EA EE.
Proof.
  intros Hh. constructor.
  - intros. now apply ref_mul.
  - intros. apply ref_mul; auto.
  - intros. now apply ref_mulp.
  - intros. now apply ref_add.
  - intros. now apply ref_rot.
  - apply ref_zero.
Qed.
End E.
