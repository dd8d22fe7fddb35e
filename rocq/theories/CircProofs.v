(** Every call of the evaluator returns, and its result holds the slots that [track] says, up to the error that [track] says. *)
From Coq Require Import Reals String ZArith Znumtheory List Lia Lra Setoid Morphisms Bool Permutation.
From Coq.Floats Require Import SpecFloat.
From Verif Require Import Spec SpecProofs Go GoProofs Arith NegRing NegRingProofs NTT NTTProofs F64 F64Proofs BasisExt RingOps RingOpsProofs Maps MapsProofs Params Elements KeySwitch KeySets KeyGen EncDec Evaluator KSProofs Repr SpecKeys SpecCt KSSem SpecEnc EncProofs EncThms CkEncThms SpecEv EvFloat EvProofs RescaleProofs EvThms AddThms ConstThms MulEvThms SpecRot RotThms RotEvThms Galois SpecSlots SlotThms SlotRing SpecLREnc SlotErr LREncProofs ElemThms Alias AliasThms Circuit SpecCircuit CircErr.
Import ListNotations.
Local Open Scope Z_scope.

Lemma idx_nth_error {A} (l : list A) i x : nth_error l i = Some x -> idx l i = Ok x.
Proof. intros H. unfold idx. now rewrite H. Qed.
Lemma Forall2_nth_error {A B} (P : A -> B -> Prop) l1 l2 i a : Forall2 P l1 l2 -> nth_error l1 i = Some a -> exists b, nth_error l2 i = Some b /\ P a b.
Proof.
  intros H; revert i a; induction H as [|x y l1 l2 H0 H IH]; intros [|i] a E; cbn in E; try discriminate.
  - injection E as <-. exists y. auto.
  - now apply IH.
Qed.
Lemma encoded_unique q c s t : finite c -> encoded_at q [c] s -> encoded_at q [c] t -> s = t.
Proof.
  intros Hc [H1 H2] [H3 H4]. pose proof (proj1 (finite_fval c) Hc) as (r & Fr). pose proof (needsScale_iff c r Fr) as HI. destruct (needsScale c) eqn:E.
  - assert (HF : ~ Forall integral [c]). { intros HF. inversion HF as [|? ? Hi _]; subst. unfold integral in Hi. apply HI in Hi. discriminate. } rewrite H2, H4 by auto. reflexivity.
  - assert (HF : Forall integral [c]). { constructor; [|constructor]. unfold integral. now apply HI. } rewrite H1, H3 by auto. reflexivity.
Qed.
Lemma count_le Q l s t n : rescale_steps Q l s t n -> (n <= l)%nat.
Proof. intros [[_ ->]|[_ [H _]]]; lia. Qed.

Section E.
Context (ce : ckenv) (He : env_ok (ce_env ce)).
Notation pp := (e_pp (ce_env ce)).
Notation N := (pa_N pp).
Context (g : nat -> Z) (A U : nat -> zpoly) (s r : string -> zpoly) (Bs Be Dm : Z) (ids : list string) (keys : rlkset) (rks : rotset) (cks : conjset).
Context (HK : circ_keys pp g A U s r Bs Be Dm ids keys) (Hh : 0 < Z.of_nat N / 2).
Context (vpts : list cpt) (pts : list (poly * f64)) (Hpts : Forall2 (vp_holds pp) vpts pts).
Notation h := (Z.of_nat N / 2).
Notation kp := (Z.of_nat (List.length ids)).
Notation hn := (N / 2)%nat.
Notation VH := (v_holds pp s ids).
Notation CO := (circ_ok pp ids keys).
Let HN : (0 < N)%nat := deg_pos _.
Let Hpp : params_ok pp := eo_pp _ He.
Let hnh : Z.of_nat hn = h. Proof. rewrite Nat2Z.inj_div. reflexivity. Qed.
Let csl m i : 0 <= i < h -> (cnorm (m i) <= csup hn m)%R.
Proof. intros Hi. apply csup_le. rewrite hnh. exact Hi. Qed.
Let put st ev : CO st -> ev_ok pp ev -> CO (mkCs ev (cs_rs st)).
Proof. intros [V1 V2 V3 V4] H. constructor; auto. Qed.

Lemma cdivided_slot l n A0 w' B0 M0 : divided pp l n A0 w' B0 -> (forall j, (j <= l)%nat -> peq N (modulus (pa_Q pp) j) (A0 j) M0) ->
  exists M', (forall j, (j <= l - n)%nat -> peq N (modulus (pa_Q pp) j) (B0 j) M') /\
    forall i, cmul (creal (IZR (dropped (pa_Q pp) l n))) (slot N M' i) = csub (slot N M0 i) (slot N w' i).
Proof. exact (divided_slot ce l n A0 w' B0 M0). Qed.

(** the common part of the two products *)
Lemma cprod_ok l n sc0 sc1 m0 m1 e0 e1 M0 M1 w w' (ph : nat -> zpoly) (out : nat -> zpoly) W1 W2 :
  (n <= l)%nat -> (l < QCount pp)%nat -> slots_near pp sc0 m0 e0 M0 -> slots_near pp sc1 m1 e1 M1 ->
  (forall j, (j <= l)%nat -> peq N (modulus (pa_Q pp) j) (ph j) (padd (pmul N M0 M1) w)) -> divided pp l n ph w' out ->
  (forall i, (0 <= i)%Z -> cnorm (slot N w i) <= W1)%R -> (forall i, (0 <= i)%Z -> cnorm (slot N w' i) <= W2)%R ->
  let sc := scale_after (pa_Q pp) l (fmul sc0 sc1) n in let D := dropped (pa_Q pp) l n in
  exists M', (forall j, (j <= l - n)%nat -> peq N (modulus (pa_Q pp) j) (out j) M') /\
    slots_near pp sc (fun x => cmul (m0 x) (m1 x)) (prod_err pp sc0 sc1 sc D m0 m1 e0 e1 (W1 + W2)) M'.
Proof.
  intros Hn Hl H0 H1 Hph Hdiv HW1 HW2 sc D. destruct (cdivided_slot l n ph w' out _ Hdiv Hph) as (M' & HM & HS). exists M'. split; [auto|]. intros i Hi.
  specialize (HS i). fold D in HS. rewrite slot_add, (slot_mul N HN) in HS by lia. pose proof (dropped_pos pp Hpp l n Hn Hl) as HD. fold D in HD.
  apply (cmul_est (slot N M0 i) (slot N M1 i) (csub (slot N w i) (slot N w' i))).
  - now apply IZR_lt.
  - rewrite HS. unfold csub. set (a := cmul _ _). set (b := slot N w i). set (c := slot N w' i). destruct a, b, c. unfold cadd, copp. cbn [fst snd]. apply f_equal2; ring.
  - now apply H0. - now apply H1. - now apply csl. - now apply csl.
  - eapply Rle_trans; [apply cnorm_sub|]. apply Rplus_le_compat; [apply HW1|apply HW2]; lia.
Qed.
Lemma round_le l n ct w' l0 : (n <= l)%nat -> (l < QCount pp)%nat -> ct_ok pp l0 ct -> (forall id, party ct id -> In id ids) ->
  pnorm_le N w' (rescale_noise N (nparties ct) Bs (dropped (pa_Q pp) l n)) -> forall i, 0 <= i -> (cnorm (slot N w' i) <= round_noise pp Bs ids l n)%R.
Proof.
  intros Hn Hl Hc Hi Hw i Hi0. pose proof (dropped_pos pp Hpp l n Hn Hl) as HD. apply slot_norm; auto. eapply pnorm_le_trans; [|exact Hw]. apply rescale_noise_mono; try apply HK; try lia. eapply nparties_le; eauto.
Qed.
Lemma switch_le l ct w n : ct_ok pp l ct -> (forall id, party ct id -> In id ids) -> 0 <= n -> pnorm_le N (pscale (bigP pp) w) (n * step_noise pp l ct Bs Be Dm) ->
  forall i, 0 <= i -> (cnorm (slot N w i) <= IZR n * switch_noise pp Bs Be Dm ids l)%R.
Proof.
  intros Ca Ia Hn Hw i Hi. eapply Rle_trans; [apply (scaled_norm ce (bigP pp)); [apply (bigP_pos _ He)|exact Hi|exact Hw]|].
  unfold switch_noise. rewrite mult_IZR. pose proof (bigP_pos _ He) as HP.
  pose proof (nparties_le _ _ _ _ Ca Ia) as HNp. pose proof (ks_noise_pos N (Z.of_nat (Beta pp l)) Bs Be Dm (bigP pp) ltac:(lia) (ck_Bs _ _ _ _ _ _ _ _ _ _ _ HK) (ck_Be _ _ _ _ _ _ _ _ _ _ _ HK) (ck_Dm _ _ _ _ _ _ _ _ _ _ _ HK) ltac:(lia)) as HKn.
  assert (HL : (IZR (step_noise pp l ct Bs Be Dm) <= IZR (kp * ks_noise N (Z.of_nat (Beta pp l)) Bs Be Dm (bigP pp)))%R). { apply IZR_le. unfold step_noise. apply Z.mul_le_mono_nonneg_r; [exact HKn|apply HNp]. }
  apply IZR_lt in HP. apply IZR_le in Hn. pose proof (pos_INR N) as HNN. set (x := IZR (step_noise _ _ _ _ _ _)) in *. set (y := IZR (kp * _)) in *.
  replace (IZR n * (2 * INR N * (y / IZR (bigP pp))))%R with (2 * INR N * (IZR n * y / IZR (bigP pp)))%R by (unfold Rdiv; ring).
  apply Rmult_le_compat_l; [lra|]. unfold Rdiv. apply Rmult_le_compat_r; [left; now apply Rinv_0_lt_compat|]. now apply Rmult_le_compat_l.
Qed.

Lemma run_mul (same : bool) a c b d n o st : VH a c -> VH b d -> (same = true -> d = c) -> order_ok o -> CO st ->
  let l := Nat.min (v_l a) (v_l b) in rescale_steps (pa_Q pp) l (fmul (v_s a) (v_s b)) (ce_scale ce) n -> let sc := scale_after (pa_Q pp) l (fmul (v_s a) (v_s b)) n in
  exists out rs ev, MulRelinNew ce o same c d (cs_rs st) (cs_ev st) = Ok (out, rs, ev) /\ CO (mkCs ev rs) /\
    VH (mkV (l - n) sc (fun x => cmul (v_m a x) (v_m b x)) (prod_err pp (v_s a) (v_s b) sc (dropped (pa_Q pp) l n) (v_m a) (v_m b) (v_e a) (v_e b) (relin_noise pp Bs Be Dm ids l + round_noise pp Bs ids l n))) out.
Proof.
  intros Ha Hb Hs Ho HST l En sc. pose proof (count_le _ _ _ _ _ En) as Hn.
  destruct Ha as [La Ca Ia Sa (M0 & P0 & E0)], Hb as [Lb Cb Ib Sb (M1 & P1 & E1)]. destruct c as [c sc0], d as [d sc1]. cbn [c_ct c_scale] in *. subst sc0 sc1.
  destruct HST as [V1 V2 V4 V5]. assert (Hl : (l < QCount pp)%nat) by (unfold l; lia).
  assert (HMS : mul_setting pp g A U s r Bs Be Dm c d (v_l a) (v_l b) (rs_keys (cs_rs st))).
  { constructor; auto; try apply HK.
    - intros id [H|H]; apply (ck_s _ _ _ _ _ _ _ _ _ _ _ HK); auto.
    - rewrite V2. intros id [H|H]; apply (ck_rlk _ _ _ _ _ _ _ _ _ _ _ HK); auto. }
  destruct (mul_relin_new ce He g A U s r Bs Be Dm c d (v_s a) (v_s b) (v_l a) (v_l b) (cs_rs st) same o (cs_ev st) HMS) as [HR _].
  { destruct same; [injection (Hs eq_refl) as E; congruence|intros id Hid; apply V5, Ib, Hid]. } { intros id Hid; apply V4, Ia, Hid. } { exact Ho. } { exact V1. }
  destruct (HR n En) as (out & rs' & st' & ER & (w & w' & C1 & _ & C2 & C3 & C4 & C5 & C6) & V1' & K1 & K2 & K3). fold l in C1, C3, C4, C5, C6.
  exists out, rs', st'. split; [exact ER|].
  assert (Iout : forall id, party (c_ct out) id -> In id ids). { intros id [Hid Hne]. apply C2 in Hid as [Hid|Hid]; [apply Ia|apply Ib]; split; auto. }
  pose proof (bigP_pos (ce_env ce) He) as HP. split.
  - constructor; cbn [cs_ev cs_rs]; auto; [congruence| |].
    + intros id Hid. destruct (V4 id Hid) as (v & Hv & Hv'). destruct (string_dec id "0") as [->|Hz]; [destruct (ck_no0 _ _ _ _ _ _ _ _ _ _ _ HK); auto|].
      apply (K2 [(id, mkPoly false [])]); [|split; [left; reflexivity|auto]]. intros id' [[<-|[]] _]. eauto.
    + intros id Hid. destruct (V5 id Hid) as (v & Hv & Hv'). destruct (string_dec id "0") as [->|Hz]; [destruct (ck_no0 _ _ _ _ _ _ _ _ _ _ _ HK); auto|].
      apply (K3 [(id, mkPoly false [])]); [|split; [left; reflexivity|auto]]. intros id' [[<-|[]] _]. eauto.
  - constructor; cbn [v_l v_s v_m v_e]; auto; [lia|].
    apply (cprod_ok l n (v_s a) (v_s b) (v_m a) (v_m b) (v_e a) (v_e b) M0 M1 w w' (fun j => padd (pmul N (phase N s c j) (phase N s d j)) w) (phase N s (c_ct out))); auto.
    + intros j Hj. apply padd_proper; [|reflexivity]. apply pmul_proper; [apply P0|apply P1]; unfold l in Hj; lia.
    + intros i Hi. apply scaled_norm; auto. eapply pnorm_le_trans; [|exact C4]. apply mul_noise_mono; try apply HK; try lia; eapply nparties_le; eauto.
    + eapply round_le; eauto.
Qed.

Lemma run_mul_hoisted a c b d n o st hi hj : VH a c -> VH b d -> order_ok o -> CO st ->
  let l := Nat.min (v_l a) (v_l b) in rescale_steps (pa_Q pp) l (fmul (v_s a) (v_s b)) (ce_scale ce) n -> let sc := scale_after (pa_Q pp) l (fmul (v_s a) (v_s b)) n in
  let form (want : bool) x ev := if want then bind (HoistedForm ce o x ev) (fun '(h, ev) => Ok (Some h, ev)) else Ok (None, ev) in
  exists h0 ev0 h1 ev1 out ev, form hi c (cs_ev st) = Ok (h0, ev0) /\ form hj d ev0 = Ok (h1, ev1) /\ MulRelinHoistedNew ce o c d h0 h1 (rs_keys (cs_rs st)) ev1 = Ok (out, ev) /\ CO (mkCs ev (cs_rs st)) /\
    VH (mkV (l - n) sc (fun x => cmul (v_m a x) (v_m b x)) (prod_err pp (v_s a) (v_s b) sc (dropped (pa_Q pp) l n) (v_m a) (v_m b) (v_e a) (v_e b) (relin_noise pp Bs Be Dm ids l + round_noise pp Bs ids l n))) out.
Proof.
  intros Ha Hb Ho HST l En sc form. pose proof (count_le _ _ _ _ _ En) as Hn.
  destruct Ha as [La Ca Ia Sa (M0 & P0 & E0)], Hb as [Lb Cb Ib Sb (M1 & P1 & E1)]. destruct c as [c sc0], d as [d sc1]. cbn [c_ct c_scale] in *. subst sc0 sc1.
  pose proof (co_ev _ _ _ _ HST) as V1. pose proof (co_keys _ _ _ _ HST) as V2. assert (Hl : (l < QCount pp)%nat) by (unfold l; lia).
  assert (HMS : mul_setting pp g A U s r Bs Be Dm c d (v_l a) (v_l b) (rs_keys (cs_rs st))).
  { constructor; auto; try apply HK.
    - intros id [H|H]; apply (ck_s _ _ _ _ _ _ _ _ _ _ _ HK); auto.
    - rewrite V2. intros id [H|H]; apply (ck_rlk _ _ _ _ _ _ _ _ _ _ _ HK); auto. }
  assert (HF : forall want x sc lx ev, (lx < QCount pp)%nat -> ct_ok pp lx x -> ev_ok pp ev -> exists hh ev', form want (mkCk x sc) ev = Ok (hh, ev') /\ maybe_hoisted_at (ce_env ce) lx x hh /\ ev_ok pp ev').
  { intros [|] x sx lx ev Hlx Hx Hev; cbn.
    - destruct (hoisted_form ce He x sx lx o ev Hlx Hx Ho Hev) as (hh & ev' & EH & HH & _ & V0). rewrite EH. cbn. eauto.
    - exists None, ev. cbn. auto. }
  destruct (HF hi c (v_s a) (v_l a) (cs_ev st) La Ca V1) as (h0 & ev0 & F0 & G0 & W0).
  destruct (HF hj d (v_s b) (v_l b) ev0 Lb Cb W0) as (h1 & ev1 & F1 & G1 & W1).
  destruct (mul_hoisted_new ce He g A U s r Bs Be Dm c d (v_s a) (v_s b) (v_l a) (v_l b) (rs_keys (cs_rs st)) h0 h1 o ev1 HMS G0 G1 Ho W1) as [HR _].
  destruct (HR n En) as (out & st' & ER & V1' & (w & w' & C1 & _ & C2 & C3 & C4 & C5 & C6)). fold l in C1, C3, C4, C5, C6.
  exists h0, ev0, h1, ev1, out, st'. split; [exact F0|]. split; [exact F1|]. split; [exact ER|]. split; [now apply put|].
  assert (Iout : forall id, party (c_ct out) id -> In id ids). { intros id [Hid Hne]. apply C2 in Hid as [Hid|Hid]; [apply Ia|apply Ib]; split; auto. }
  pose proof (bigP_pos (ce_env ce) He) as HP.
  constructor; cbn [v_l v_s v_m v_e]; auto; [lia|].
  apply (cprod_ok l n (v_s a) (v_s b) (v_m a) (v_m b) (v_e a) (v_e b) M0 M1 w w' (fun j => padd (pmul N (phase N s c j) (phase N s d j)) w) (phase N s (c_ct out))); auto.
  - intros j Hj. apply padd_proper; [|reflexivity]. apply pmul_proper; [apply P0|apply P1]; unfold l in Hj; lia.
  - intros i Hi. apply scaled_norm; auto. eapply pnorm_le_trans; [|exact C4]. apply mul_noise_mono; try apply HK; try lia; eapply nparties_le; eauto.
  - eapply round_le; eauto.
Qed.

Lemma run_mulpt a c p q n o st : VH a c -> vp_holds pp p q -> order_ok o -> CO st ->
  rescale_steps (pa_Q pp) (v_l a) (fmul (v_s a) (vp_s p)) (ce_scale ce) n -> let sc := scale_after (pa_Q pp) (v_l a) (fmul (v_s a) (vp_s p)) n in
  exists out ev, MulPtxtNew ce o c (fst q) (snd q) (cs_ev st) = Ok (out, ev) /\ CO (mkCs ev (cs_rs st)) /\
    VH (mkV (v_l a - n) sc (fun x => cmul (v_m a x) (vp_m p x)) (prod_err pp (v_s a) (vp_s p) sc (dropped (pa_Q pp) (v_l a) n) (v_m a) (vp_m p) (v_e a) (vp_e p) (round_noise pp Bs ids (v_l a) n))) out.
Proof.
  intros Ha Hp Ho HST En sc. pose proof (count_le _ _ _ _ _ En) as Hn.
  destruct Ha as [La Ca Ia Sa (M0 & P0 & E0)], Hp as (Sp & Fp & Mp & Pp & Ep). destruct c as [c sc0], q as [q sc1]. cbn [c_ct c_scale fst snd] in *. subst sc0 sc1.
  pose proof (co_ev _ _ _ _ HST) as V1. assert (Hle : (v_l a <= maxLevel pp)%nat) by (unfold maxLevel; lia).
  destruct (mul_ptxt ce He c (v_s a) q (vp_s p) Mp (v_l a) (maxLevel pp) n La Ca Fp Pp Hle En) as (cout & C1 & _ & C2 & C3 & C4).
  destruct (C4 o (cs_ev st) Ho V1) as (out & st' & ER & HSm & HSc & V1').
  destruct (C3 s Bs) as (w & Hw & Hdiv). { intros id Hid. apply (ck_s _ _ _ _ _ _ _ _ _ _ _ HK). auto. }
  exists out, st'. split; [exact ER|]. split; [now apply put|]. pose proof (same_ct_keys _ _ HSm) as SK.
  constructor; cbn [v_l v_s v_m v_e]; auto; [lia|eapply same_ct_ok; eauto|intros id [Hid Hne]; apply Ia; split; auto; apply C2, SK, Hid|].
  destruct (cprod_ok (v_l a) n (v_s a) (vp_s p) (v_m a) (vp_m p) (v_e a) (vp_e p) M0 Mp pzero w (fun j => pmul N Mp (phase N s c j)) (phase N s cout) 0%R (round_noise pp Bs ids (v_l a) n)) as (M' & HM & HS); auto.
  - intros j Hj. rewrite (P0 j Hj). rewrite (pmul_comm N HN). intros x Hx. apply cong_eq. unfold padd, pzero. lia.
  - intros i Hi. pose proof (slot_norm N HN pzero 0 i Hi) as H. rewrite Rmult_0_r in H. apply H. intros x Hx. unfold pzero. lia.
  - now apply (round_le (v_l a) n c w (v_l a)).
  - exists M'. split; [intros j Hj; rewrite (phase_same pp s (c_ct out) cout j _ HSm); auto|]. rewrite Rplus_0_l in HS. exact HS.
Qed.

Lemma al0 x y : (0 <= IZR (align_factor x y))%R. Proof. apply IZR_le. unfold align_factor. lia. Qed.
Lemma run_add a c b d o st : VH a c -> VH b d -> order_ok o -> CO st -> comparable (v_s a) (v_s b) -> let sc := if fltb (v_s b) (v_s a) then v_s a else v_s b in
  exists out ev, AddNew ce o c d (cs_ev st) = Ok (out, ev) /\ CO (mkCs ev (cs_rs st)) /\
    VH (mkV (Nat.min (v_l a) (v_l b)) sc (fun x => cadd (v_m a x) (v_m b x))
      (sum_err pp (v_s a) (v_s b) sc (align_factor (v_s a) (v_s b)) (align_factor (v_s b) (v_s a)) (v_m a) (v_m b) (v_e a) (v_e b))) out.
Proof.
  intros Ha Hb Ho HST Ec sc.
  destruct Ha as [La Ca Ia Sa (M0 & P0 & E0)], Hb as [Lb Cb Ib Sb (M1 & P1 & E1)]. destruct c as [c sc0], d as [d sc1]. cbn [c_ct c_scale] in *. subst sc0 sc1.
  pose proof (co_ev _ _ _ _ HST) as V1. set (l := Nat.min (v_l a) (v_l b)).
  destruct (add_new ce He c d (v_s a) (v_s b) (v_l a) (v_l b) La Lb Ca Cb Ec) as (cout & (C1 & C2 & C3) & C4). fold l in C1, C3.
  destruct (C4 o (cs_ev st) Ho V1) as (out & st' & ER & HSm & V1'). pose proof (same_ct_keys _ _ HSm) as SK.
  eexists _, st'. split; [exact ER|]. split; [now apply put|]. set (k0 := align_factor (v_s a) (v_s b)) in *. set (k1 := align_factor (v_s b) (v_s a)) in *.
  constructor; cbn [v_l v_s v_m v_e c_ct c_scale]; auto; [unfold l; lia|eapply same_ct_ok; eauto|intros id [Hid Hne]; apply SK, C2 in Hid as [Hid|Hid]; [apply Ia|apply Ib]; split; auto|].
  exists (padd (pscale k0 M0) (pscale k1 M1)). split.
  - intros j Hj. rewrite (phase_same pp s out cout j _ HSm). rewrite (C3 s j Hj). apply padd_proper; apply pscale_proper; [apply P0|apply P1]; unfold l in Hj; lia.
  - intros i Hi. rewrite slot_add, !slot_scale.
    apply cadd_est; auto; try apply al0; now apply csl.
Qed.
Lemma near_opp sc m e M : slots_near pp sc m e M -> slots_near pp sc (fun x => copp (m x)) e (pscale (-1) M).
Proof.
  intros H i Hi. rewrite slot_scale. specialize (H i Hi). set (x := slot N M i) in *. replace (csub _ _) with (copp (csub x (cscale (fR sc) (m i)))); [now rewrite cnorm_opp|].
  destruct x as [x0 x1], (m i) as [y0 y1]. unfold csub, cscale, cmul, cadd, copp, creal. cbn [fst snd]. apply f_equal2; ring.
Qed.
Lemma csup_opp n m : csup n (fun x => copp (m x)) = csup n m.
Proof. induction n as [|n IH]; [reflexivity|]. cbn [csup]. now rewrite IH, cnorm_opp. Qed.
Lemma run_sub a c b d o st : VH a c -> VH b d -> order_ok o -> CO st -> comparable (v_s a) (v_s b) -> let sc := if fltb (v_s b) (v_s a) then v_s a else v_s b in
  exists out ev, SubNew ce o c d (cs_ev st) = Ok (out, ev) /\ CO (mkCs ev (cs_rs st)) /\
    VH (mkV (Nat.min (v_l a) (v_l b)) sc (fun x => csub (v_m a x) (v_m b x))
      (sum_err pp (v_s a) (v_s b) sc (align_factor (v_s a) (v_s b)) (align_factor (v_s b) (v_s a)) (v_m a) (v_m b) (v_e a) (v_e b))) out.
Proof.
  intros Ha Hb Ho HST Ec sc.
  destruct Ha as [La Ca Ia Sa (M0 & P0 & E0)], Hb as [Lb Cb Ib Sb (M1 & P1 & E1)]. destruct c as [c sc0], d as [d sc1]. cbn [c_ct c_scale] in *. subst sc0 sc1.
  pose proof (co_ev _ _ _ _ HST) as V1. set (l := Nat.min (v_l a) (v_l b)).
  destruct (sub_new ce He c d (v_s a) (v_s b) (v_l a) (v_l b) La Lb Ca Cb Ec) as (cout & (C1 & C2 & C3) & C4). fold l in C1, C3.
  destruct (C4 o (cs_ev st) Ho V1) as (out & st' & ER & HSm & V1'). pose proof (same_ct_keys _ _ HSm) as SK.
  eexists _, st'. split; [exact ER|]. split; [now apply put|]. set (k0 := align_factor (v_s a) (v_s b)) in *. set (k1 := align_factor (v_s b) (v_s a)) in *.
  constructor; cbn [v_l v_s v_m v_e c_ct c_scale]; auto; [unfold l; lia|eapply same_ct_ok; eauto|intros id [Hid Hne]; apply SK, C2 in Hid as [Hid|Hid]; [apply Ia|apply Ib]; split; auto|].
  exists (padd (pscale k0 M0) (pscale k1 (pscale (-1) M1))). split.
  - intros j Hj. rewrite (phase_same pp s out cout j _ HSm). rewrite (C3 s j Hj).
    assert (HM0 : peq N (modulus (pa_Q pp) j) (pscale k0 (phase N s c j)) (pscale k0 M0)) by (apply pscale_proper, P0; unfold l in Hj; lia).
    assert (HM1 : peq N (modulus (pa_Q pp) j) (pscale k1 (phase N s d j)) (pscale k1 M1)) by (apply pscale_proper, P1; unfold l in Hj; lia).
    intros x Hx. specialize (HM0 x Hx). specialize (HM1 x Hx). unfold psub, padd, pscale in *. destruct HM0 as (u & HM0), HM1 as (v & HM1). exists (u - v). lia.
  - pose proof (near_opp _ _ _ _ E1) as E1'. intros i Hi. rewrite slot_add, !slot_scale. unfold sum_err. rewrite <- (csup_opp _ (v_m b)).
    specialize (E1' i Hi). rewrite slot_scale in E1'.
    apply cadd_est; auto; try apply al0; now apply (csl (fun x => copp (v_m b x))).
Qed.

Lemma run_const a c x t o : VH a c -> order_ok o -> finite x -> encoded_at (modulus (pa_Q pp) (v_l a)) [x] t ->
  exists out, ckCopyNew c = Ok c /\ MultByConst ce o c (KFloat x) c = Ok out /\
    VH (mkV (v_l a) (fmul (v_s a) t) (fun i => cscale (fR x) (v_m a i))
      (Rabs (IZR (scaled_const x t)) * v_e a + Rabs (IZR (scaled_const x t) * fR (v_s a) - fR (fmul (v_s a) t) * fR x) * csup hn (v_m a))%R) out.
Proof.
  intros Ha Ho Hx Ht. destruct Ha as [La Ca Ia Sa (M0 & P0 & E0)]. destruct c as [c sc0]. cbn [c_ct c_scale] in *. subst sc0.
  assert (HR : const_receiver pp c c (v_l a)) by (split; [auto|split; [auto|intros id; reflexivity]]).
  destruct (mult_real ce He x c (v_s a) c (v_s a) (v_l a) (v_l a) La Ca HR Hx) as (t' & cout & H1 & H2 & H3 & H4 & H5 & _). rewrite Nat.min_id in H1, H5.
  assert (t' = t) by (eapply encoded_unique; eauto). subst t'. exists (mkCk cout (fmul (v_s a) t)).
  split. { destruct (mget_ex _ seqb _ _ (ck_0 _ _ _ Ca)) as (p0 & Ep). exact (proj1 (copy_new c (v_s a)) p0 Ep). }
  split; [now apply H2|]. constructor; cbn [v_l v_s v_m v_e c_ct c_scale]; auto. { intros id [Hid Hne]. apply Ia. split; auto. now apply H4. }
  exists (pscale (scaled_const x t) M0). split; [intros j Hj; rewrite (H5 s j Hj); apply pscale_proper; now apply P0|].
  intros i Hi. rewrite slot_scale. apply (cconst_est _ (fR (v_s a)) (v_m a i) (v_e a) (csup hn (v_m a))); [now apply E0|now apply csl].
Qed.

Lemma run_const_in a c x t o : VH a c -> order_ok o -> finite x -> encoded_at (modulus (pa_Q pp) (v_l a)) [x] t ->
  exists out, MultByConstAt ce o None (KFloat x) c = Ok out /\
    VH (mkV (v_l a) (fmul (v_s a) t) (fun i => cscale (fR x) (v_m a i))
      (Rabs (IZR (scaled_const x t)) * v_e a + Rabs (IZR (scaled_const x t) * fR (v_s a) - fR (fmul (v_s a) t) * fR x) * csup hn (v_m a))%R) out.
Proof.
  intros Ha Ho Hx Ht. destruct (run_const a c x t o Ha Ho Hx Ht) as (out & _ & E & H). exists out. split; [|exact H].
  apply (proj1 (const_any ce He (KFloat x) o o (v_l a) Ho Ho (hd_l _ _ _ _ _ _ _ _ Ha))); [apply Ha|exact E].
Qed.
Lemma rot_slots M0 m w sc mm e W k : 0 <= m -> cong h k m -> slots_near pp sc mm e M0 -> (forall i, 0 <= i -> (cnorm (slot N w i) <= W)%R) ->
  slots_near pp sc (fun i => mm ((i + k) mod h)) (e + W) (padd (psigma N (5 ^ m) M0) w).
Proof.
  intros Hm Hk E0 HW i Hi. rewrite slot_add. pose proof (Z.mod_pos_bound (i + k) h Hh) as Hik. assert (Hlog : (1 <= pa_logN pp)%nat) by apply (ro_log _ (po_rQ _ Hpp)).
  unfold N. rewrite (slots (pa_logN pp) M0 i m ((i + k) mod h)); auto; try lia.
  - apply cshift_est; [now apply E0|apply HW; lia].
  - change (Z.of_nat (deg (pa_logN pp)) / 2) with h. destruct Hk as (u & Hu). exists ((i + k) / h - u). rewrite Z.mod_eq by lia. lia.
Qed.
Lemma mod_cong k : cong h k (k mod h). Proof. exists (k / h). rewrite Z.mod_eq by lia. lia. Qed.
Lemma setting_rot l ct : (l < QCount pp)%nat -> ct_ok pp l ct -> (forall id, party ct id -> In id ids) -> rot_setting pp g s Bs Dm ct l.
Proof. intros Hl Hc Hi. constructor; auto; try apply HK. intros id Hid. apply (ck_s _ _ _ _ _ _ _ _ _ _ _ HK). auto. Qed.
Lemma ready_pos ct m n : rot_ready pp g Be s ct rks m n -> 0 <= n.
Proof. assert (Ho : forall p, 0 <= SpecRot.ones p) by (induction p; cbn; lia). intros [| |p]; try lia; apply Ho. Qed.

Lemma run_rot a c k n o st : VH a c -> order_ok o -> CO st -> (forall ct, (forall id, party ct id -> In id ids) -> rot_ready pp g Be s ct rks (k mod h) n) ->
  exists out ev, RotateNew ce o c k rks (cs_ev st) = Ok (out, ev) /\ CO (mkCs ev (cs_rs st)) /\
    VH (mkV (v_l a) (v_s a) (fun x => v_m a ((x + k) mod h)) (v_e a + IZR n * switch_noise pp Bs Be Dm ids (v_l a))) out.
Proof.
  intros Ha Ho HST Hr. destruct Ha as [La Ca Ia Sa (M0 & P0 & E0)]. destruct c as [c sc0]. cbn [c_ct c_scale] in *. subst sc0. pose proof (co_ev _ _ _ _ HST) as V1. specialize (Hr c Ia).
  pose proof (Z.mod_pos_bound k h Hh) as Hm.
  destruct (rotate_new ce He g s Bs Be Dm c (v_s a) (v_l a) rks k (k mod h) n (setting_rot _ _ La Ca Ia) ltac:(lia) (mod_cong k) Hr) as (cout & (C1 & C2 & w & Hw & C3) & C4).
  destruct (C4 o (cs_ev st) Ho V1) as (out & st' & ER & HSm & V1'). pose proof (same_ct_keys _ _ HSm) as SK.
  eexists _, st'. split; [exact ER|]. split; [now apply put|].
  constructor; cbn [v_l v_s v_m v_e c_ct c_scale]; auto; [eapply same_ct_ok; eauto|intros id [Hid Hne]; apply Ia; split; auto; apply C2, SK, Hid|].
  exists (padd (psigma N (5 ^ (k mod h)) M0) w). split.
  - intros j Hj. rewrite (phase_same pp s out cout j _ HSm), (C3 j Hj). apply padd_proper; [|reflexivity]. apply psigma_proper. now apply P0.
  - apply rot_slots; [lia|apply mod_cong|exact E0|]. apply (switch_le (v_l a) c w n Ca Ia); [eapply ready_pos; eauto|exact Hw].
Qed.
Lemma run_rot_hoisted a c k n o st : VH a c -> order_ok o -> CO st ->
  (k mod h = 0 /\ n = 0 \/ k mod h <> 0 /\ n = 1 /\ forall ct, (forall id, party ct id -> In id ids) -> rot_keys pp g Be s ct (k mod h) rks) ->
  exists hh ev0 out ev, HoistedForm ce o c (cs_ev st) = Ok (hh, ev0) /\ RotateHoistedNew ce o c k hh rks ev0 = Ok (out, ev) /\ CO (mkCs ev (cs_rs st)) /\
    VH (mkV (v_l a) (v_s a) (fun x => v_m a ((x + k) mod h)) (v_e a + IZR n * switch_noise pp Bs Be Dm ids (v_l a))) out.
Proof.
  intros Ha Ho HST Hr. destruct Ha as [La Ca Ia Sa (M0 & P0 & E0)]. destruct c as [c sc0]. cbn [c_ct c_scale] in *. subst sc0. pose proof (co_ev _ _ _ _ HST) as V1.
  pose proof (Z.mod_pos_bound k h Hh) as Hm.
  destruct (hoisted_form ce He c (v_s a) (v_l a) o (cs_ev st) La Ca Ho V1) as (hh & ev0 & EH & HH & _ & V0).
  assert (Hr' : k mod h = 0 /\ n = 0 \/ k mod h <> 0 /\ rot_keys pp g Be s c (k mod h) rks /\ n = 1). { destruct Hr as [Hr|(H1 & H2 & H3)]; [now left|right]. split; [auto|]. split; [now apply H3|auto]. }
  destruct (rotate_hoisted ce He g s Bs Be Dm c (v_s a) (v_l a) rks k (k mod h) n (setting_rot _ _ La Ca Ia) ltac:(lia) (mod_cong k) Hr') as (cout & (C1 & C2 & w & Hw & C3) & _ & C4).
  destruct (C4 o hh ev0 Ho HH V0) as (out & st' & ER & HSm & V1'). pose proof (same_ct_keys _ _ HSm) as SK.
  exists hh, ev0. eexists _, st'. split; [exact EH|]. split; [exact ER|]. split; [now apply put|].
  constructor; cbn [v_l v_s v_m v_e c_ct c_scale]; auto; [eapply same_ct_ok; eauto|intros id [Hid Hne]; apply Ia; split; auto; apply C2, SK, Hid|].
  exists (padd (psigma N (5 ^ (k mod h)) M0) w). split.
  - intros j Hj. rewrite (phase_same pp s out cout j _ HSm), (C3 j Hj). apply padd_proper; [|reflexivity]. apply psigma_proper. now apply P0.
  - apply rot_slots; [lia|apply mod_cong|exact E0|]. apply (switch_le (v_l a) c w n Ca Ia); [destruct Hr as [[_ ->]|[_ [-> _]]]; lia|exact Hw].
Qed.
Lemma run_conj a c o st : VH a c -> order_ok o -> CO st -> v_l a = maxLevel pp -> (forall ct, (forall id, party ct id -> In id ids) -> conj_keys pp g Be s ct cks) ->
  exists out ev, ConjugateNew ce o c cks (cs_ev st) = Ok (out, ev) /\ CO (mkCs ev (cs_rs st)) /\
    VH (mkV (v_l a) (v_s a) (fun x => cconj (v_m a x)) (v_e a + switch_noise pp Bs Be Dm ids (v_l a))) out.
Proof.
  intros Ha Ho HST Hlv Hr. destruct Ha as [La Ca Ia Sa (M0 & P0 & E0)]. destruct c as [c sc0]. cbn [c_ct c_scale] in *. subst sc0. pose proof (co_ev _ _ _ _ HST) as V1. specialize (Hr c Ia).
  assert (HQ : QCount pp = (v_l a + 1)%nat) by (unfold maxLevel in Hlv; lia).
  destruct (conjugate_new ce He g s Bs Be Dm c (v_s a) (v_l a) cks (setting_rot _ _ La Ca Ia) HQ Hr) as (cout & (C1 & C2 & w & Hw & C3) & C4).
  destruct (C4 o (cs_ev st) Ho V1) as (out & st' & ER & HSm & V1'). pose proof (same_ct_keys _ _ HSm) as SK.
  eexists _, st'. split; [exact ER|]. split; [now apply put|].
  constructor; cbn [v_l v_s v_m v_e c_ct c_scale]; auto; [eapply same_ct_ok; eauto|intros id [Hid Hne]; apply Ia; split; auto; apply C2, SK, Hid|].
  exists (padd (psigma N (-1) M0) w). split.
  - intros j Hj. rewrite (phase_same pp s out cout j _ HSm), (C3 j Hj). apply padd_proper; [|reflexivity]. apply psigma_proper. now apply P0.
  - intros i Hi. rewrite slot_add, (slot_conj N M0 i HN) by lia. apply cshift_est.
    + rewrite <- cconj_cscale, <- cconj_csub, cnorm_cconj. now apply E0.
    + pose proof (switch_le (v_l a) c w 1 Ca Ia ltac:(lia)) as H. rewrite Z.mul_1_l, Rmult_1_l in H. apply H; [exact Hw|lia].
Qed.
Lemma run_rescale a c t n o st : VH a c -> order_ok o -> CO st -> ~ rescale_err (v_l a) (v_s a) t -> rescale_count (pa_Q pp) (v_l a) (v_s a) (fdiv t (f_of_Z 2)) n -> n <> O ->
  let sc := scale_after (pa_Q pp) (v_l a) (v_s a) n in let D := IZR (dropped (pa_Q pp) (v_l a) n) in
  exists out ev, RescaleNew ce o c t (cs_ev st) = Ok (None, out, ev) /\ CO (mkCs ev (cs_rs st)) /\
    VH (mkV (v_l a - n) sc (v_m a) ((v_e a + round_noise pp Bs ids (v_l a) n) / D + Rabs (fR (v_s a) / D - fR sc) * csup hn (v_m a))%R) out.
Proof.
  intros Ha Ho HST Hre Hrc Hn0 sc D. destruct Ha as [La Ca Ia Sa (M0 & P0 & E0)]. destruct c as [c sc0]. cbn [c_ct c_scale] in *. subst sc0. pose proof (co_ev _ _ _ _ HST) as V1.
  pose proof (proj1 Hrc) as Hn.
  destruct (rescale_new ce He c (v_s a) t (v_l a) n La Ca Hre Hrc Hn0) as (cout & (C1 & C2 & _) & _ & C3 & C4).
  destruct (C4 o (cs_ev st) Ho V1) as (out & st' & ER & HSm & HSc & V1'). pose proof (same_ct_keys _ _ HSm) as SK.
  destruct (C3 s Bs) as (w & Hw & Hdiv). { intros id Hid. apply (ck_s _ _ _ _ _ _ _ _ _ _ _ HK). auto. }
  exists out, st'. split; [exact ER|]. split; [now apply put|].
  constructor; cbn [v_l v_s v_m v_e]; auto; [lia|eapply same_ct_ok; eauto|intros id [Hid Hne]; apply Ia; split; auto; apply C2, SK, Hid|].
  destruct (cdivided_slot (v_l a) n (phase N s c) w (phase N s cout) M0 Hdiv P0) as (M' & HM & HS).
  exists M'. split; [intros j Hj; rewrite (phase_same pp s (c_ct out) cout j _ HSm); auto|]. intros i Hi.
  apply (cdiv_est (slot N M0 i) (slot N w i)); [apply IZR_lt; apply (dropped_pos pp Hpp); auto|apply HS|now apply E0|now apply csl|]. apply (round_le (v_l a) n c w (v_l a)); auto. lia.
Qed.
Lemma run_drop a c n o : VH a c -> order_ok o -> (n <= v_l a)%nat -> exists out, DropLevelNew o c n = Ok out /\ VH (mkV (v_l a - n) (v_s a) (v_m a) (v_e a)) out.
Proof.
  intros Ha Ho Hn. destruct Ha as [La Ca Ia Sa (M0 & P0 & E0)]. destruct c as [c sc0]. cbn [c_ct c_scale] in *. subst sc0.
  destruct (drop_level o c (v_s a) (v_l a) n Ho (ck_nd _ _ _ Ca) (ck_0 _ _ _ Ca)) as [H _]. { intros id p E. apply (ck_comp _ _ _ Ca id p E). }
  destruct (H ltac:(lia)) as (c' & E1 & E2 & E3 & _). exists (mkCk c' (v_s a)). split; [exact E1|].
  assert (HKs : forall id, In id (mkeys c') <-> In id (mkeys c)). { intros id. rewrite !(mget_In _ seqb), E3. destruct (sget c id); cbn; split; congruence. }
  assert (Hnth : forall j p, (j <= v_l a - n)%nat -> nth j (firstn (v_l a + 1 - n) (p_co p)) [] = nth j (p_co p) []). { intros j p Hj. apply nth_firstn_lt. lia. }
  constructor; cbn [v_l v_s v_m v_e c_ct c_scale]; auto; [lia| | |].
  - constructor; [exact E2|apply HKs, (ck_0 _ _ _ Ca)|]. intros id p E. rewrite E3 in E. destruct (sget c id) as [p'|] eqn:E'; [|discriminate]. injection E as <-. destruct (ck_comp _ _ _ Ca id p' E') as (G1 & G2 & G3).
    cbn [p_ntt p_co]. split; [auto|]. split. { unfold plen in *. cbn [p_co]. rewrite firstn_length, G2. lia. } intros j Hj. rewrite Hnth by auto. apply G3. lia.
  - intros id [Hid Hne]. apply Ia. split; auto. now apply HKs.
  - exists M0. split; [|exact E0]. intros j Hj. rewrite <- (P0 j ltac:(lia)).
    rewrite (phase_over pp (modulus (pa_Q pp) j) s c' j (mkeys c)); [|exact E2|apply (ck_nd _ _ _ Ca)|intros x; apply HKs]. unfold phase. apply psumL_ext. intros id Hid. apply pmul_proper; [reflexivity|].
    intros x Hx. apply cong_eq. unfold limb. rewrite E3. destruct (sget c id) as [p|]; cbn [option_map p_co]; [now rewrite Hnth|reflexivity].
Qed.

Lemma run_rescale_in a c t n o st : VH a c -> order_ok o -> CO st -> ~ rescale_err (v_l a) (v_s a) t -> rescale_count (pa_Q pp) (v_l a) (v_s a) (fdiv t (f_of_Z 2)) n -> n <> O ->
  let sc := scale_after (pa_Q pp) (v_l a) (v_s a) n in let D := IZR (dropped (pa_Q pp) (v_l a) n) in
  exists out ev, RescaleAt ce o None t c (cs_ev st) = Ok (None, out, ev) /\ CO (mkCs ev (cs_rs st)) /\
    VH (mkV (v_l a - n) sc (v_m a) ((v_e a + round_noise pp Bs ids (v_l a) n) / D + Rabs (fR (v_s a) / D - fR sc) * csup hn (v_m a))%R) out.
Proof.
  intros Ha Ho HST Hre Hrc Hn0 sc D. destruct Ha as [La Ca Ia Sa (M0 & P0 & E0)]. destruct c as [c sc0]. cbn [c_ct c_scale] in *. subst sc0. pose proof (co_ev _ _ _ _ HST) as V1.
  pose proof (proj1 Hrc) as Hn.
  destruct (rescale_in_place ce He c (v_s a) t (v_l a) n La Ca Hre Hrc Hn0) as (cout & HRs & _ & C4).
  destruct (C4 o (cs_ev st) Ho V1) as (st' & ER & V1'). pose proof HRs as (C1 & C2 & _).
  destruct (rescaled_phase pp Hpp (v_l a) n c cout s Bs Hn La (ck_nd _ _ _ Ca) (ck_0 _ _ _ Ca) HRs) as (w & Hw & Hdiv). { intros id Hid. apply (ck_s _ _ _ _ _ _ _ _ _ _ _ HK). auto. }
  eexists _, st'. split; [exact ER|]. split; [now apply put|].
  constructor; cbn [v_l v_s v_m v_e c_ct c_scale]; auto; [lia|intros id [Hid Hne]; apply Ia; split; auto; apply C2, Hid|].
  destruct (cdivided_slot (v_l a) n (phase N s c) w (phase N s cout) M0 Hdiv P0) as (M' & HM & HS).
  exists M'. split; [exact HM|]. intros i Hi.
  apply (cdiv_est (slot N M0 i) (slot N w i)); [apply IZR_lt; apply (dropped_pos pp Hpp); auto|apply HS|now apply E0|now apply csl|]. apply (round_le (v_l a) n c w (v_l a)); auto. lia.
Qed.
(** nothing to drop: the operand stays as it is *)
Lemma run_rescale_in_0 a c t o st : VH a c -> ~ rescale_err (v_l a) (v_s a) t -> rescale_count (pa_Q pp) (v_l a) (v_s a) (fdiv t (f_of_Z 2)) 0 ->
  RescaleAt ce o None t c (cs_ev st) = Ok (None, c, cs_ev st).
Proof.
  intros [La Ca Ia Sa _] Hre Hrc. destruct c as [c sc0]. cbn [c_ct c_scale] in *. subst sc0. unfold RescaleAt. cbn [rd c_ct c_scale].
  destruct (fleb t f0) eqn:E1; [exfalso; apply Hre; left; exact E1|]. destruct (feqb (v_s a) f0) eqn:E2; [exfalso; apply Hre; right; left; exact E2|].
  destruct (lifts_ex ce He (v_l a) c La Ca) as (f & Hf). rewrite (lifts_level ce (v_l a) c f Hf (ck_0 _ _ _ Ca)). cbn [bind].
  destruct (Nat.eqb_spec (v_l a) 0) as [E3|_]; [exfalso; apply Hre; right; right; exact E3|].
  rewrite (rescaleLoop_ok ce _ _ _ _ La Hrc). cbn [bind Nat.eqb scale_after]. reflexivity.
Qed.
Lemma run_drop_in a c n o : VH a c -> order_ok o -> (n <= v_l a)%nat -> exists out, DropLevel o c n = Ok out /\ VH (mkV (v_l a - n) (v_s a) (v_m a) (v_e a)) out.
Proof.
  intros Ha Ho Hn. destruct (run_drop a c n o Ha Ho Hn) as (out & E & H). exists out. split; [|exact H].
  destruct (mget_ex _ seqb _ _ (ck_0 _ _ _ (hd_ct _ _ _ _ _ _ _ _ Ha))) as (p0 & Ep). unfold DropLevelNew in E. destruct c as [c sc0]. rewrite (proj1 (copy_new c sc0) p0 Ep) in E. exact E.
Qed.
Lemma Forall2_stored {X Y} (P : X -> Y -> Prop) c l1 l2 a b : Forall2 P l1 l2 -> P a b -> Forall2 P (stored c a l1) (stored c b l2).
Proof.
  intros H1 H2. unfold stored. destruct (receiver c) as [i|]; [|apply Forall2_app; auto]. revert i. induction H1 as [|x y l1 l2 Hx HF IH]; intros [|i].
  - constructor; auto. constructor.
  - constructor; auto. constructor.
  - cbn. constructor; auto.
  - constructor; [exact Hx|apply IH].
Qed.

Notation EX := (exec ce rks cks pts).
Lemma run_call vs cts c v o st : Forall2 VH vs cts -> CO st -> order_ok o -> track pp (ce_scale ce) g s Bs Be Dm ids rks cks vpts vs c v ->
  exists ct st', EX o c cts st = Ok (ct, st') /\ CO st' /\ VH v ct.
Proof.
  intros HF HST Ho HT. destruct HT as [i j a b Ea Eb Hc sc|i j a b Ea Eb Hc sc|i j a b n Ea Eb l Hr sc|i p a b n Ea Eb Hr sc|i a c t Ea Hf Ht n sc|i a k n Ea Hr|i a k n Ea Hr|i a Ea Hl Hc|i a t n Ea H1 H2 H3 sc D|i a n Ea Hn|i j hi hj v HT|i c v HT|i t v HT|i a t Ea H1 H2|i n v HT];
    try (inversion HT; subst; clear HT; match goal with H : nth_error _ i = Some _ |- _ => rename H into Ea end; try match goal with H : nth_error _ j = Some _ |- _ => rename H into Eb end);
    destruct (Forall2_nth_error _ _ _ _ _ HF Ea) as (ca & Ec & Ha); unfold exec; rewrite (idx_nth_error _ _ _ Ec); cbn [bind];
    try (destruct (Forall2_nth_error _ _ _ _ _ HF Eb) as (cb & Ecb & Hb); rewrite (idx_nth_error _ _ _ Ecb); cbn [bind]).
  - destruct (run_add a ca b cb o st Ha Hb Ho HST Hc) as (out & ev & E & H1 & H2). rewrite E. cbn [bind]. eauto.
  - destruct (run_sub a ca b cb o st Ha Hb Ho HST Hc) as (out & ev & E & H1 & H2). rewrite E. cbn [bind]. eauto.
  - destruct (run_mul (i =? j)%nat a ca b cb n o st Ha Hb) as (out & rs & ev & E & H1 & H2); auto. { intros Eij. apply Nat.eqb_eq in Eij. subst j. congruence. } rewrite E. cbn [bind]. eauto.
  - destruct (Forall2_nth_error _ _ _ _ _ Hpts Eb) as (cb & Ecb & Hb). rewrite (idx_nth_error _ _ _ Ecb). cbn [bind]. destruct (run_mulpt a ca b cb n o st Ha Hb Ho HST Hr) as (out & ev & E & H1 & H2). rewrite E. cbn [bind]. eauto.
  - destruct (run_const a ca c t o Ha Ho Hf Ht) as (out & E1 & E2 & H2). rewrite E1. cbn [bind]. rewrite E2. cbn [bind]. eauto.
  - destruct (run_rot a ca k n o st Ha Ho HST Hr) as (out & ev & E & H1 & H2). rewrite E. cbn [bind]. eauto.
  - destruct (run_rot_hoisted a ca k n o st Ha Ho HST Hr) as (hh & ev0 & out & ev & E0 & E & H1 & H2). rewrite E0. cbn [bind]. rewrite E. cbn [bind]. eauto.
  - destruct (run_conj a ca o st Ha Ho HST Hl Hc) as (out & ev & E & H1 & H2). rewrite E. cbn [bind]. eauto.
  - destruct (run_rescale a ca t n o st Ha Ho HST H1 H2 H3) as (out & ev & E & G1 & G2). rewrite E. cbn [bind]. eauto.
  - destruct (run_drop a ca n o Ha Ho Hn) as (out & E & H2). rewrite E. cbn [bind]. eauto.
  - match goal with Hr : rescale_steps _ _ _ _ ?n |- _ => destruct (run_mul_hoisted _ ca _ cb n o st hi hj Ha Hb Ho HST Hr) as (h0 & ev0 & h1 & ev1 & out & ev & F0 & F1 & E & G8 & G9) end.
    rewrite F0. cbn [bind]. rewrite F1. cbn [bind]. rewrite E. cbn [bind]. eauto.
  - match goal with Hf : finite c, Ht : encoded_at _ _ ?t |- _ => destruct (run_const_in _ ca c t o Ha Ho Hf Ht) as (out & E & G9) end. rewrite E. cbn [bind]. eauto.
  - match goal with G1 : ~ rescale_err _ _ _, G2 : rescale_count _ _ _ _ ?n, G3 : ?n <> O |- _ => destruct (run_rescale_in _ ca t n o st Ha Ho HST G1 G2 G3) as (out & ev & E & G8 & G9) end. rewrite E. cbn [bind]. eauto.
  - rewrite (run_rescale_in_0 a ca t o st Ha H1 H2). cbn [bind]. exists ca. eexists. split; [reflexivity|]. split; [destruct st; exact HST|exact Ha].
  - match goal with Hn : (n <= _)%nat |- _ => destruct (run_drop_in _ ca n o Ha Ho Hn) as (out & E & G9) end. rewrite E. cbn [bind]. eauto.
Qed.
Theorem run_circuit p : forall vs vs' cts orders n st, tracks pp (ce_scale ce) g s Bs Be Dm ids rks cks vpts vs p vs' -> (forall n, order_ok (orders n)) -> Forall2 VH vs cts -> CO st ->
  exists cts' st', execs ce rks cks pts orders n p cts st = Ok (cts', st') /\ CO st' /\ Forall2 VH vs' cts'.
Proof.
  induction p as [|c p IH]; intros vs vs' cts orders n st HT Ho HF HST; inversion HT as [|? ? ? v ? H1 H2]; subst; cbn [execs].
  - eauto.
  - destruct (run_call vs cts c v (orders n) st HF HST (Ho n) H1) as (ct & st1 & E & HS & HV). rewrite E. cbn [bind]. apply (IH (stored c v vs) vs'); auto. now apply Forall2_stored.
Qed.
End E.
