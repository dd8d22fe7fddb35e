(** How errors on complex slots propagate through products, divisions and sums. *)
From Coq Require Import ZArith Lia List Reals Lra Ring.
From Verif Require Import NegRing SpecSlots SpecLREnc SpecCircuit SlotThms SlotRing SlotErr.
Local Open Scope R_scope.
Add Ring C_ringc : C_ring.

Lemma cscale_mul a b z : cscale (a * b) z = cscale a (cscale b z).
Proof. unfold cscale. rewrite creal_mul. ring. Qed.
Lemma cscale_add a b z : cscale (a + b) z = cadd (cscale a z) (cscale b z).
Proof. unfold cscale. rewrite creal_add. ring. Qed.
Lemma cscale_opp a z : cscale (- a) z = copp (cscale a z).
Proof. unfold cscale. rewrite creal_opp. ring. Qed.
Lemma cnorm_cscale r z : cnorm (cscale r z) = Rabs r * cnorm z.
Proof. apply cnorm_scale. Qed.
Lemma cconj_cscale r z : cconj (cscale r z) = cscale r (cconj z).
Proof. unfold cscale, cconj, cmul, creal. cbn [fst snd]. apply f_equal2; ring. Qed.
Lemma cnorm_cconj z : cnorm (cconj z) = cnorm z.
Proof. unfold cnorm, cconj. cbn [fst snd]. now rewrite Rabs_Ropp. Qed.
Lemma cconj_csub x y : cconj (csub x y) = csub (cconj x) (cconj y).
Proof. unfold csub, cadd, copp, cconj. cbn [fst snd]. apply f_equal2; ring. Qed.

Lemma cmul_est x0 x1 w y s0 s1 s m0 m1 e0 e1 b0 b1 W D : 0 < D ->
  cmul (creal D) y = cadd (cmul x0 x1) w ->
  cnorm (csub x0 (cscale s0 m0)) <= e0 -> cnorm (csub x1 (cscale s1 m1)) <= e1 -> cnorm m0 <= b0 -> cnorm m1 <= b1 -> cnorm w <= W ->
  cnorm (csub y (cscale s (cmul m0 m1))) <= (e0 * (Rabs s1 * b1) + e1 * (Rabs s0 * b0) + e0 * e1 + W) / D + Rabs (s0 * s1 / D - s) * (b0 * b1).
Proof.
  intros HD Hy H0 H1 Hb0 Hb1 HW. apply cdiv_out in Hy; [|lra]. subst y. set (r0 := cscale s0 m0) in *. set (r1 := cscale s1 m1) in *. set (d0 := csub x0 r0) in *. set (d1 := csub x1 r1) in *.
  set (v := cscale (s0 * s1 / D - s) (cmul m0 m1)).
  set (t := cadd (cadd (cmul d0 r1) (cmul r0 d1)) (cmul d0 d1)).
  assert (E : csub (cmul (creal (/ D)) (cadd (cmul x0 x1) w)) (cscale s (cmul m0 m1)) = cadd (cmul (creal (/ D)) (cadd t w)) v).
  { unfold v, t, d0, d1, r0, r1. replace (s0 * s1 / D - s) with (/ D * (s0 * s1) + - s) by (field; lra).
    unfold cscale. rewrite creal_add, creal_opp, (creal_mul (/ D)), (creal_mul s0). unfold csub. ring. }
  rewrite E. assert (HI : 0 < / D) by now apply Rinv_0_lt_compat.
  assert (Hr0 : cnorm r0 <= Rabs s0 * b0). { unfold r0. rewrite cnorm_cscale. apply Rmult_le_compat_l; [apply Rabs_pos|auto]. }
  assert (Hr1 : cnorm r1 <= Rabs s1 * b1). { unfold r1. rewrite cnorm_cscale. apply Rmult_le_compat_l; [apply Rabs_pos|auto]. }
  pose proof (cnorm_pos d0) as P0. pose proof (cnorm_pos d1) as P1. pose proof (cnorm_pos r0) as Q0. pose proof (cnorm_pos r1) as Q1.
  assert (Ht : cnorm t <= e0 * (Rabs s1 * b1) + e1 * (Rabs s0 * b0) + e0 * e1).
  { unfold t. eapply Rle_trans; [apply cnorm_add|]. apply Rplus_le_compat.
    - eapply Rle_trans; [apply cnorm_add|]. apply Rplus_le_compat; (eapply Rle_trans; [apply cnorm_mul|]).
      + apply Rmult_le_compat; auto.
      + rewrite Rmult_comm. apply Rmult_le_compat; auto.
    - eapply Rle_trans; [apply cnorm_mul|]. apply Rmult_le_compat; auto. }
  eapply Rle_trans; [apply cnorm_add|]. apply Rplus_le_compat.
  - rewrite cnorm_scale, Rabs_pos_eq by lra. unfold Rdiv. rewrite (Rmult_comm _ (/ D)). apply Rmult_le_compat_l; [lra|]. eapply Rle_trans; [apply cnorm_add|]. lra.
  - unfold v. rewrite cnorm_cscale. apply Rmult_le_compat_l; [apply Rabs_pos|]. eapply Rle_trans; [apply cnorm_mul|]. apply Rmult_le_compat; auto; apply cnorm_pos.
Qed.
Lemma cadd_est x0 x1 s0 s1 s m0 m1 e0 e1 b0 b1 k0 k1 : 0 <= k0 -> 0 <= k1 ->
  cnorm (csub x0 (cscale s0 m0)) <= e0 -> cnorm (csub x1 (cscale s1 m1)) <= e1 -> cnorm m0 <= b0 -> cnorm m1 <= b1 ->
  cnorm (csub (cadd (cmul (creal k0) x0) (cmul (creal k1) x1)) (cscale s (cadd m0 m1))) <= k0 * e0 + k1 * e1 + Rabs (k0 * s0 - s) * b0 + Rabs (k1 * s1 - s) * b1.
Proof.
  intros H0 H1 He0 He1 Hb0 Hb1.
  assert (E : csub (cadd (cmul (creal k0) x0) (cmul (creal k1) x1)) (cscale s (cadd m0 m1)) =
    cadd (cadd (cscale k0 (csub x0 (cscale s0 m0))) (cscale k1 (csub x1 (cscale s1 m1)))) (cadd (cscale (k0 * s0 - s) m0) (cscale (k1 * s1 - s) m1))).
  { unfold Rminus. rewrite !cscale_add, !cscale_opp, !cscale_mul. unfold csub, cscale. ring. }
  rewrite E. rewrite (Rplus_assoc (k0 * e0 + k1 * e1)). eapply Rle_trans; [apply cnorm_add|]. apply Rplus_le_compat; (eapply Rle_trans; [apply cnorm_add|]); apply Rplus_le_compat.
  - rewrite cnorm_cscale, Rabs_pos_eq by auto. now apply Rmult_le_compat_l.
  - rewrite cnorm_cscale, Rabs_pos_eq by auto. now apply Rmult_le_compat_l.
  - rewrite cnorm_cscale. apply Rmult_le_compat_l; [apply Rabs_pos|auto].
  - rewrite cnorm_cscale. apply Rmult_le_compat_l; [apply Rabs_pos|auto].
Qed.
Lemma cshift_est x w t e W : cnorm (csub x t) <= e -> cnorm w <= W -> cnorm (csub (cadd x w) t) <= e + W.
Proof.
  intros H HW. replace (csub (cadd x w) t) with (cadd (csub x t) w) by (unfold csub; ring). eapply Rle_trans; [apply cnorm_add|]. lra.
Qed.
(** multiplication by an integer n, the result recorded as sc * (c * m) *)
Lemma cconst_est x s0 m e b n sc c : cnorm (csub x (cscale s0 m)) <= e -> cnorm m <= b ->
  cnorm (csub (cmul (creal n) x) (cscale sc (cscale c m))) <= Rabs n * e + Rabs (n * s0 - sc * c) * b.
Proof.
  intros He Hb.
  assert (E : csub (cmul (creal n) x) (cscale sc (cscale c m)) = cadd (cscale n (csub x (cscale s0 m))) (cscale (n * s0 - sc * c) m)).
  { unfold Rminus. rewrite cscale_add, cscale_opp, !cscale_mul. unfold csub, cscale. ring. }
  rewrite E. eapply Rle_trans; [apply cnorm_add|]. rewrite !cnorm_cscale. apply Rplus_le_compat; (apply Rmult_le_compat_l; [apply Rabs_pos|auto]).
Qed.
(** division by D with remainder w *)
Lemma cdiv_est x w y s0 sc m e b W D : 0 < D -> cmul (creal D) y = csub x w -> cnorm (csub x (cscale s0 m)) <= e -> cnorm m <= b -> cnorm w <= W ->
  cnorm (csub y (cscale sc m)) <= (e + W) / D + Rabs (s0 / D - sc) * b.
Proof.
  intros HD Hy He Hb HW. apply cdiv_out in Hy; [|lra]. subst y.
  assert (E : csub (cmul (creal (/ D)) (csub x w)) (cscale sc m) = cadd (cscale (/ D) (csub (csub x (cscale s0 m)) w)) (cscale (s0 / D - sc) m)).
  { replace (s0 / D - sc) with (/ D * s0 + - sc) by (field; lra). rewrite cscale_add, cscale_opp, !cscale_mul. unfold csub, cscale. ring. }
  assert (HI : 0 < / D) by now apply Rinv_0_lt_compat. rewrite E. eapply Rle_trans; [apply cnorm_add|]. rewrite !cnorm_cscale. apply Rplus_le_compat.
  - rewrite Rabs_pos_eq by lra. unfold Rdiv. rewrite (Rmult_comm _ (/ D)). apply Rmult_le_compat_l; [lra|]. eapply Rle_trans; [apply cnorm_sub|]. lra.
  - apply Rmult_le_compat_l; [apply Rabs_pos|auto].
Qed.
Lemma csup_le n m i : (0 <= i < Z.of_nat n)%Z -> cnorm (m i) <= csup n m.
Proof.
  induction n as [|n IH]; intros Hi; [lia|]. cbn [csup]. destruct (Z.eq_dec i (Z.of_nat n)) as [->|Hne]; [apply Rmax_r|]. eapply Rle_trans; [apply IH; lia|apply Rmax_l].
Qed.
