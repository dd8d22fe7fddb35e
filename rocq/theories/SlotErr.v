(** How errors on slots propagate through products, divisions and sums. *)
From Coq Require Import ZArith Lia List Reals Lra Ring.
From Verif Require Import NegRing SpecSlots SpecLREnc SlotThms SlotRing.
Local Open Scope R_scope.
Add Ring C_ring' : C_ring.

Lemma creal_mul a b : creal (a * b) = cmul (creal a) (creal b).
Proof. unfold creal, cmul. cbn [fst snd]. apply f_equal2; ring. Qed.
Lemma creal_add a b : creal (a + b) = cadd (creal a) (creal b).
Proof. unfold creal, cadd. cbn [fst snd]. apply f_equal2; ring. Qed.
Lemma creal_1 : creal 1 = c1. Proof. reflexivity. Qed.
Lemma creal_opp a : creal (- a) = copp (creal a).
Proof. unfold creal, copp. cbn [fst snd]. apply f_equal2; ring. Qed.
Lemma cnorm_scale r z : cnorm (cmul (creal r) z) = Rabs r * cnorm z.
Proof. unfold cnorm, cmul, creal. cbn [fst snd]. rewrite Rmult_0_l, Rmult_0_l, Rminus_0_r, Rplus_0_r, !Rabs_mult. ring. Qed.
Lemma cdiv_out D x y : D <> 0 -> cmul (creal D) x = y -> x = cmul (creal (/ D)) y.
Proof. intros H <-. transitivity (cmul (cmul (creal (/ D)) (creal D)) x); [|ring]. rewrite <- creal_mul, Rinv_l by auto. rewrite creal_1. ring. Qed.

Lemma mul_est x0 x1 w y s0 s1 s m0 m1 e0 e1 b0 b1 W D : 0 < D ->
  cmul (creal D) y = cadd (cmul x0 x1) w ->
  cnorm (csub x0 (creal (s0 * m0))) <= e0 -> cnorm (csub x1 (creal (s1 * m1))) <= e1 -> Rabs m0 <= b0 -> Rabs m1 <= b1 -> cnorm w <= W ->
  cnorm (csub y (creal (s * (m0 * m1)))) <= (e0 * (Rabs s1 * b1) + e1 * (Rabs s0 * b0) + e0 * e1) / D + Rabs (s0 * s1 / D - s) * (b0 * b1) + W / D.
Proof.
  intros HD Hy H0 H1 Hb0 Hb1 HW. apply cdiv_out in Hy; [|lra]. subst y. set (r0 := creal (s0 * m0)) in *. set (r1 := creal (s1 * m1)) in *. set (d0 := csub x0 r0) in *. set (d1 := csub x1 r1) in *.
  set (v := creal ((s0 * s1 / D - s) * (m0 * m1))).
  set (t := cadd (cadd (cmul d0 r1) (cmul r0 d1)) (cmul d0 d1)).
  assert (E : csub (cmul (creal (/ D)) (cadd (cmul x0 x1) w)) (creal (s * (m0 * m1))) = cadd (cadd (cmul (creal (/ D)) t) v) (cmul (creal (/ D)) w)).
  { unfold v, t, d0, d1, r0, r1. replace ((s0 * s1 / D - s) * (m0 * m1)) with (/ D * ((s0 * m0) * (s1 * m1)) + - (s * (m0 * m1))) by (field; lra).
    rewrite creal_add, creal_opp, (creal_mul (/ D)), (creal_mul (s0 * m0)). unfold csub. ring. }
  rewrite E. assert (HI : 0 < / D) by now apply Rinv_0_lt_compat.
  assert (Hr0 : cnorm r0 <= Rabs s0 * b0). { unfold r0. rewrite cnorm_real, Rabs_mult. apply Rmult_le_compat_l; [apply Rabs_pos|auto]. }
  assert (Hr1 : cnorm r1 <= Rabs s1 * b1). { unfold r1. rewrite cnorm_real, Rabs_mult. apply Rmult_le_compat_l; [apply Rabs_pos|auto]. }
  pose proof (cnorm_pos d0) as P0. pose proof (cnorm_pos d1) as P1. pose proof (cnorm_pos r0) as Q0. pose proof (cnorm_pos r1) as Q1.
  assert (Ht : cnorm t <= e0 * (Rabs s1 * b1) + e1 * (Rabs s0 * b0) + e0 * e1).
  { unfold t. eapply Rle_trans; [apply cnorm_add|]. apply Rplus_le_compat.
    - eapply Rle_trans; [apply cnorm_add|]. apply Rplus_le_compat; (eapply Rle_trans; [apply cnorm_mul|]).
      + apply Rmult_le_compat; auto.
      + rewrite Rmult_comm. apply Rmult_le_compat; auto.
    - eapply Rle_trans; [apply cnorm_mul|]. apply Rmult_le_compat; auto. }
  eapply Rle_trans; [apply cnorm_add|]. apply Rplus_le_compat; [eapply Rle_trans; [apply cnorm_add|]; apply Rplus_le_compat|].
  - rewrite cnorm_scale, Rabs_pos_eq by lra. unfold Rdiv. rewrite (Rmult_comm _ (/ D)). apply Rmult_le_compat_l; lra.
  - unfold v. rewrite cnorm_real, Rabs_mult, Rabs_mult. apply Rmult_le_compat_l; [apply Rabs_pos|]. apply Rmult_le_compat; auto; apply Rabs_pos.
  - rewrite cnorm_scale, Rabs_pos_eq by lra. unfold Rdiv. rewrite (Rmult_comm _ (/ D)). apply Rmult_le_compat_l; lra.
Qed.
Lemma add_est x0 x1 s0 s1 s m0 m1 e0 e1 b0 b1 k0 k1 : 0 <= k0 -> 0 <= k1 ->
  cnorm (csub x0 (creal (s0 * m0))) <= e0 -> cnorm (csub x1 (creal (s1 * m1))) <= e1 -> Rabs m0 <= b0 -> Rabs m1 <= b1 ->
  cnorm (csub (cadd (cmul (creal k0) x0) (cmul (creal k1) x1)) (creal (s * (m0 + m1)))) <= k0 * e0 + k1 * e1 + Rabs (k0 * s0 - s) * b0 + Rabs (k1 * s1 - s) * b1.
Proof.
  intros H0 H1 He0 He1 Hb0 Hb1.
  assert (E : csub (cadd (cmul (creal k0) x0) (cmul (creal k1) x1)) (creal (s * (m0 + m1))) =
    cadd (cadd (cmul (creal k0) (csub x0 (creal (s0 * m0)))) (cmul (creal k1) (csub x1 (creal (s1 * m1))))) (cadd (creal ((k0 * s0 - s) * m0)) (creal ((k1 * s1 - s) * m1)))).
  { replace ((k0 * s0 - s) * m0) with (k0 * (s0 * m0) + - (s * m0)) by ring. replace ((k1 * s1 - s) * m1) with (k1 * (s1 * m1) + - (s * m1)) by ring.
    replace (s * (m0 + m1)) with (s * m0 + s * m1) by ring. rewrite !creal_add, !creal_opp, (creal_mul k0), (creal_mul k1). unfold csub. ring. }
  rewrite E. rewrite (Rplus_assoc (k0 * e0 + k1 * e1)). eapply Rle_trans; [apply cnorm_add|]. apply Rplus_le_compat; (eapply Rle_trans; [apply cnorm_add|]); apply Rplus_le_compat.
  - rewrite cnorm_scale, Rabs_pos_eq by auto. now apply Rmult_le_compat_l.
  - rewrite cnorm_scale, Rabs_pos_eq by auto. now apply Rmult_le_compat_l.
  - rewrite cnorm_real, Rabs_mult. apply Rmult_le_compat_l; [apply Rabs_pos|auto].
  - rewrite cnorm_real, Rabs_mult. apply Rmult_le_compat_l; [apply Rabs_pos|auto].
Qed.
Lemma shift_est x w s m e W : cnorm (csub x (creal (s * m))) <= e -> cnorm w <= W -> cnorm (csub (cadd x w) (creal (s * m))) <= e + W.
Proof.
  intros H HW. replace (csub (cadd x w) (creal (s * m))) with (cadd (csub x (creal (s * m))) w) by (unfold csub; ring). eapply Rle_trans; [apply cnorm_add|]. lra.
Qed.
Lemma sup_le n m i : (0 <= i < Z.of_nat n)%Z -> Rabs (m i) <= sup n m.
Proof.
  induction n as [|n IH]; intros Hi; [lia|]. cbn [sup]. destruct (Z.eq_dec i (Z.of_nat n)) as [->|Hne]; [apply Rmax_r|]. eapply Rle_trans; [apply IH; lia|apply Rmax_l].
Qed.
