(** Error analysis of the float64 correction term v of reconstructRNS. *)
From Coq Require Import ZArith Reals Lia Lra Psatz.
From Flocq Require Import Core BinarySingleNaN.
From Verif Require Import Go F64 F64Proofs.
Local Open Scope R_scope.

Lemma rnd_half_ulp x e : (-1000 < e < 1000)%Z -> Rabs x <= bpow radix2 e ->
  Rabs (rnd x - x) <= / 2 * bpow radix2 (e - 52).
Proof.
  intros He H. unfold rnd.
  eapply Rle_trans; [apply error_le_half_ulp; typeclasses eauto|].
  apply Rmult_le_compat_l; [lra|].
  eapply Rle_trans.
  - apply ulp_le with (y := bpow radix2 e); try typeclasses eauto.
    now rewrite (Rabs_pos_eq (bpow radix2 e)) by apply bpow_ge_0.
  - rewrite ulp_bpow. apply bpow_le. unfold SpecFloat.fexp, SpecFloat.emin. lia.
Qed.

Lemma rnd_pos_lower n x : (Z.abs n <= 2 ^ 53)%Z -> IZR n <= x -> IZR n <= rnd x.
Proof. intros Hn H. rewrite <- (rnd_IZR n Hn). now apply rnd_mono. Qed.
Lemma rnd_upper n x : (Z.abs n <= 2 ^ 53)%Z -> x <= IZR n -> rnd x <= IZR n.
Proof. intros Hn H. rewrite <- (rnd_IZR n Hn). now apply rnd_mono. Qed.

Definition u53 : R := bpow radix2 (-53).
Lemma u53_val : u53 = / 9007199254740992.
Proof. unfold u53. cbn. reflexivity. Qed.

Lemma fval_small_Z n : (Z.abs n < 2 ^ 64)%Z -> fval (f_of_Z n) (rnd (IZR n)).
Proof.
  intros H. apply fval_of_Z. apply rnd_lt_big with 64%Z; try lia.
  rewrite <- abs_IZR. rewrite <- IZR_Zpower by lia. apply IZR_le.
  change (Zpower radix2 64) with (2^64)%Z. lia.
Qed.

Lemma rnd_Z_err n : (1 <= n < 2 ^ 64)%Z -> Rabs (rnd (IZR n) - IZR n) <= u53 * IZR n.
Proof.
  intros Hn. pose proof (rnd_err (IZR n)) as H.
  assert (1 <= IZR n) by (apply IZR_le; lia).
  rewrite (Rabs_pos_eq (IZR n)) in H by lra.
  replace u53 with (/ 2 * bpow radix2 (-52)) by (rewrite u53_val; cbn; lra).
  apply H. right. apply Rle_trans with 1; [|lra].
  change 1 with (bpow radix2 0). apply bpow_le. lia.
Qed.

Lemma quot_step (y q : Z) : (0 <= y < q)%Z -> (q < 2 ^ 62)%Z ->
  exists t, fval (fdiv (f_of_Z y) (f_of_Z q)) t /\ 0 <= t <= 1 /\
    Rabs (t - IZR y / IZR q) <= 4 * u53.
Proof.
  intros Hy Hq.
  set (a := rnd (IZR y)). set (b := rnd (IZR q)).
  assert (Ha : fval (f_of_Z y) a) by (apply fval_small_Z; lia).
  assert (Hb : fval (f_of_Z q) b) by (apply fval_small_Z; lia).
  assert (Hq1 : 1 <= IZR q) by (apply IZR_le; lia).
  assert (Hb1 : 1 <= b) by (apply rnd_pos_lower; [cbn; lia|exact Hq1]).
  assert (Hy0 : 0 <= IZR y) by (apply IZR_le; lia).
  assert (Ha0 : 0 <= a) by (apply rnd_pos_lower; [cbn; lia|exact Hy0]).
  assert (Hyq : IZR y <= IZR q) by (apply IZR_le; lia).
  assert (Hab : a <= b) by (apply rnd_mono; exact Hyq).
  assert (Hbp : 0 < / b) by (apply Rinv_0_lt_compat; lra).
  assert (Hdiv : 0 <= a / b <= 1).
  { split; [apply Rmult_le_pos; lra|].
    apply Rmult_le_reg_r with b; [lra|]. unfold Rdiv. rewrite Rmult_assoc, Rinv_l; lra. }
  assert (Ht : 0 <= rnd (a/b) <= 1).
  { split; [apply (rnd_pos_lower 0); [cbn; lia|lra]|apply (rnd_upper 1); [cbn; lia|lra]]. }
  exists (rnd (a / b)). split; [|split; [exact Ht|]].
  - apply fval_div; auto; [lra|]. rewrite Rabs_pos_eq by lra.
    apply Rle_lt_trans with 1; [lra|]. change 1 with (bpow radix2 0). apply bpow_lt. lia.
  - assert (E1 : Rabs (rnd (a/b) - a/b) <= u53).
    { pose proof (rnd_half_ulp (a/b) 0 ltac:(lia)) as H. rewrite Rabs_pos_eq in H by lra.
      change (bpow radix2 0) with 1 in H. specialize (H (proj2 Hdiv)).
      replace u53 with (/ 2 * bpow radix2 (0 - 52)); [exact H|]. rewrite u53_val; cbn; lra. }
    assert (E2 : Rabs (a / b - IZR y / IZR q) <= 3 * u53).
    { assert (Eb : Rabs (b - IZR q) <= u53 * IZR q) by (apply rnd_Z_err; lia).
      assert (Ea : Rabs (a - IZR y) <= u53 * IZR y).
      { destruct (Z.eq_dec y 0) as [->|Hn].
        - unfold a. rewrite rnd_0. rewrite Rminus_0_r, Rabs_R0. lra.
        - apply rnd_Z_err; lia. }
      set (Y := IZR y) in *. set (q' := IZR q) in *.
      assert (U : 0 < u53 < / 1000) by (rewrite u53_val; lra).
      replace (a / b - Y / q') with (((a - Y) * q' + Y * (q' - b)) * / (b * q')) by (field; lra).
      rewrite Rabs_mult, (Rabs_pos_eq (/ (b * q'))).
      2:{ left. apply Rinv_0_lt_compat. nra. }
      apply Rmult_le_reg_r with (b * q'); [nra|].
      rewrite Rmult_assoc, Rinv_l, Rmult_1_r by nra.
      eapply Rle_trans; [apply Rabs_triang|].
      rewrite !Rabs_mult. rewrite (Rabs_pos_eq q'), (Rabs_pos_eq Y) by lra.
      rewrite (Rabs_minus_sym q' b).
      assert (Rabs (a - Y) * q' <= u53 * Y * q') by (apply Rmult_le_compat_r; lra).
      assert (Y * Rabs (b - q') <= Y * (u53 * q')) by (apply Rmult_le_compat_l; lra).
      assert (B : q' * (1 - u53) <= b).
      { apply Rabs_le_inv in Eb. nra. }
      (* 2 u Y q' <= 3 u b q' *)
      assert (2 * Y <= 3 * b) by nra.
      assert (0 <= u53 * q') by nra.
      assert (u53 * q' * (2 * Y) <= u53 * q' * (3 * b)) by (apply Rmult_le_compat_l; lra).
      nra. }
    replace (rnd (a/b) - IZR y / IZR q) with ((rnd (a/b) - a/b) + (a/b - IZR y / IZR q)) by ring.
    eapply Rle_trans; [apply Rabs_triang|]. lra.
Qed.

(** one step of the accumulation *)
Definition eps47 : R := bpow radix2 (-47).
Lemma sum_step (i : Z) (s : f64) (r S : R) (y q : Z) :
  (0 <= i < 32)%Z -> (0 <= y < q)%Z -> (q < 2 ^ 62)%Z ->
  fval s r -> 0 <= r <= IZR i -> Rabs (r - S) <= IZR i * eps47 ->
  exists r', fval (fadd s (fdiv (f_of_Z y) (f_of_Z q))) r' /\ 0 <= r' <= IZR (i + 1) /\
    Rabs (r' - (S + IZR y / IZR q)) <= IZR (i + 1) * eps47.
Proof.
  intros Hi Hy Hq Hs Hr Hrs.
  destruct (quot_step y q Hy Hq) as (t & Ft & Ht & Et).
  assert (Hi1 : IZR (i + 1) = IZR i + 1) by (rewrite plus_IZR; reflexivity).
  assert (Hi2 : IZR i + 1 <= 32) by (rewrite <- Hi1; apply IZR_le; lia).
  assert (Hb : 0 <= rnd (r + t) <= IZR (i + 1)).
  { split; [apply (rnd_pos_lower 0); [cbn; lia|lra]|].
    apply rnd_upper; [cbn; lia|]. rewrite Hi1. lra. }
  exists (rnd (r + t)). split; [|split; [exact Hb|]].
  - apply fval_add; auto. rewrite Rabs_pos_eq by lra.
    apply Rle_lt_trans with (bpow radix2 5); [|apply bpow_lt; lia]. cbn; lra.
  - assert (E : Rabs (rnd (r + t) - (r + t)) <= / 2 * bpow radix2 (5 - 52)).
    { apply rnd_half_ulp; [lia|]. rewrite Rabs_pos_eq by lra. cbn. lra. }
    assert (N : / 2 * bpow radix2 (5 - 52) + 4 * u53 <= eps47).
    { rewrite u53_val. unfold eps47. cbn. lra. }
    replace (rnd (r + t) - (S + IZR y / IZR q)) with
      ((rnd (r+t) - (r + t)) + ((r - S) + (t - IZR y / IZR q))) by ring.
    eapply Rle_trans; [apply Rabs_triang|].
    assert (Rabs (r - S + (t - IZR y / IZR q)) <= IZR i * eps47 + 4 * u53).
    { eapply Rle_trans; [apply Rabs_triang|]. lra. }
    rewrite Hi1. lra.
Qed.

(** the truncated sum, in integers: with Qp * S = N exactly *)
Lemma trunc_bounds (k : Z) (s : f64) (r : R) (N Qp : Z) :
  (0 <= k <= 32)%Z -> (0 < Qp)%Z ->
  fval s r -> 0 <= r <= IZR k -> Rabs (r - IZR N / IZR Qp) <= IZR k * eps47 ->
  (0 <= u64_of_f s <= k)%Z /\
  (- Qp <= 2 ^ 42 * (N - u64_of_f s * Qp) <= 2 ^ 42 * Qp + Qp)%Z.
Proof.
  intros Hk HQ Fs Hr He.
  assert (Hv : u64_of_f s = Zfloor r).
  { unfold u64_of_f. rewrite (ftrunc_floor s r Fs) by lra. apply Z.mod_small.
    split.
    - apply Zfloor_lub. lra.
    - assert (Zfloor r <= k)%Z.
      { apply le_IZR. apply Rle_trans with r; [apply Zfloor_lb|lra]. }
      assert (32 < W)%Z by reflexivity. lia. }
  rewrite Hv. set (v := Zfloor r).
  assert (V1 : IZR v <= r) by apply Zfloor_lb.
  assert (V2 : r < IZR v + 1) by apply Zfloor_ub.
  split.
  - split; [apply Zfloor_lub; lra|]. apply le_IZR. lra.
  - assert (Hk' : IZR k * eps47 <= / 4398046511104).
    { assert (IZR k <= 32) by (apply IZR_le; lia). unfold eps47. cbn. lra. }
    apply Rabs_le_inv in He.
    assert (HQr : 0 < IZR Qp) by now apply IZR_lt.
    set (x := IZR N / IZR Qp) in *.
    assert (Ex : IZR N = x * IZR Qp) by (unfold x; field; lra).
    change (2 ^ 42)%Z with 4398046511104%Z.
    split; apply le_IZR; rewrite ?plus_IZR, ?mult_IZR, ?opp_IZR, ?minus_IZR, ?mult_IZR, Ex.
    + assert (- / 4398046511104 <= x - IZR v) by lra.
      assert (- / 4398046511104 * IZR Qp <= (x - IZR v) * IZR Qp) by (apply Rmult_le_compat_r; lra).
      lra.
    + assert (x - IZR v <= 1 + / 4398046511104) by lra.
      assert ((x - IZR v) * IZR Qp <= (1 + / 4398046511104) * IZR Qp) by (apply Rmult_le_compat_r; lra).
      lra.
Qed.
