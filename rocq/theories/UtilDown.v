(** mkckks/utils.go:185-191 scaleDown: the quotient up to two roundings. *)
From Coq Require Import ZArith Reals Lia Lra Psatz.
From Coq.Floats Require Import SpecFloat.
From Flocq Require Import Core BinarySingleNaN.
From Verif Require Import F64 F64Proofs F64More Utils EvFloat.
Local Open Scope R_scope.
Lemma rnd_err3 x : Rabs (rnd x - x) <= / 2 * bpow radix2 (-52) * Rabs x + bpow radix2 (-1000).
Proof.
  destruct (Rle_or_lt 0 x) as [H|H].
  - rewrite (Rabs_pos_eq x H). now apply rnd_err2.
  - rewrite (Rabs_left x H). pose proof (rnd_err2 (- x) ltac:(lra)) as E. unfold rnd in *. rewrite round_NE_opp in E. rewrite <- Rabs_Ropp. replace (- (round radix2 fx ZnearestE x - x)) with (- round radix2 fx ZnearestE x - - x) by ring. exact E.
Qed.
Lemma rnd_Z n : Rabs (rnd (IZR n) - IZR n) <= / 2 * bpow radix2 (-52) * Rabs (IZR n).
Proof.
  apply rnd_err. destruct (Z.eq_dec n 0) as [->|Hn]; [auto|]. right. rewrite <- abs_IZR. apply Rle_trans with 1; [change 1 with (bpow radix2 0); apply bpow_le; lia|]. apply IZR_le. lia.
Qed.
Lemma two_pos : 0 <= 2. Proof. lra. Qed.
Lemma scale_down c n t : fval n t -> t <> 0 -> Rabs (IZR c) <= bpow radix2 1000 -> Rabs (IZR c / t) <= bpow radix2 1000 ->
  exists r, fval (scaleDown c n) r /\ Rabs (r - IZR c / t) <= 3 / 2 * bpow radix2 (-52) * Rabs (IZR c / t) + bpow radix2 (-1000) /\ ((Z.abs c <= 2 ^ 53)%Z -> r = rnd (IZR c / t)).
Proof.
  intros Hn Ht Hc Hq. unfold scaleDown. set (x := IZR c) in *. set (v := rnd x). assert (Hv : fval (f_of_Z c) v) by (apply fval_of_Z; now apply (rnd_lt_big _ 1000)).
  pose proof (rnd_Z c) as E1. fold x v in E1. set (w := / 2 * bpow radix2 (-52)) in *. assert (Hw : 0 < w < / 1000) by (unfold w; change (bpow radix2 (-52)) with (/ IZR (Z.pow_pos 2 52)); cbn [Z.pow_pos Pos.iter Z.mul Pos.mul]; lra).
  assert (E2 : Rabs (v / t - x / t) <= w * Rabs (x / t)).
  { replace (v / t - x / t) with ((v - x) / t) by (field; auto). unfold Rdiv. rewrite !Rabs_mult. rewrite <- Rmult_assoc. apply Rmult_le_compat_r; [apply Rabs_pos|exact E1]. }
  assert (E3 : Rabs (v / t) <= (1 + w) * Rabs (x / t)). { pose proof (Rabs_triang (v / t - x / t) (x / t)) as T. replace (v / t - x / t + x / t) with (v / t) in T by ring. lra. }
  pose proof (Rabs_pos (x / t)) as Hp. assert (E5 : (1 + w) * Rabs (x / t) <= Rabs (x / t) * 2) by nra.
  exists (rnd (v / t)). split; [|split].
  - apply fval_div; auto. apply (rnd_lt_big _ 1001); [lia|lia|]. change 1001%Z with (1000 + 1)%Z. rewrite bpow_plus. change (bpow radix2 1) with 2. pose proof (Rabs_pos (x / t)). apply Rle_trans with ((1 + w) * Rabs (x / t)); [exact E3|]. eapply Rle_trans; [exact E5|]. apply Rmult_le_compat_r; [exact two_pos|exact Hq].
  - pose proof (rnd_err3 (v / t)) as E4. fold w in E4. pose proof (Rabs_triang (rnd (v / t) - v / t) (v / t - x / t)) as T. replace (rnd (v / t) - v / t + (v / t - x / t)) with (rnd (v / t) - x / t) in T by ring.
    replace (3 / 2 * bpow radix2 (-52)) with (3 * w) by (unfold w; field). assert (w * Rabs (v / t) <= 2 * w * Rabs (x / t)) by (apply Rle_trans with (w * ((1 + w) * Rabs (x / t))); [apply Rmult_le_compat_l; lra|nra]). lra.
  - intros H. unfold v, x. now rewrite rnd_IZR.
Qed.
