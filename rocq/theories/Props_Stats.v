(** The standard deviation helper of mkckks (property C59).  Vocabulary: SpecData.v (rsum, Rnum, finite), fR (SpecEnc.v) is the value of a float64. *)
From Coq Require Import Reals ZArith List.
From Coq.Floats Require Import SpecFloat.
From Verif Require Import Spec Go F64 SpecEnc SpecLREnc LRData SpecData SpecLRConst Stats StatsProofs StatsRoundThms.
Import ListNotations.
Local Open Scope R_scope.

(** C59: in exact arithmetic the square of the result is scale^2 times half the mean squared difference of two entries, and the result has the sign
    of scale *)
Theorem C59_value : forall vec scale, vec <> [] -> let x i := nth i vec 0 in let n := length vec in let s := StandardDeviation Rnum Rmult vec scale in
  2 * INR n * INR n * (s * s) = scale * scale * rsum n (fun i => rsum n (fun j => (x i - x j) * (x i - x j))) /\ 0 <= s * scale.
Proof. exact std_pairs. Qed.
Print Assumptions C59_value.
(** C59: in float64, for up to 2^20 numbers up to G and a scale up to S, the result is finite and its error e is at most 10 sqrt(n) / 2^26 G S; it is of
    order 2^-53 when the exact deviation d is not small: e d <= 256 n / 2^53 G^2 S *)
Theorem C59_rounding : forall G S vec scale, 1 <= G <= 2 ^ 100 -> 1 <= S <= 2 ^ 100 -> vec <> [] -> INR (length vec) <= 2 ^ 20 -> Forall (within G) vec -> within S scale ->
  let n := INR (length vec) in let x := StandardDeviationF vec scale in let s := StandardDeviation Rnum Rmult (map fR vec) (fR scale) in let d := StandardDeviation Rnum Rmult (map fR vec) 1 in
  finite x /\ Rabs (fR x - s) <= 10 * sqrt n / 2 ^ 26 * G * S /\ Rabs (fR x - s) * d <= 256 * n / 2 ^ 53 * G * G * S.
Proof. exact std_rounding. Qed.
Print Assumptions C59_rounding.
Example C59_rounding_case : let vec := [f_of_Z 1; f_of_Z 3; f_of_Z 4] in vec <> [] /\ INR (length vec) <= 2 ^ 20 /\ Forall (within 8) vec /\ within 2 (f_of_Z 2).
Proof. exact std_rounding_case. Qed.
(** C59: in float64 a vector of equal integers (with sum up to 2^53) has deviation exactly zero *)
Theorem C59_constant : forall vec k scale, vec <> [] -> (Z.of_nat (length vec) <= 2 ^ 53)%Z -> (Z.abs k * Z.of_nat (length vec) <= 2 ^ 53)%Z ->
  (forall x, In x vec -> finite x /\ fR x = IZR k) -> finite scale -> exists s, StandardDeviationF vec scale = S754_zero s.
Proof. exact std_constant. Qed.
Print Assumptions C59_constant.
(** C59, a finding: NaN for the empty vector *)
Theorem C59_empty : forall scale, StandardDeviationF [] scale = S754_nan.
Proof. exact std_empty. Qed.
Print Assumptions C59_empty.
(** C59, a finding: equal finite entries can give +Inf *)
Theorem C59_zero_for_equal_entries_refuted : exists c, finite c /\ StandardDeviationF [c; c] (f_of_Z 1) = S754_infinity false.
Proof. exact std_overflow. Qed.
Print Assumptions C59_zero_for_equal_entries_refuted.
Example C59_case : let vec := repeat (f_of_Z 7) 3 in vec <> [] /\ (Z.abs 7 * Z.of_nat (length vec) <= 2 ^ 53)%Z /\ forall x, In x vec -> finite x /\ fR x = 7.
Proof. exact std_case. Qed.
