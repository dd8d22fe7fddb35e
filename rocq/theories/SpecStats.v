(** The deviation of m numbers.  Definitions only. *)
From Coq Require Import Reals.
From Verif Require Import SpecData.
Local Open Scope R_scope.
(** the square root of the sum of the squared distances from the mean, divided by D *)
Definition deviation (m : nat) (D : R) (x : nat -> R) : R := let mean := rsum m x / INR m in sqrt (rsum m (fun i => (x i - mean) * (x i - mean)) / D).
