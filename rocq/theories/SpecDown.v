(** Vocabulary of C70. *)
From Coq Require Import ZArith List.
From Verif Require Import Go Lattigo Arith NTT RingOps Params NegRing Repr.
Import ListNotations.
Local Open Scope Z_scope.

(** the first n limbs hold the values of A at the NTT points, words below twice the modulus *)
Definition nrep2 (r : ringd) (n : nat) (co : list (list Z)) (A : zpoly) : Prop :=
  (n <= length (r_mods r))%nat /\ (n <= length co)%nat /\
  forall j, (j < n)%nat -> lrep (r_N r) (qj r j) (2 * qj r j) (nth j co []) (nttf (r_logN r) (psij r j) A).
(** the coefficients of D are those of X divided by B, rounded down, up to one when the remainder is within a 2^-42 part of the ends of its range *)
Definition floored (N : nat) (B : Z) (X D : zpoly) : Prop :=
  forall x, (x < N)%nat -> exists kappa, (kappa = -1 \/ kappa = 0 \/ kappa = 1) /\
    (B < 2 ^ 42 * (X x mod B) -> B < 2 ^ 42 * (B - X x mod B) -> kappa = 0) /\ D x = X x / B - kappa.
