(** Specification vocabulary for calls whose receiver is an operand.  Definitions only. *)
From Coq Require Import String ZArith List.
From Verif Require Import Spec Go Arith NegRing NTT RingOps Maps Params Elements KeySwitch SpecCt SpecEv.
Import ListNotations.
Local Open Scope Z_scope.

(** m is ct with the upper half of the coefficients overwritten by the negated lower half, in reverse: the coefficients 0 to N/2 are
    those of ct, and coefficient x > N/2 is minus coefficient N-x of ct *)
Definition mirrored (pp : params) (l : nat) (ct m : ciphertext) : Prop :=
  ct_ok pp l m /\ mkeys m = mkeys ct /\ forall id j x, In id (mkeys ct) -> (j <= l)%nat -> (x < pa_N pp)%nat ->
    limb m id j x = if (x <=? pa_N pp / 2)%nat then limb ct id j x else modulus (pa_Q pp) j - limb ct id j (pa_N pp - x)%nat.
