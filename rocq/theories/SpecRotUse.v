(** Rotation keys of powers of two.  Definitions only. *)
From Coq Require Import String ZArith.
From Verif Require Import Go Params KeySwitch RingOps SpecRot.
Local Open Scope Z_scope.

(** two sets of rotation keys answer alike for the rotations by powers of two below N/2, for all parties *)
Definition same_powers (pp : params) (rks rks' : rotset) : Prop :=
  forall id i, (i < pa_logN pp - 1)%nat -> GetRotationKey rks id (2 ^ Z.of_nat i) = GetRotationKey rks' id (2 ^ Z.of_nat i).
(** the rotation by k modulo N/2 is none or one by a power of two, or there is no common reference string for it *)
Definition by_powers (pp : params) (k : Z) : Prop :=
  let r := k mod (Z.of_nat (pa_N pp) / 2) in r = 0 \/ ~ has_crs pp r \/ exists i : nat, r = 2 ^ Z.of_nat i.
(** there is no common reference string for a rotation by -2^j, 2^j < numCol; for N/2 - 2^j a power of two it does not matter *)
Definition no_backward (pp : params) (numCol : Z) : Prop :=
  forall j : nat, 2 ^ Z.of_nat j < numCol -> (S j < pa_logN pp - 1)%nat -> ~ has_crs pp (Z.of_nat (pa_N pp) / 2 - 2 ^ Z.of_nat j).
