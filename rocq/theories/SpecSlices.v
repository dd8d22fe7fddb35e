(** Vocabulary of C71: ciphertexts whose components are windows on arrays of limbs. *)
From Coq Require Import ZArith List String.
From Verif Require Import Go RingOps Maps Elements Slices.
Import ListNotations.
Local Open Scope Z_scope.

(** a Go value: every id once, "0" among them, lengths at most capacities, capacities below 2^62 *)
Definition sct_ok (ct : sct) : Prop := NoDup (mkeys ct) /\ In "0"%string (mkeys ct) /\
  forall id p, sget ct id = Some p -> (s_len (sp_co p) <= List.length (s_arr (sp_co p)))%nat /\ Z.of_nat (List.length (s_arr (sp_co p))) < 2 ^ 62.
(** every component has n limbs *)
Definition lens (ct : sct) (n : nat) : Prop := forall id p, sget ct id = Some p -> s_len (sp_co p) = n.
(** every component has room for n limbs *)
Definition room (ct : sct) (n : Z) : Prop := forall id p, sget ct id = Some p -> n <= Z.of_nat (List.length (s_arr (sp_co p))).
(** b is a with n limbs in every component, taken from the same arrays *)
Definition rewindowed (a b : sct) (n : nat) : Prop := NoDup (mkeys b) /\
  forall id, sget b id = match sget a id with Some p => Some (mkSpoly (sp_ntt p) (mkRows (s_arr (sp_co p)) n)) | None => None end.
