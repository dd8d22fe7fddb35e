(** C71: DropLevel on Go slices (mkckks/evaluator.go:98-112): which counts it accepts, that dropped limbs stay reachable, and that a copy is cut to its length. *)
From Coq Require Import ZArith List String.
From Verif Require Import Go Lattigo Arith F64 RingOps Maps Params Elements EncDec Evaluator Loops Slices SpecSlices SlicesThms.
Import ListNotations.
Local Open Scope Z_scope.
Open Scope go_scope.

(** DropLevel succeeds exactly when the new number of limbs (of component "0", minus levels) is not negative and within the capacity of every component;
    then every component gets that number of limbs, from its own array *)
Theorem C71_drop_level : forall o ct p0 levels, order_ok o -> sct_ok ct -> sget ct "0"%string = Some p0 -> - 2 ^ 63 <= levels < 2 ^ 63 ->
  let n := Z.of_nat (s_len (sp_co p0)) - levels in
  (0 <= n /\ room ct n -> exists ct', DropLevelS o ct levels = Ok ct' /\ rewindowed ct ct' (Z.to_nat n)) /\
  (~ (0 <= n /\ room ct n) -> DropLevelS o ct levels = Panic PIndex).
Proof. exact drop_s. Qed.
Print Assumptions C71_drop_level.
(** a dropped level is not gone: dropping k levels and then -k levels gives back the ciphertext, all its limbs included *)
Theorem C71_undone : forall o o' ct n k, order_ok o -> order_ok o' -> sct_ok ct -> lens ct n -> (k <= n)%nat -> exists ct1 ct2,
  DropLevelS o ct (Z.of_nat k) = Ok ct1 /\ lens ct1 (n - k) /\ DropLevelS o' ct1 (- Z.of_nat k) = Ok ct2 /\ forall id, sget ct2 id = sget ct id.
Proof. exact undo_s. Qed.
Print Assumptions C71_undone.
(** DropLevelNew works on a copy, whose capacity is its length: every negative count panics *)
Theorem C71_new_negative : forall o ct levels, order_ok o -> sct_ok ct -> - 2 ^ 63 <= levels < 0 -> DropLevelNewS o ct levels = Panic PIndex.
Proof. exact new_s. Qed.
Print Assumptions C71_new_negative.
(** on ciphertexts with equally long components and for counts that are not negative, the slices make no difference: DropLevel of Evaluator.v has the same outcome *)
Theorem C71_value_model : forall o ct l levels sc, order_ok o -> sct_ok ct -> lens ct (l + 1) -> Z.of_nat levels < 2 ^ 63 ->
  match DropLevelS o ct (Z.of_nat levels) with
  | Ok ct' => DropLevel o (mkCk (ctview ct) sc) levels = Ok (mkCk (ctview ct') sc)
  | Panic e => DropLevel o (mkCk (ctview ct) sc) levels = Panic e
  end.
Proof. exact value_s. Qed.
Print Assumptions C71_value_model.

(** ** cases: two components of two limbs; the one level dropped comes back; a component that was cut further than "0" is made longer by a drop; one more
    than the capacity panics *)
Definition c71_o : order := fun _ l => l.
Definition c71_ct (n0 n1 : nat) : sct := [("0"%string, mkSpoly true (mkRows [[1]; [2]; [3]] n0)); ("a"%string, mkSpoly true (mkRows [[4]; [5]; [6]] n1))].
Example C71_case :
  DropLevelS c71_o (c71_ct 3 3) 1 = Ok (c71_ct 2 2) /\ DropLevelS c71_o (c71_ct 2 2) (-1) = Ok (c71_ct 3 3) /\
  ctview (c71_ct 2 2) = [("0"%string, mkPoly true [[1]; [2]]); ("a"%string, mkPoly true [[4]; [5]])] /\
  DropLevelS c71_o (c71_ct 3 1) 1 = Ok (c71_ct 2 2) /\ DropLevelS c71_o (c71_ct 3 3) (-1) = Panic PIndex /\ DropLevelS c71_o (c71_ct 3 3) 4 = Panic PIndex /\
  DropLevelS c71_o (c71_ct 3 3) (- 2 ^ 63) = Panic PIndex /\ DropLevelNewS c71_o (c71_ct 2 2) (-1) = Panic PIndex /\
  DropLevelS c71_o (c71_ct 3 3) 3 = Ok (c71_ct 0 0).
Proof. vm_compute. repeat split. Qed.
