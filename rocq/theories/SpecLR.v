(** What the logistic-regression programs are meant to compute, on exact numbers.  Definitions only. *)
From Coq Require Import ZArith List.
From Verif Require Import SpecSlots.
Import ListNotations.

Section Ring.
Context {R : Type} (rO rI : R) (radd rmul rsub : R -> R -> R) (ropp : R -> R).
Notation "x +' y" := (radd x y) (at level 50, left associativity).
Notation "x -' y" := (rsub x y) (at level 50, left associativity).
Notation "x *' y" := (rmul x y) (at level 40, left associativity).
Notation sum := (rsum rO radd).

(** the cubic approximation of the logistic function: c3 x^3 + c1 x + c0 *)
Definition sigma3 (c0 c1 c3 x : R) : R := c3 *' (x *' x *' x) +' c1 *' x +' c0.
(** x . v over [d] coordinates *)
Definition dot (d : nat) (x v : nat -> R) : R := sum d (fun k => x k *' v k).
(** coordinate [j] of sum_i (sigma3(X_i . v) - y_i) X_i, over the data points [ids] *)
Fixpoint sumOver (ids : list nat) (f : nat -> R) : R := match ids with [] => rO | i :: ids => f i +' sumOver ids f end.
Definition gradient (c0 c1 c3 : R) (d : nat) (X : nat -> nat -> R) (y : nat -> R) (ids : list nat) (v : nat -> R) (j : nat) : R :=
  sumOver ids (fun i => (sigma3 c0 c1 c3 (dot d (X i) v) -' y i) *' X i j).
(** one step of Nesterov's accelerated gradient, with step [gn] and weight [eta], from (v, beta) *)
Definition nesterov (c0 c1 c3 gn : R) (d : nat) (X : nat -> nat -> R) (y : nat -> R) (ids : list nat) (eta : R) (vb : (nat -> R) * (nat -> R)) : (nat -> R) * (nat -> R) :=
  let (v, beta) := vb in
  let beta' := fun j => v j -' gn *' gradient c0 c1 c3 d X y ids v j in
  (fun j => (rI -' eta) *' beta' j +' eta *' beta j, beta').
(** one step per weight, in order, starting from zero; [ids a] are the data points of step [a] *)
Fixpoint nesterovFrom (c0 c1 c3 gn : R) (d : nat) (X : nat -> nat -> R) (y : nat -> R) (ids : nat -> list nat) (a : nat) (etas : list R) (vb : (nat -> R) * (nat -> R)) : (nat -> R) * (nat -> R) :=
  match etas with
  | [] => vb
  | eta :: etas => nesterovFrom c0 c1 c3 gn d X y ids (S a) etas (nesterov c0 c1 c3 gn d X y (ids a) eta vb)
  end.
Definition nesterovAll (c0 c1 c3 gn : R) (d : nat) (X : nat -> nat -> R) (y : nat -> R) (ids : nat -> list nat) (etas : list R) : (nat -> R) * (nat -> R) :=
  nesterovFrom c0 c1 c3 gn d X y ids 0 etas (fun _ => rO, fun _ => rO).
(** a table as a function *)
Definition entry (t : list (list R)) (i j : nat) : R := nth j (nth i t []) rO.
Definition entry1 (t : list R) (i : nat) : R := nth i t rO.
(** the table has [n] rows of at least [d] numbers *)
Definition table (t : list (list R)) (n d : nat) : Prop := n <= length t /\ forall i, i < n -> d <= length (nth i t []).
End Ring.
