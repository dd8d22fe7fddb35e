(** Go semantics used by the model: panics as values, uint64 words as [Z]
    with explicit wrap-around, slice indexing with bounds checks. *)
From Coq Require Import ZArith List String.
Import ListNotations.
Local Open Scope Z_scope.

(** Reasons for which a Go call does not return normally. *)
Inductive panic : Type :=
| PNil                (* nil pointer dereference / write to nil map *)
| PIndex              (* index out of range *)
| PMsg (s : string)   (* explicit panic("...") *)
| PDiverge.           (* the loop does not terminate within the given fuel *)

(** Result of a Go call: a value or a panic. *)
Inductive res (A : Type) : Type :=
| Ok (a : A)
| Panic (p : panic).
Arguments Ok {A} _.
Arguments Panic {A} _.

Definition bind {A B} (m : res A) (f : A -> res B) : res B :=
  match m with Ok a => f a | Panic p => Panic p end.

Declare Scope go_scope.
Delimit Scope go_scope with go.
Notation "'let*' x ':=' m 'in' k" := (bind m (fun x => k))
  (at level 200, x pattern at level 0, m at level 100, k at level 200) : go_scope.
Open Scope go_scope.

(** [xs[i]]: panics when out of range. *)
Definition idx {A} (xs : list A) (i : nat) : res A :=
  match nth_error xs i with Some a => Ok a | None => Panic PIndex end.

(** [xs[i]] with an [int] index. *)
Definition idxZ {A} (xs : list A) (i : Z) : res A :=
  if i <? 0 then Panic PIndex else idx xs (Z.to_nat i).

(** Loop over a list, failing at the first panic. *)
Fixpoint mapM {A B} (f : A -> res B) (l : list A) : res (list B) :=
  match l with
  | [] => Ok []
  | a :: l => let* b := f a in let* bs := mapM f l in Ok (b :: bs)
  end.

(** Loop with an accumulator. *)
Fixpoint foldM {A S} (f : S -> A -> res S) (l : list A) (s : S) : res S :=
  match l with
  | [] => Ok s
  | a :: l => let* s := f s a in foldM f l s
  end.

(** uint64 words. *)
Definition W : Z := 2 ^ 64.
Definition wrap (x : Z) : Z := x mod W.
Definition wadd (x y : Z) : Z := wrap (x + y).
Definition wsub (x y : Z) : Z := wrap (x - y).
Definition wmul (x y : Z) : Z := wrap (x * y).
(** math/bits.Mul64 *)
Definition mulhi (x y : Z) : Z := (x * y) / W.
Definition mullo (x y : Z) : Z := (x * y) mod W.
(** math/bits.Add64 with carry-in 0: (sum, carry) *)
Definition add64 (x y : Z) : Z * Z := (wrap (x + y), (x + y) / W).
