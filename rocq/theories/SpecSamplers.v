(** Vocabulary of C76: all outcomes of n pairs of bits, and counting.  Definitions only. *)
From Coq Require Import ZArith List Bool.
From Verif Require Import KeyGen Samplers.
Import ListNotations.
Local Open Scope Z_scope.

(** all lists of n pairs of bits, each once *)
Fixpoint outcomes (n : nat) : list prngBits :=
  match n with O => [[]] | S n => flat_map (fun p => map (cons p) (outcomes n)) [(false, false); (false, true); (true, false); (true, true)] end.
(** the number of outcomes of n pairs with a property *)
Definition outcomes_with (n : nat) (f : prngBits -> bool) : Z := Z.of_nat (length (filter f (outcomes n))).
(** the signed coefficients of a draw *)
Definition coefficients (e : small) : list Z := map (fun x : bool * Z => if fst x then snd x else - snd x) e.
Definition zeros (t : list Z) : Z := Z.of_nat (length (filter (Z.eqb 0) t)).
Definition same (a b : list Z) : bool := if list_eq_dec Z.eq_dec a b then true else false.
