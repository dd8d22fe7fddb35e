(** Specification vocabulary for keys: automorphisms and histories of key sets.  Definitions only. *)
From Coq Require Import ZArith List String.
From Verif Require Import Go Arith NegRing.
Import ListNotations.
Local Open Scope Z_scope.

(** The automorphism X -> X^g of Z[X]/(X^N+1): sum_i A_i X^(g i).  [ext N pone z] is the
    coefficient of X^z in 1 (so 1 at 0, -1 at N, 0 off the multiples of N, of period 2N). *)
Definition psigma (N : nat) (g : Z) (A : zpoly) : zpoly :=
  fun k => sumn N (fun i => A i * ext N pone (Z.of_nat k - g * Z.of_nat i)).

(** A history of a key set: keys are added, ids are deleted. *)
Inductive keyop (I K : Type) := KAdd (k : K) | KDel (i : I).
Arguments KAdd {I K}. Arguments KDel {I K}.
Definition opid {I K} (ident : K -> I) (o : keyop I K) : I := match o with KAdd k => ident k | KDel i => i end.
(** the state after a history *)
Definition run_ops {S I K} (add : S -> K -> S) (del : S -> I -> S) (e : S) (ops : list (keyop I K)) : S :=
  fold_left (fun s o => match o with KAdd k => add s k | KDel i => del s i end) ops e.
(** k is the key added last for the id i, and i was not deleted since *)
Definition last_added {I K} (ident : K -> I) (ops : list (keyop I K)) (i : I) (k : K) : Prop :=
  exists pre post, ops = pre ++ KAdd k :: post /\ ident k = i /\ Forall (fun o => opid ident o <> i) post.

(** the representative of x modulo m in (-m/2, m/2] *)
Definition centred (m x : Z) : Z := let r := x mod m in if m <? 2 * r then r - m else r.

(** what "behaves as a map" means for a key set with operations add, del, get and empty set e:
    after every history, get returns exactly the key added last and not deleted since, and panics
    (with message m) exactly when there is none *)
Definition keyset_correct {S I K} (ident : K -> I) (add : S -> K -> S) (del : S -> I -> S) (get : S -> I -> res K) (e : S) (m : string) : Prop :=
  forall ops i,
    (forall k, get (run_ops add del e ops) i = Ok k <-> last_added ident ops i k) /\
    (get (run_ops add del e ops) i = Panic (PMsg m) <-> forall k, ~ last_added ident ops i k).
