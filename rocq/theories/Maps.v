(** Go maps keyed by strings or ints, and mkrlwe/idset.go.
    A Go map is an association list; the invariant "no key twice" is proved, not assumed, for
    every map the model builds.  A range loop visits the keys in an order chosen by an [order]
    oracle: the theorems hold for every oracle returning a permutation of the keys. *)
From Coq Require Import ZArith List String Bool Permutation.
From Verif Require Import Go.
Import ListNotations.

Section Map.
Context {K : Type} (keq : K -> K -> bool).
Definition gmap (A : Type) := list (K * A).
(** m[k], two-value form *)
Fixpoint mget {A} (m : gmap A) (k : K) : option A :=
  match m with
  | [] => None
  | (k', v) :: m => if keq k k' then Some v else mget m k
  end.
(** m[k] = v *)
Fixpoint mset {A} (m : gmap A) (k : K) (v : A) : gmap A :=
  match m with
  | [] => [(k, v)]
  | (k', v') :: m => if keq k k' then (k', v) :: m else (k', v') :: mset m k v
  end.
(** delete(m, k) *)
Definition mdel {A} (m : gmap A) (k : K) : gmap A := filter (fun p => negb (keq k (fst p))) m.
Definition mkeys {A} (m : gmap A) : list K := map fst m.
Definition mhas {A} (m : gmap A) (k : K) : bool := match mget m k with Some _ => true | None => false end.
(** m[k] when the value is a pointer that is then dereferenced: a missing key gives nil *)
Definition mptr {A} (m : gmap A) (k : K) : res A :=
  match mget m k with Some v => Ok v | None => Panic PNil end.
End Map.
Arguments gmap K A : clear implicits.

Definition smap A := gmap string A.
Notation sget := (mget String.eqb).
Notation sset := (mset String.eqb).
Notation sdel := (mdel String.eqb).
Notation shas := (mhas String.eqb).
Notation sptr := (mptr String.eqb).
Notation zget := (mget Z.eqb).
Notation zset := (mset Z.eqb).

(** the visiting order of the n-th range loop of a call over a map with the given keys *)
Definition order := nat -> list string -> list string.
Definition order_ok (o : order) : Prop := forall n l, Permutation (o n l) l.

(** * mkrlwe/idset.go *)
(** idset.go:3-5 *)
Definition idset := smap unit.
(** idset.go:27-31 *)
Definition NewIDSet : idset := [].
(** idset.go:7-10 *)
Definition idHas (s : idset) (v : string) : bool := shas s v.
(** idset.go:12-17 *)
Definition idAdd (s : idset) (v : string) : res idset :=
  if String.eqb v "0" then Panic (PMsg "Cannot IDSet Add : 0 cannot be used")
  else Ok (sset s v tt).
(** idset.go:19-21 *)
Definition idRemove (s : idset) (v : string) : idset := sdel s v.
(** idset.go:23-25 *)
Definition idSize (s : idset) : nat := List.length s.
(** idset.go:33-39 *)
Definition idCopyNew (o : order) (s : idset) : res idset :=
  foldM (fun r v => idAdd r v) (o 0%nat (mkeys s)) NewIDSet.
(** idset.go:41-50 *)
Definition idIntersection (o : order) (s s2 : idset) : res idset :=
  foldM (fun r v => if idHas s v then idAdd r v else Ok r) (o 0%nat (mkeys s2)) NewIDSet.
(** idset.go:52-62 *)
Definition idUnion (o : order) (s s2 : idset) : res idset :=
  let* r := foldM (fun r v => idAdd r v) (o 0%nat (mkeys s)) NewIDSet in
  foldM (fun r v => idAdd r v) (o 1%nat (mkeys s2)) r.
