(** What it means for an object of the heap to hold a ciphertext, and for two objects to share no memory. *)
From Coq Require Import String ZArith List Bool.
From Verif Require Import Go Lattigo NTT RingOps Maps Params Elements KeySwitch KeySets EncDec Heap.
Import ListNotations.

(** ** what a program can see *)
Definition polyAt (h : heap) (c : addr) (id : string) (a : addr) : Prop := exists m, deref (h_maps h) c = Ok m /\ sget m id = Some a.
Definition rowOf (h : heap) (a : addr) (j : nat) (r : addr) : Prop := exists b rs, deref (h_polys h) a = Ok (b, rs) /\ nth_error rs j = Some r.
(** object c holds the ciphertext v *)
Definition rep (h : heap) (c : addr) (v : ciphertext) : Prop :=
  NoDup (mkeys v) /\ exists m, deref (h_maps h) c = Ok m /\ NoDup (mkeys m) /\
    forall id, match sget m id with Some a => exists p, loadPoly h a = Ok p /\ sget v id = Some p | None => sget v id = None end.
(** no part of memory is reached through c and also through c' *)
Definition apart (h : heap) (c c' : addr) : Prop :=
  c <> c' /\ (forall id id' a, polyAt h c id a -> ~ polyAt h c' id' a) /\
  forall id id' a a' j j' r, polyAt h c id a -> polyAt h c' id' a' -> rowOf h a j r -> ~ rowOf h a' j' r.
(** different components of c share nothing *)
Definition inner (h : heap) (c : addr) : Prop :=
  (forall id id' a, polyAt h c id a -> polyAt h c id' a -> id = id') /\
  forall id id' a a' j j' r, polyAt h c id a -> polyAt h c id' a' -> rowOf h a j r -> rowOf h a' j' r -> id = id' /\ j = j'.

(** a program that never writes through variable q; it may read it and copy it *)
Definition avoids (q : nat) (P : list instr) : Prop :=
  forall i, In i P -> match i with IUpd k _ _ _ | IPad k _ _ _ _ | IDel k _ => k <> q | INew _ _ _ _ | ICopy _ _ => True end.
(** the range loops of a program visit every key once *)
Definition orders_ok (P : list instr) : Prop := forall k o, In (ICopy k o) P -> order_ok o.
