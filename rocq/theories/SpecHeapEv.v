(** When the objects of a heap are independent ciphertexts, and which calls overwrite a variable. *)
From Coq Require Import ZArith String List Bool.
From Verif Require Import Go Lattigo NTT RingOps Maps F64 Params Elements KeySwitch KeySets EncDec Evaluator Alias Circuit Heap SpecHeap HeapEv.
Import ListNotations.

(** Object n holds the n-th ciphertext, its map lists its keys in the same order (so that both are visited alike), and no word of memory is reached in
    two ways: through two objects, two components or two limbs. *)
Record separate (h : heap) (vals : list ciphertext) : Prop := {
  sp_len : length (h_maps h) = length vals;
  sp_rep : forall c v, nth_error vals c = Some v -> rep h c v;
  sp_keys : forall c v m, nth_error vals c = Some v -> deref (h_maps h) c = Ok m -> mkeys m = mkeys v;
  sp_inner : forall c v, nth_error vals c = Some v -> inner h c;
  sp_apart : forall c c' v v', nth_error vals c = Some v -> nth_error vals c' = Some v' -> c <> c' -> apart h c c' }.

(** the pointer [x] with its scale is the ciphertext [ct] *)
Definition points (vals : list ciphertext) (x : hct) (ct : ckct) : Prop := nth_error vals (hc x) = Some (c_ct ct) /\ hs x = c_scale ct.
(** the caller's variables are different objects, and none of them is the evaluator's ctxtPool *)
Definition own (vars : list hct) (st : hcs) : Prop := NoDup (he_ct (hcs_ev st) :: map hc vars).
(** the evaluator's scratch state and the hoisting pools of the key set are the given ones *)
Definition scratch (vals : list ciphertext) (st : hcs) (s : cst) : Prop :=
  nth_error vals (he_ct (hcs_ev st)) = Some (ev_ct (cs_ev s)) /\ he_q (hcs_ev st) = ev_q (cs_ev s) /\ he_k (hcs_ev st) = ev_k (cs_ev s) /\ hcs_rs st = cs_rs s.
(** no call of the sequence has variable i as receiver *)
Definition unwritten (i : nat) (p : list call) : Prop := forall c, In c p -> receiver c <> Some i.
