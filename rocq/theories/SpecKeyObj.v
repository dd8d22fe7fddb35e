(** Vocabulary of C74: the same programs on values.  Definitions only. *)
From Coq Require Import String ZArith List.
From Verif Require Import Go NTT RingOps Maps Params Elements KeySwitch KeySets Heap NegRing Repr KeyObj.
Import ListNotations.
Open Scope go_scope.

(** a key as a value: its polynomials and its ID *)
Definition keyval : Type := list qp * string.
(** key variables and key sets as values; programs that write through a key have no meaning here *)
Definition vstate : Type := list (option keyval) * list (smap keyval).
Definition stepVal (s : vstate) (i : kinstr) : res vstate :=
  let (vs, ss) := s in
  match i with
  | KNew vals id => Ok (vs ++ [Some (vals, id)], ss)
  | KNil => Ok (vs ++ [None], ss)
  | KCopy k => let* v := idx vs k in Ok (vs ++ [v], ss)
  | KNewSet => Ok (vs, ss ++ [[]])
  | KAdd s k => let* v := idx vs k in match v with None => Panic PNil | Some x => let* m := idx ss s in Ok (vs, lset ss s (sset m (snd x) x)) end
  | KDel s id => let* m := idx ss s in Ok (vs, lset ss s (sdel m id))
  | KGet s id => let* m := idx ss s in match sget m id with Some x => Ok (vs ++ [Some x], ss) | None => Panic noKey end
  | KWrite _ _ _ | KSetID _ _ => Ok (vs, ss)
  end.
Definition runVal (P : list kinstr) : res vstate := foldM stepVal P ([], []).
(** no key is changed after it was made *)
Definition readonly (P : list kinstr) : Prop := forall i, In i P -> match i with KWrite _ _ _ | KSetID _ _ => False | _ => True end.
(** P does not change key q, nor hand out its pointer; it may copy it *)
Definition leaves (q : nat) (P : list kinstr) : Prop := forall i, In i P -> match i with KWrite k _ _ | KSetID k _ | KAdd _ k => k <> q | _ => True end.
(** P does nothing but change key q *)
Definition changes_only (q : nat) (P : list kinstr) : Prop := forall i, In i P -> match i with KWrite k _ _ | KSetID k _ => k = q | _ => False end.
(** the number of key variables *)
Definition nkeys (s : kstate) : nat := List.length (fst s).
(** the key stored in a set under id *)
Definition stored (s : kstate) (t : nat) (id : string) : res (option keyval) :=
  let* m := idx (kh_set (snd s)) t in match sget m id with None => Ok None | Some a => let* x := loadKey (snd s) a in Ok (Some x) end.
(** a switching key of the right length all of whose rows are the polynomial 0 *)
Definition zero_swk_is (pp : params) (v : swk) : Prop := List.length v = Beta pp (maxLevel pp) /\ Forall (fun x => qshp pp x /\ qrep pp (maxLevel pp) x pzero) v.
