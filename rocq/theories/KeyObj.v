(** mkrlwe/keys.go: keys and key sets as objects.  The heap holds the polynomials of the keys, the key structs and the maps of the key sets.  A key struct is the list of its
    polynomials in the order Value[0], Value[1], ... (one for a SecretKey, two for a PublicKey, beta for rotation and conjugation keys, 3 beta for a RelinearizationKey) and its
    ID.  Simplifications: a PolyQP is one cell, so that its rows are not told apart; the RotIdx of a RotationKey is not there and a RotationKeySet is not modelled here
    (KeySets.v has both); the hoisting pools of a RelinearizationKeySet are left out (Words.v has them). *)
From Coq Require Import String ZArith List Bool.
From Verif Require Import Go NTT RingOps Maps Params Elements KeySwitch KeySets Heap.
Import ListNotations.
Open Scope go_scope.

Record kheap := mkKh { kh_qp : list qp; kh_key : list (list addr * string); kh_set : list (smap addr) }.
(** keys.go:229-284: a constructor or the generator stores new polynomials in a new struct.  NewSecretKey and NewPublicKey are [allocKey] of zero polynomials. *)
Definition allocKey (vals : list qp) (id : string) (h : kheap) : addr * kheap :=
  (List.length (kh_key h), mkKh (kh_qp h ++ vals) (kh_key h ++ [(seq (List.length (kh_qp h)) (List.length vals), id)]) (kh_set h)).
(** the polynomials and the ID of a key *)
Definition loadKey (h : kheap) (a : addr) : res (list qp * string) :=
  let* (ps, id) := deref (kh_key h) a in
  let* vals := mapM (deref (kh_qp h)) ps in Ok (vals, id).

(** ** programs over key variables and key sets; a variable may be nil *)
Inductive kinstr :=
| KNew (vals : list qp) (id : string)      (* a constructor or the generator *)
| KNil                                     (* var k *SecretKey *)
| KCopy (k : nat)                          (* k.CopyNew() *)
| KWrite (k i : nat) (x : qp)              (* polynomial i of k is overwritten in place *)
| KSetID (k : nat) (id : string)           (* k.ID = id *)
| KNewSet
| KAdd (s k : nat)
| KDel (s : nat) (id : string)
| KGet (s : nat) (id : string).
Definition kstate : Type := list (option addr) * kheap.
Definition keyVar (vs : list (option addr)) (k : nat) : res addr := let* v := idx vs k in match v with Some a => Ok a | None => Panic PNil end.
(** keys.go:90, 118, 222: the texts differ between the kinds of keys; one stands for them *)
Definition noKey : panic := PMsg "there is no key with given id".
Definition stepK (s : kstate) (i : kinstr) : res kstate :=
  let (vs, h) := s in
  match i with
  | KNew vals id => let (a, h) := allocKey vals id h in Ok (vs ++ [Some a], h)
  | KNil => Ok (vs ++ [None], h)
  (* keys.go:287-297 SecretKey.CopyNew, 300-311 PublicKey.CopyNew; a nil receiver gives nil *)
  | KCopy k => let* v := idx vs k in
      match v with
      | None => Ok (vs ++ [None], h)
      | Some a => let* (vals, id) := loadKey h a in let (a', h) := allocKey vals id h in Ok (vs ++ [Some a'], h)
      end
  | KWrite k i x => let* a := keyVar vs k in let* (ps, id) := deref (kh_key h) a in let* p := idx ps i in
      Ok (vs, mkKh (lset (kh_qp h) p x) (kh_key h) (kh_set h))
  | KSetID k id => let* a := keyVar vs k in let* (ps, _) := deref (kh_key h) a in
      Ok (vs, mkKh (kh_qp h) (lset (kh_key h) a (ps, id)) (kh_set h))
  (* keys.go:69-73, 97-101, 201-205 *)
  | KNewSet => Ok (vs, mkKh (kh_qp h) (kh_key h) (kh_set h ++ [[]]))
  (* keys.go:76-78 AddSecretKey, 104-106 AddPublicKey, 208-210 AddConjugationKey: the pointer is stored under the ID the key has now *)
  | KAdd s k => let* a := keyVar vs k in let* (_, id) := deref (kh_key h) a in let* m := idx (kh_set h) s in
      Ok (vs, mkKh (kh_qp h) (kh_key h) (lset (kh_set h) s (sset m id a)))
  (* keys.go:81-83, 109-111, 213-215 *)
  | KDel s id => let* m := idx (kh_set h) s in Ok (vs, mkKh (kh_qp h) (kh_key h) (lset (kh_set h) s (sdel m id)))
  (* keys.go:86-93, 114-122, 218-226: the stored pointer is returned *)
  | KGet s id => let* m := idx (kh_set h) s in match sget m id with Some a => Ok (vs ++ [Some a], h) | None => Panic noKey end
  end.
Definition emptyK : kstate := ([], mkKh [] [] []).
Definition runK (P : list kinstr) : res kstate := foldM stepK P emptyK.
(** the key a variable points to *)
Definition keyOf (s : kstate) (k : nat) : res (option (list qp * string)) :=
  let* v := idx (fst s) k in match v with None => Ok None | Some a => let* x := loadKey (snd s) a in Ok (Some x) end.

(** keys.go:229-234 NewSecretKey, 237-243 NewPublicKey as values *)
Definition NewSecretKey (pp : params) (id : string) : seckey := mkSk (newQP pp) id.
Definition NewPublicKey (pp : params) (id : string) : pubkey := mkPk (newQP pp) (newQP pp) id.
(** keys.go:258-267 NewRelinearizationKey, 269-276 NewRotationKey, 278-284 NewConjugationKey *)
Definition NewRelinearizationKey (pp : params) (id : string) : rlkey := mkRlk (NewSwitchingKey pp) (NewSwitchingKey pp) (NewSwitchingKey pp) id.
Definition NewRotationKey (pp : params) (rotidx : Z) (id : string) : rotkey := mkRotk (NewSwitchingKey pp) id rotidx.
Definition NewConjugationKey (pp : params) (id : string) : conjkey := mkCjk (NewSwitchingKey pp) id.
