(** Ciphertexts as objects: which words of memory a ciphertext and its copies share.
    The heap holds the backing arrays of limbs ([]uint64), the ring.Poly structs (a flag and the slice of
    limbs) and the Go maps of ciphertexts (mkrlwe/elements.go:17-19).  An address is an index; allocation
    appends.  Simplification: the slice [Coeffs] of a ring.Poly is kept in the struct, so that a reslicing
    Coeffs[:n] forgets the limbs above. *)
From Coq Require Import String ZArith List Bool.
From Verif Require Import Go Lattigo NTT RingOps Maps Params Elements KeySwitch KeySets EncDec.
Import ListNotations.
Open Scope go_scope.

Definition addr := nat.
Record heap := mkHeap { h_rows : list (list Z); h_polys : list (bool * list addr); h_maps : list (smap addr) }.
Definition emptyHeap : heap := mkHeap [] [] [].
(** l[i] = x for an index in range *)
Definition lset {A} (l : list A) (i : nat) (x : A) : list A := firstn i l ++ x :: skipn (S i) l.
(** following a pointer; a dangling address cannot arise in Go and is a panic here *)
Definition deref {A} (l : list A) (a : addr) : res A := match nth_error l a with Some x => Ok x | None => Panic PNil end.
Definition loadPoly (h : heap) (a : addr) : res poly :=
  let* (b, rs) := deref (h_polys h) a in
  let* ls := mapM (deref (h_rows h)) rs in Ok (mkPoly b ls).
(** el.Value[id], dereferenced *)
Definition loadComp (h : heap) (c : addr) (id : string) : res poly :=
  let* m := deref (h_maps h) c in let* a := sptr m id in loadPoly h a.

(** allocation of a polynomial: its limbs, then the struct *)
Definition allocPoly (p : poly) (h : heap) : addr * heap :=
  (length (h_polys h),
   mkHeap (h_rows h ++ p_co p) (h_polys h ++ [(p_ntt p, seq (length (h_rows h)) (plen p))]) (h_maps h)).
Definition allocMap (h : heap) : addr * heap := (length (h_maps h), mkHeap (h_rows h) (h_polys h) (h_maps h ++ [[]])).
(** el.Value[id] = pointer *)
Definition setComp (c : addr) (id : string) (a : addr) (h : heap) : res heap :=
  let* m := deref (h_maps h) c in Ok (mkHeap (h_rows h) (h_polys h) (lset (h_maps h) c (sset m id a))).
Definition delComp (c : addr) (id : string) (h : heap) : res heap :=
  let* m := deref (h_maps h) c in Ok (mkHeap (h_rows h) (h_polys h) (lset (h_maps h) c (sdel m id))).
(** the words, the flag and the length of an existing polynomial are overwritten; its limbs stay where they are *)
Definition storePoly (a : addr) (p : poly) (h : heap) : res heap :=
  let* (b, rs) := deref (h_polys h) a in
  if (length rs <? plen p)%nat then Panic PIndex
  else Ok (mkHeap (fold_left (fun rows '(r, ws) => lset rows r ws) (combine rs (p_co p)) (h_rows h))
             (lset (h_polys h) a (p_ntt p, firstn (plen p) rs)) (h_maps h)).

(** mkrlwe/elements.go:22-33 NewCiphertext and 36-44 NewCiphertextNTT, for the ids in their visiting order *)
Definition heapNew (ids : list string) (N nb : nat) (ntt : bool) (h : heap) : res (addr * heap) :=
  let (c, h) := allocMap h in
  let* h := foldM (fun h id => let (a, h) := allocPoly (setNTT ntt (newPoly N nb)) h in setComp c id a h) ("0"%string :: ids) h in
  Ok (c, h).
(** mkrlwe/elements.go:70-81 CopyNew: component "0" is copied twice; ring.Poly.CopyNew allocates the limbs *)
Definition heapCopyNew (o : order) (c : addr) (h : heap) : res (addr * heap) :=
  let* m := deref (h_maps h) c in
  let (c', h) := allocMap h in
  let* h := foldM (fun h id =>
      let* p := loadComp h c id in
      let (a, h) := allocPoly p h in setComp c' id a h) ("0"%string :: o 0%nat (mkeys m)) h in
  Ok (c', h).

(** ** programs over ciphertext variables *)
(** The instructions a caller or the library can perform on ciphertext objects: create, CopyNew, overwrite a component in
    place with any function of its value and of other components (single words, whole ring operations, Copy, setting
    the flag, reslicing), store a new zero polynomial under an id (PadCiphertext), delete a component (PartialDecrypt). *)
Inductive instr :=
| INew (ids : list string) (N nb : nat) (ntt : bool)
| ICopy (k : nat) (o : order)
| IUpd (k : nat) (id : string) (reads : list (nat * string)) (f : list poly -> poly -> res poly)
| IPad (k : nat) (id : string) (N nb : nat) (ntt : bool)
| IDel (k : nat) (id : string).

(** on the heap: the variables hold addresses *)
Definition stepH (i : instr) (s : list addr * heap) : res (list addr * heap) :=
  let (vs, h) := s in
  match i with
  | INew ids N nb ntt => let* (c, h) := heapNew ids N nb ntt h in Ok (vs ++ [c], h)
  | ICopy k o => let* c := idx vs k in let* (c', h) := heapCopyNew o c h in Ok (vs ++ [c'], h)
  | IUpd k id reads f =>
      let* c := idx vs k in
      let* args := mapM (fun '(k', id') => let* c' := idx vs k' in loadComp h c' id') reads in
      let* m := deref (h_maps h) c in let* a := sptr m id in
      let* p := loadPoly h a in
      let* p := f args p in
      let* h := storePoly a p h in Ok (vs, h)
  | IPad k id N nb ntt =>
      let* c := idx vs k in
      let (a, h) := allocPoly (setNTT ntt (newPoly N nb)) h in
      let* h := setComp c id a h in Ok (vs, h)
  | IDel k id => let* c := idx vs k in let* h := delComp c id h in Ok (vs, h)
  end.
Definition runH (P : list instr) : res (list addr * heap) := foldM (fun s i => stepH i s) P ([], emptyHeap).

(** on values: the variables hold ciphertexts of the value model (Elements.v), which share nothing *)
Definition stepV (i : instr) (vs : list ciphertext) : res (list ciphertext) :=
  match i with
  | INew ids N nb ntt => Ok (vs ++ [fold_left (fun el id => sset el id (setNTT ntt (newPoly N nb))) ("0"%string :: ids) []])
  | ICopy k _ => let* v := idx vs k in let* v := ctCopyNew v in Ok (vs ++ [v])
  | IUpd k id reads f =>
      let* v := idx vs k in
      let* args := mapM (fun '(k', id') => let* v' := idx vs k' in sptr v' id') reads in
      let* p := sptr v id in
      let* p' := f args p in
      if (plen p <? plen p')%nat then Panic PIndex else Ok (lset vs k (sset v id p'))
  | IPad k id N nb ntt => let* v := idx vs k in Ok (lset vs k (sset v id (setNTT ntt (newPoly N nb))))
  | IDel k id => let* v := idx vs k in Ok (lset vs k (sdel v id))
  end.
Definition runV (P : list instr) : res (list ciphertext) := foldM (fun s i => stepV i s) P [].

(** ** decryption on the heap *)
Section Dec.
Context (pp : params).
Notation rQ := (ringQ pp).
Definition updComp (c : addr) (id : string) (f : poly -> res poly) (h : heap) : res heap :=
  let* m := deref (h_maps h) c in let* a := sptr m id in
  let* p := loadPoly h a in let* p := f p in storePoly a p h.
Definition heapLevel (c : addr) (h : heap) : res nat :=
  let* p := loadComp h c "0"%string in match plen p with O => Panic PIndex | S l => Ok l end.
(** mkrlwe/decryptor.go:26-43 *)
Definition heapPartialDecrypt (c : addr) (sk : seckey) (h : heap) : res heap :=
  let id := sk_ID sk in
  let* level := heapLevel c h in
  let* p := loadComp h c id in
  let* h := if negb (p_ntt p) then updComp c id (fun p => NTTLvl rQ level p p) h else Ok h in
  let* h := updComp c id (fun p => MulCoeffsMontgomeryLvl rQ level p (qQ (sk_val sk)) p) h in
  let* h := if negb (p_ntt p) then updComp c id (fun p => InvNTTLvl rQ level p p) h else Ok h in
  let* p := loadComp h c id in
  let* h := updComp c "0"%string (fun p0 => AddLvl rQ level p0 p p0) h in
  delComp c id h.
(** mkrlwe/decryptor.go:48-66.  Simplification: the plaintext, a struct with one pointer Value, is the object [d] with the one component "0". *)
Definition heapDecrypt (o : order) (c : addr) (sks : skset) (d : addr) (h : heap) : res heap :=
  let* cl := heapLevel c h in
  let* p := loadComp h d "0"%string in
  let* pl := polyLevel p in
  let level := Nat.min cl pl in
  let* h := updComp d "0"%string (pTrunc (level + 1)) h in
  let* (tmp, h) := heapCopyNew o c h in
  let* m := deref (h_maps h) tmp in
  let* ids := foldM (fun s id => if String.eqb id "0" then Ok s else idAdd s id) (o 0%nat (mkeys m)) NewIDSet in
  let* h := foldM (fun h k =>
      let* sk := sptr sks k in
      if idHas ids (sk_ID sk) then heapPartialDecrypt tmp sk h else Ok h) (o 1%nat (mkeys sks)) h in
  let* m := deref (h_maps h) tmp in
  if (1 <? List.length (mkeys m))%nat then Panic (PMsg "Cannot Decrypt: there is a missing secretkey") else
  let* c0 := loadComp h tmp "0"%string in
  updComp d "0"%string (fun p => ReduceLvl rQ level c0 p) h.
(** mkckks/decryptor.go:34-38: a further copy before the decryption *)
Definition heapCkDecrypt (o : order) (c : addr) (sks : skset) (d : addr) (h : heap) : res heap :=
  let* (tmp, h) := heapCopyNew o c h in heapDecrypt o tmp sks d h.
End Dec.
