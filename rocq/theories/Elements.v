(** mkrlwe/elements.go: multi-key ciphertexts as values (sharing is treated in Heap.v). *)
From Coq Require Import ZArith List String Bool.
From Verif Require Import Go Lattigo NTT RingOps Maps Params.
Import ListNotations.

(** elements.go:17-19 *)
Definition ciphertext := smap poly.
(** elements.go:5-7 *)
Definition hoisted := smap swk.

(** elements.go:22-33.  [level] >= 0; the ids of an IDSet never contain "0". *)
Definition NewCiphertext (o : order) (pp : params) (ids : idset) (level : nat) : ciphertext :=
  fold_left (fun el id => sset el id (newPoly (pa_N pp) (level + 1))) (o 0%nat (mkeys ids))
    (sset [] "0"%string (newPoly (pa_N pp) (level + 1))).
(** elements.go:36-44 *)
Definition NewCiphertextNTT (o : order) (pp : params) (ids : idset) (level : nat) : ciphertext :=
  map (fun '(k, p) => (k, setNTT true p)) (NewCiphertext o pp ids level).
(** elements.go:47-57; the visiting order only fixes the representation of the result *)
Definition ctIDSet (o : order) (ct : ciphertext) : res idset :=
  foldM (fun s id => if String.eqb id "0" then Ok s else idAdd s id) (o 0%nat (mkeys ct)) NewIDSet.
(** elements.go:60-62.  Simplification: a component without any limb (Level() = -1) is
    treated as a panic. *)
Definition ctLevel (ct : ciphertext) : res nat :=
  let* p := sptr ct "0"%string in
  match plen p with O => Panic PIndex | S l => Ok l end.
(** elements.go:70-81 as a value *)
Definition ctCopyNew (ct : ciphertext) : res ciphertext :=
  let* _ := sptr ct "0"%string in Ok ct.
(** elements.go:84-88 *)
Definition ctCopy (o : order) (el ct : ciphertext) : res ciphertext :=
  foldM (fun el id =>
      let* src := sptr ct id in let* dst := sptr el id in Ok (sset el id (pCopy dst src)))
    (o 0%nat (mkeys ct)) el.
(** elements.go:91-105.  ring.NewPoly(degree, level+1); Degree() is the length of limb 0. *)
Definition PadCiphertext (o : order) (el : ciphertext) (ids : idset) : res ciphertext :=
  let* c0 := sptr el "0"%string in
  let* old := ctIDSet o el in
  let* l0 := idx (p_co c0) 0 in
  let* level := ctLevel el in
  Ok (fold_left (fun el id =>
        if idHas old id then el
        else sset el id (setNTT (p_ntt c0) (newPoly (List.length l0) (level + 1))))
      (o 1%nat (mkeys ids)) el).
