(** A caller of the library: any sequence of calls of mkckks/evaluator.go that return a new ciphertext or update one in place, each on
    ciphertexts the caller already has. *)
From Coq Require Import ZArith Bool List String.
From Verif Require Import Go Arith RingOps Maps Params Elements KeySwitch KeySets KeyGen F64 EncDec Evaluator Alias.
Import ListNotations.
Local Open Scope Z_scope.

(** Ciphertexts and plaintexts are named by their position in the caller's lists; the result of a call is appended, or replaces the operand
    when the call updates it in place. *)
Inductive call :=
| CAdd (i j : nat)                (** evaluator.go:316-326 AddNew *)
| CSub (i j : nat)                (** evaluator.go:329-351 SubNew *)
| CMul (i j : nat)                (** evaluator.go:416-443 MulRelinNew; the same object when i = j *)
| CMulPt (i p : nat)              (** evaluator.go:465-481 MulPtxtNew *)
| CConst (i : nat) (c : f64)      (** evaluator.go:117-198 MultByConst with a float64, into a copy of the operand (element.go CopyNew) *)
| CRot (i : nat) (k : Z)          (** evaluator.go:485-525 RotateNew *)
| CRotHoisted (i : nat) (k : Z)   (** evaluator.go:543-553 HoistedForm, then 585-617 RotateHoistedNew *)
| CConj (i : nat)                 (** evaluator.go:530-540 ConjugateNew *)
| CRescale (i : nat) (thr : f64)  (** evaluator.go:406-411 RescaleNew; the caller stops if it reports an error *)
| CDrop (i levels : nat)          (** evaluator.go:98-102 DropLevelNew *)
| CMulHoisted (i j : nat) (hi hj : bool) (** evaluator.go:558-564 MulRelinHoistedNew; for each operand the hoisted form that 543-553 HoistedForm
                                             makes, or nil *)
| CConstIn (i : nat) (c : f64)    (** evaluator.go:117-198 MultByConst with a float64, the operand as receiver *)
| CRescaleIn (i : nat) (thr : f64) (** evaluator.go:359-398 Rescale, the operand as receiver; the caller stops if it reports an error *)
| CDropIn (i levels : nat).       (** evaluator.go:106-112 DropLevel *)
(** the ciphertext that a call overwrites *)
Definition receiver (c : call) : option nat := match c with CConstIn i _ | CRescaleIn i _ | CDropIn i _ => Some i | _ => None end.
Definition stored {X} (c : call) (x : X) (l : list X) : list X := match receiver c with Some i => firstn i l ++ x :: skipn (S i) l | None => l ++ [x] end.

(** what the calls mutate: the evaluator and the hoisting pools of the relinearization key set *)
Record cst := mkCs { cs_ev : evst; cs_rs : rlkpool }.
Section Run.
Context (ce : ckenv) (rks : rotset) (cks : conjset) (pts : list (poly * f64)).
(** one call; [o]: the iteration orders of Go's maps during the call *)
Definition exec (o : order) (c : call) (cts : list ckct) (st : cst) : res (ckct * cst) :=
  let put (r : res (ckct * evst)) := let* (ct, ev) := r in Ok (ct, mkCs ev (cs_rs st)) in
  match c with
  | CAdd i j => let* a := idx cts i in let* b := idx cts j in put (AddNew ce o a b (cs_ev st))
  | CSub i j => let* a := idx cts i in let* b := idx cts j in put (SubNew ce o a b (cs_ev st))
  | CMul i j => let* a := idx cts i in let* b := idx cts j in
      let* (ct, rs, ev) := MulRelinNew ce o (i =? j)%nat a b (cs_rs st) (cs_ev st) in Ok (ct, mkCs ev rs)
  | CMulPt i p => let* a := idx cts i in let* pt := idx pts p in put (MulPtxtNew ce o a (fst pt) (snd pt) (cs_ev st))
  | CConst i c => let* a := idx cts i in let* out := ckCopyNew a in let* ct := MultByConst ce o a (KFloat c) out in Ok (ct, st)
  | CRot i k => let* a := idx cts i in put (RotateNew ce o a k rks (cs_ev st))
  | CRotHoisted i k => let* a := idx cts i in
      let* (h, ev) := HoistedForm ce o a (cs_ev st) in put (RotateHoistedNew ce o a k h rks ev)
  | CConj i => let* a := idx cts i in put (ConjugateNew ce o a cks (cs_ev st))
  | CRescale i thr => let* a := idx cts i in
      let* (e, ct, ev) := RescaleNew ce o a thr (cs_ev st) in
      match e with None => Ok (ct, mkCs ev (cs_rs st)) | Some _ => Panic (PMsg "error returned by RescaleNew") end
  | CDrop i levels => let* a := idx cts i in let* ct := DropLevelNew o a levels in Ok (ct, st)
  | CMulHoisted i j hi hj => let* a := idx cts i in let* b := idx cts j in
      let form (want : bool) x ev := if want then let* (h, ev) := HoistedForm ce o x ev in Ok (Some h, ev) else Ok (None, ev) in
      let* (h0, ev) := form hi a (cs_ev st) in let* (h1, ev) := form hj b ev in
      put (MulRelinHoistedNew ce o a b h0 h1 (rs_keys (cs_rs st)) ev)
  | CConstIn i c => let* a := idx cts i in let* ct := MultByConstAt ce o None (KFloat c) a in Ok (ct, st)
  | CRescaleIn i thr => let* a := idx cts i in
      let* (e, ct, ev) := RescaleAt ce o None thr a (cs_ev st) in
      match e with None => Ok (ct, mkCs ev (cs_rs st)) | Some _ => Panic (PMsg "error returned by Rescale") end
  | CDropIn i levels => let* a := idx cts i in let* ct := DropLevel o a levels in Ok (ct, st)
  end.
(** all calls in turn; [orders n] for the n-th *)
Fixpoint execs (orders : nat -> order) (n : nat) (p : list call) (cts : list ckct) (st : cst) : res (list ckct * cst) :=
  match p with
  | [] => Ok (cts, st)
  | c :: p => let* (ct, st) := exec (orders n) c cts st in execs orders (S n) p (stored c ct cts) st
  end.
End Run.
