(** mkckks/evaluator.go add and sub (unexported) with a receiver that may be one of the operands.  As in Alias.v an operand is [Some ct], an object distinct from the
    receiver, or [None], the receiver itself. *)
From Coq Require Import ZArith List String Bool.
From Verif Require Import Go Lattigo F64 NTT RingOps Maps Params Elements KeySwitch EncDec Utils Evaluator Alias.
Import ListNotations.
Local Open Scope Z_scope.
Open Scope go_scope.

Section Add.
Context (ce : ckenv).
Notation pp := (e_pp (ce_env ce)).
Notation rQ := (ringQ pp).
Definition isNone {A} (x : option A) : bool := match x with None => true | Some _ => false end.
(** math.Floor(a/b) as a constant *)
Definition ratioK (a b : f64) : gconst := KFloat (ffloor (fdiv a b)).
(** evaluator.go:200-304 evaluateInPlace.  The scales are read before anything is written (lines 212-214); DropLevel (lines 216-218) and the multiplications into the
    receiver (lines 232, 256) change an operand that is the receiver.  MultByConst sets the Scale of a temporary struct; only SetScalingFactor (lines 234, 258) changes
    the scale of the receiver.  The last component of tmp0 and tmp1 is None when they are the receiver's polynomials. *)
Definition evaluateAt (f : nat -> poly -> poly -> poly -> res poly) (o : order) (src0 src1 : option ckct) (ctOut : ckct) (st : evst) : res (ckct * evst) :=
  let s0 := c_scale (rd src0 ctOut) in
  let s1 := c_scale (rd src1 ctOut) in
  let* ids0 := ctIDSet o (c_ct (rd src0 ctOut)) in
  let* ids1 := ctIDSet o (c_ct (rd src1 ctOut)) in
  let* ids := idUnion o ids0 ids1 in
  let* pool := PadCiphertext o (ev_ct st) ids in
  let st := set_ct pool st in
  let* l0 := ctLevel (c_ct (rd src0 ctOut)) in
  let* l1 := ctLevel (c_ct (rd src1 ctOut)) in
  let* lo := ctLevel (c_ct ctOut) in
  let level := Nat.min (Nat.min l0 l1) lo in
  let* ctOut := if (level <? lo)%nat then DropLevel o ctOut (lo - Nat.min l0 l1) else Ok ctOut in
  let intoPool (c : option ckct) (k : gconst) := MultByConst ce o (rd c ctOut) k (mkCk (ev_ct st) (c_scale ctOut)) in
  let* (tmp0, tmp1, ctOut, st) :=
    if isNone src0 then
      if ratioAbove s0 s1 then let* t := intoPool src1 (ratioK s0 s1) in Ok (None, Some (c_ct t), ctOut, set_ct (c_ct t) st)
      else if ratioAbove s1 s0 then let* r := MultByConstAt ce o None (ratioK s1 s0) ctOut in Ok (None, option_map c_ct src1, mkCk (c_ct r) s1, st)
      else Ok (None, option_map c_ct src1, ctOut, st)
    else if isNone src1 then
      if ratioAbove s1 s0 then let* t := intoPool src0 (ratioK s1 s0) in Ok (Some (c_ct t), None, ctOut, set_ct (c_ct t) st)
      else if ratioAbove s0 s1 then let* r := MultByConstAt ce o None (ratioK s0 s1) ctOut in Ok (option_map c_ct src0, None, mkCk (c_ct r) s0, st)
      else Ok (option_map c_ct src0, None, ctOut, st)
    else
      if ratioAbove s1 s0 then let* t := intoPool src0 (ratioK s1 s0) in Ok (Some (c_ct t), option_map c_ct src1, ctOut, set_ct (c_ct t) st)
      else if ratioAbove s0 s1 then let* t := intoPool src1 (ratioK s0 s1) in Ok (option_map c_ct src0, Some (c_ct t), ctOut, set_ct (c_ct t) st)
      else Ok (option_map c_ct src0, option_map c_ct src1, ctOut, st) in
  let out := c_ct ctOut in
  let* a0 := sptr (rd tmp0 out) "0"%string in
  let* b0 := sptr (rd tmp1 out) "0"%string in
  let* out := ctUpd out "0"%string (fun p => f level a0 b0 p) in
  let* oids := ctIDSet o out in
  let* out := foldM (fun out id =>
      if negb (idHas ids0 id) then let* b := sptr (rd tmp1 out) id in ctUpd out id (fun p => CopyValuesLvl rQ level b p)
      else if negb (idHas ids1 id) then let* a := sptr (rd tmp0 out) id in ctUpd out id (fun p => CopyValuesLvl rQ level a p)
      else let* a := sptr (rd tmp0 out) id in let* b := sptr (rd tmp1 out) id in ctUpd out id (fun p => f level a b p))
    (o 2%nat (mkeys oids)) out in
  Ok (mkCk out (c_scale ctOut), st).
(** evaluator.go:316-319 add *)
Definition addAt (o : order) (src0 src1 : option ckct) (ctOut : ckct) (st : evst) : res (ckct * evst) := evaluateAt (AddLvl rQ) o src0 src1 ctOut st.
(** evaluator.go:329-343 sub *)
Definition subAt (o : order) (src0 src1 : option ckct) (ctOut : ckct) (st : evst) : res (ckct * evst) :=
  let* (ctOut, st) := evaluateAt (SubLvl rQ) o src0 src1 ctOut st in
  let* l0 := ctLevel (c_ct (rd src0 ctOut)) in
  let* l1 := ctLevel (c_ct (rd src1 ctOut)) in
  let* lo := ctLevel (c_ct ctOut) in
  let level := Nat.min (Nat.min l0 l1) lo in
  let* ids0 := ctIDSet o (c_ct (rd src0 ctOut)) in
  let* oids := ctIDSet o (c_ct ctOut) in
  let* out := foldM (fun out id => if negb (idHas ids0 id) then ctUpd out id (fun p => NegLvl rQ level p p) else Ok out)
    (o 3%nat (mkeys oids)) (c_ct ctOut) in
  Ok (mkCk out (c_scale ctOut), st).
End Add.
