(** Rescaling when lattigo's DivRoundByLastModulusLvl also overwrites the last limb of its operand: mkckks/evaluator.go Rescale and RescaleNew.
    [cl p l] is what it leaves in the limb l of modulus p; any function.  An operand is [Some a], or [None] for the destination itself (as in Alias.v). *)
From Coq Require Import ZArith List String Bool.
From Verif Require Import Go Lattigo Arith F64 BasisExt NTT RingOps Maps Params Elements KeySwitch KeySets KeyGen EncDec Utils Evaluator Alias.
Import ListNotations.
Local Open Scope Z_scope.
Open Scope go_scope.

Section C.
Context (cl : Z -> list Z -> list Z).
(** lattigo Ring.DivRoundByLastModulusLvl (recalled); the new operand and the new destination *)
Definition DivRoundC (r : ringd) (level : nat) (src : option poly) (dst : poly) : res (option poly * poly) :=
  let* p := idx (r_mods r) level in
  let* xl := idx (p_co (rd src dst)) level in
  let* d := DivRoundByLastModulusLvl r level (rd src dst) dst in
  Ok (match src with Some a => (Some (setLimb a level (cl p xl)), d) | None => (None, setLimb d level (cl p xl)) end).
(** lattigo Ring.DivRoundByLastModulusManyLvl (recalled), the steps between the pool and the destination *)
Fixpoint divRoundLoopC (r : ringd) (level n : nat) (pool dst : poly) : res (poly * poly) :=
  match n with
  | O => Ok (pool, dst)
  | S O => let* (s, dst) := DivRoundC r level (Some pool) dst in Ok (rd s pool, dst)
  | S n => let* (_, pool) := DivRoundC r level None pool in divRoundLoopC r (level - 1) n pool dst
  end.
(** the whole of it: the new operand, pool and destination *)
Definition DivRoundManyC (r : ringd) (level nb : nat) (src : option poly) (pool dst : poly) : res (option poly * poly * poly) :=
  match nb with
  | O => let* dst := CopyValuesLvl r level (rd src dst) dst in Ok (src, pool, dst)
  | S O => let* (src, dst) := DivRoundC r level src dst in Ok (src, pool, dst)
  | S n =>
      let* (s, pool) := DivRoundC r level (Some (rd src dst)) pool in
      let a := rd s (rd src dst) in
      let dst := match src with Some _ => dst | None => a end in
      let* (pool, dst) := divRoundLoopC r (level - 1) n pool dst in
      Ok (option_map (fun _ => a) src, pool, dst)
  end.
Context (ce : ckenv).
Notation pp := (e_pp (ce_env ce)).
Notation cp := (mkCkp pp (ce_scale ce)).
(** mkckks/evaluator.go:359-398 Rescale; the result also holds the operand after the call ([None]: the receiver) *)
Definition RescaleC (o : order) (src : option ckct) (minScale : f64) (ctOut : ckct) (st : evst) : res (option rerr * option ckct * ckct * evst) :=
  let ctIn := rd src ctOut in
  if fleb minScale f0 then Ok (Some EMinScale, src, ctOut, st) else
  if feqb (c_scale ctIn) f0 then Ok (Some EScale0, src, ctOut, st) else
  let* level := ctLevel (c_ct ctIn) in
  if Nat.eqb level 0 then Ok (Some ELevel0, src, ctOut, st) else
  let* (scale, nb) := rescaleLoop ce level (c_scale ctIn) (fdiv minScale (f_of_Z 2)) in
  if Nat.eqb nb 0 then Ok (None, src, mkCk (c_ct ctOut) scale, st) else
  let* (cin, out, q) := foldM (fun '(cin, out, q) i =>
      let* a := (match cin with Some c => let* a := sptr c i in Ok (Some a) | None => Ok None end) in
      let* p := sptr out i in
      let* (a, q, p) := DivRoundManyC (ringQ pp) level nb a q p in
      let* p := pTrunc (level + 1 - nb) p in
      Ok (match cin, a with Some c, Some a => Some (sset c i a) | _, _ => cin end, sset out i p, q)) (o 0%nat (mkeys (c_ct ctOut))) (option_map c_ct src, c_ct ctOut, ev_q st) in
  Ok (None, match src, cin with Some ct, Some c => Some (mkCk c (c_scale ct)) | _, _ => src end, mkCk out scale, set_q q st).
(** mkckks/evaluator.go:406-411 RescaleNew; the operand after the call comes second *)
Definition RescaleNewC (o : order) (ct0 : ckct) (threshold : f64) (st : evst) : res (option rerr * ckct * ckct * evst) :=
  let* ids := ctIDSet o (c_ct ct0) in
  let* l := ctLevel (c_ct ct0) in
  let* (e, ct, out, st) := RescaleC o (Some ct0) threshold (ckNewCiphertext o cp ids l (c_scale ct0)) st in
  Ok (e, rd ct ct0, out, st).
End C.
(** the overwritten limb as lattigo v2.3.0 writes it (recalled): (p-1)/2 is added to every word modulo p *)
Definition addHalf (p : Z) (l : list Z) : list Z := map (fun x => (x + (p - 1) / 2) mod p) l.
