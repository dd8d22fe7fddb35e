(** Several goroutines that call MulRelinNew, each on its own Evaluator, with one RelinearizationKeySet.  The key set's two hoisting pools are
    shared memory: every call writes the digits of its operands' components there before it reads them back. *)
From Coq Require Import String ZArith List Bool Arith.
From Verif Require Import Go Maps Params Elements KeySwitch KeySets F64 EncDec Evaluator.
Import ListNotations.

(** mkckks/evaluator.go:416: the arguments of a call; [cc_o] is the iteration order of its map ranges *)
Record ccall := mkCall { cc_o : order; cc_same : bool; cc_op0 : ckct; cc_op1 : ckct }.
(** where a call is in evaluator.go:416-443: not started, decomposing op0's (line 423 or 433) or op1's (line 437) remaining components,
    before the hoisted multiplication (line 426 or 440), returned, panicked *)
Inductive cpc := CStart | CDec0 (todo : list string) | CDec1 (todo : list string) | CMul | CRet (out : ckct) | CPanic (p : panic).
Record cthread := mkThread { t_call : ccall; t_pc : cpc; t_ev : evst }.
(** the key set and the goroutines *)
Record cworld := mkWorld { w_rs : rlkpool; w_t : nat -> cthread }.

Section Conc.
Context (ce : ckenv).
(** evaluator.go:416-443, one step of one goroutine.  Simplification: the decomposition of one component (one call of Decompose) and
    the whole hoisted multiplication are single steps; the steps of the code are finer.  The map of the pool is only read, its
    entries are overwritten in place. *)
Definition callStep (c : ccall) (pc : cpc) (rs : rlkpool) (ev : evst) : res (cpc * rlkpool * evst) :=
  match pc with
  | CStart => let* ids0 := ctIDSet (cc_o c) (c_ct (cc_op0 c)) in Ok (CDec0 (cc_o c 1%nat (mkeys ids0)), rs, ev)
  | CDec0 (id :: todo) =>
      let* (h0, ev) := hoistInto ce [id] (cc_op0 c) (rs_h0 rs) ev in Ok (CDec0 todo, mkRlkSet (rs_keys rs) h0 (rs_h1 rs), ev)
  | CDec0 [] =>
      if cc_same c then Ok (CMul, rs, ev)
      else let* ids1 := ctIDSet (cc_o c) (c_ct (cc_op1 c)) in Ok (CDec1 (cc_o c 2%nat (mkeys ids1)), rs, ev)
  | CDec1 (id :: todo) =>
      let* (h1, ev) := hoistInto ce [id] (cc_op1 c) (rs_h1 rs) ev in Ok (CDec1 todo, mkRlkSet (rs_keys rs) (rs_h0 rs) h1, ev)
  | CDec1 [] => Ok (CMul, rs, ev)
  | CMul =>
      let* (ct, ev) := MulRelinHoistedNew ce (cc_o c) (cc_op0 c) (cc_op1 c) (Some (rs_h0 rs)) (Some (if cc_same c then rs_h0 rs else rs_h1 rs)) (rs_keys rs) ev in
      Ok (CRet ct, rs, ev)
  | CRet _ | CPanic _ => Ok (pc, rs, ev)
  end.
(** goroutine i makes a step *)
Definition cstep (i : nat) (w : cworld) : cworld :=
  let t := w_t w i in
  let upd t' := fun j => if Nat.eqb j i then t' else w_t w j in
  match callStep (t_call t) (t_pc t) (w_rs w) (t_ev t) with
  | Ok (pc, rs, ev) => mkWorld rs (upd (mkThread (t_call t) pc ev))
  | Panic p => mkWorld (w_rs w) (upd (mkThread (t_call t) (CPanic p) (t_ev t)))
  end.
(** the goroutines of a schedule make their steps in turn *)
Definition crun (sched : list nat) (w : cworld) : cworld := fold_left (fun w i => cstep i w) sched w.
End Conc.
