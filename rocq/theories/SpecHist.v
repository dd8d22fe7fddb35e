(** Calls of the exported methods of an Evaluator, and the states it can be in after any sequence of them.  Definitions only. *)
From Coq Require Import String ZArith List.
From Verif Require Import Spec Go Arith NegRing NTT RingOps Maps Params Elements KeySwitch KeySets F64 EncDec Utils Evaluator Repr SpecCt SpecEnc SpecEv SpecRot.
Import ListNotations.
Local Open Scope Z_scope.

(** a method with its arguments (MultByConst and DropLevel do not use the evaluator's state); what a relinearization key set passes is the keys and two pools for hoisted forms *)
Inductive evcall :=
| CAdd (c0 c1 : ckct) | CSub (c0 c1 : ckct)
| CRescale (c : ckct) (threshold : f64) | CRescaleTo (c : ckct) (threshold : f64) (out : ckct)
| CMulPtxt (c : ckct) (pt : poly) (ptScale : f64)
| CMulRelin (same : bool) (op0 op1 : ckct) (rs : rlkpool)
| CMulRelinHoisted (op0 op1 : ckct) (h0 h1 : option hoisted) (rlks : rlkset)
| CRotate (c : ckct) (k : Z) (rks : rotset)
| CRotateHoisted (c : ckct) (k : Z) (h : hoisted) (rks : rotset)
| CConjugate (c : ckct) (cks : conjset)
| CHoistedForm (c : ckct).
(** what it returns: a ciphertext (for Rescale the receiver, with an error), or a hoisted form *)
Inductive evout := OCt (e : option rerr) (c : ckct) | OHoisted (h : hoisted).
Definition runCall (ce : ckenv) (o : order) (c : evcall) (st : evst) : res (evout * evst) :=
  match c with
  | CAdd c0 c1 => bind (AddNew ce o c0 c1 st) (fun '(c, st) => Ok (OCt None c, st))
  | CSub c0 c1 => bind (SubNew ce o c0 c1 st) (fun '(c, st) => Ok (OCt None c, st))
  | CRescale c thr => bind (RescaleNew ce o c thr st) (fun '(e, c, st) => Ok (OCt e c, st))
  | CRescaleTo c thr out => bind (Rescale ce o c thr out st) (fun '(e, c, st) => Ok (OCt e c, st))
  | CMulPtxt c pt sc => bind (MulPtxtNew ce o c pt sc st) (fun '(c, st) => Ok (OCt None c, st))
  | CMulRelin same op0 op1 rs => bind (MulRelinNew ce o same op0 op1 rs st) (fun '(c, _, st) => Ok (OCt None c, st))
  | CMulRelinHoisted op0 op1 h0 h1 rlks => bind (MulRelinHoistedNew ce o op0 op1 h0 h1 rlks st) (fun '(c, st) => Ok (OCt None c, st))
  | CRotate c k rks => bind (RotateNew ce o c k rks st) (fun '(c, st) => Ok (OCt None c, st))
  | CRotateHoisted c k h rks => bind (RotateHoistedNew ce o c k h rks st) (fun '(c, st) => Ok (OCt None c, st))
  | CConjugate c cks => bind (ConjugateNew ce o c cks st) (fun '(c, st) => Ok (OCt None c, st))
  | CHoistedForm c => bind (HoistedForm ce o c st) (fun '(h, st) => Ok (OHoisted h, st))
  end.

(** a well-formed ciphertext of some level *)
Definition wf_ct (pp : params) (ct : ciphertext) : Prop := exists l, (l < QCount pp)%nat /\ ct_ok pp l ct.
(** scales that AddNew and SubNew can align *)
Definition wf_scales (s0 s1 : f64) : Prop := s0 = s1 \/ comparable s0 s1.
(** well-formed arguments: ciphertexts, and for the key-switching methods keys (of any secrets, with errors of any size) for all parties and
    hoisted forms of the operands.  The result of MulPtxt, MulRelin and Rescale may still be a panic (C23, C26, C27) *)
Definition call_ok (ce : ckenv) (c : evcall) : Prop :=
  let env := ce_env ce in let pp := e_pp env in
  match c with
  | CAdd c0 c1 | CSub c0 c1 => wf_ct pp (c_ct c0) /\ wf_ct pp (c_ct c1) /\ wf_scales (c_scale c0) (c_scale c1)
  | CRescale c _ | CHoistedForm c => wf_ct pp (c_ct c)
  | CRescaleTo c _ out => exists l, (l < QCount pp)%nat /\ ct_ok pp l (c_ct c) /\ ct_ok pp l (c_ct out) /\ same_keys (c_ct out) (c_ct c)
  | CMulPtxt c pt _ => exists l lp M, (l < QCount pp)%nat /\ ct_ok pp l (c_ct c) /\ p_ntt pt = false /\ plaintext_is pp lp pt M /\ (l <= lp)%nat
  | CMulRelin same op0 op1 rs => exists g A U s r Bs Be Dm l0 l1, mul_setting pp g A U s r Bs Be Dm (c_ct op0) (c_ct op1) l0 l1 (rs_keys rs) /\
      hoist_ready pp (rs_h0 rs) (c_ct op0) /\ (if same then c_ct op1 = c_ct op0 else hoist_ready pp (rs_h1 rs) (c_ct op1))
  | CMulRelinHoisted op0 op1 h0 h1 rlks => exists g A U s r Bs Be Dm l0 l1, mul_setting pp g A U s r Bs Be Dm (c_ct op0) (c_ct op1) l0 l1 rlks /\
      maybe_hoisted_at env l0 (c_ct op0) h0 /\ maybe_hoisted_at env l1 (c_ct op1) h1
  | CRotate c k rks => exists g s Bs Be Dm l n, rot_setting pp g s Bs Dm (c_ct c) l /\ rot_ready pp g Be s (c_ct c) rks (k mod (Z.of_nat (pa_N pp) / 2)) n
  | CRotateHoisted c k h rks => exists g s Bs Be Dm l, rot_setting pp g s Bs Dm (c_ct c) l /\ hoisted_at env l (c_ct c) h /\
      (k mod (Z.of_nat (pa_N pp) / 2) = 0 \/ rot_keys pp g Be s (c_ct c) (k mod (Z.of_nat (pa_N pp) / 2)) rks)
  | CConjugate c cks => exists g s Bs Be Dm l, rot_setting pp g s Bs Dm (c_ct c) l /\ QCount pp = (l + 1)%nat /\ conj_keys pp g Be s (c_ct c) cks
  end.
(** the states of an Evaluator: as NewEvaluator returns it, and after every call that returned *)
Inductive ev_history (ce : ckenv) : evst -> Prop :=
| H_new o lz st : order_ok o -> NewEvaluator o lz (mkCkp (e_pp (ce_env ce)) (ce_scale ce)) = (ce, st) -> ev_history ce st
| H_call st o c out st' : ev_history ce st -> order_ok o -> call_ok ce c -> runCall ce o c st = Ok (out, st') -> ev_history ce st'.

(** the same call: equal arguments, but the pools of the key set may hold anything, and hoisted forms may be different objects *)
Definition same_call (c c' : evcall) : Prop :=
  match c, c' with
  | CMulRelin _ op0 op1 rs, CMulRelin _ op0' op1' rs' => op0 = op0' /\ op1 = op1' /\ rs_keys rs = rs_keys rs'
  | CMulRelinHoisted op0 op1 h0 h1 rlks, CMulRelinHoisted op0' op1' h0' h1' rlks' => op0 = op0' /\ op1 = op1' /\ rlks = rlks' /\ (h0 = None <-> h0' = None) /\ (h1 = None <-> h1' = None)
  | CRotateHoisted ct k _ rks, CRotateHoisted ct' k' _ rks' => ct = ct' /\ k = k' /\ rks = rks'
  | _, _ => c = c'
  end.
(** equal results: equal Go maps with equal entries and equal scales, or the same panic *)
Definition same_evout (a b : evout) : Prop :=
  match a, b with
  | OCt e c, OCt e' c' => e = e' /\ same_ct (c_ct c) (c_ct c') /\ c_scale c = c_scale c'
  | OHoisted h, OHoisted h' => forall id, sget h id = sget h' id
  | _, _ => False
  end.
Definition same_result (a b : res (evout * evst)) : Prop :=
  match a, b with Ok (x, _), Ok (y, _) => same_evout x y | Panic e, Panic e' => e = e' | _, _ => False end.
