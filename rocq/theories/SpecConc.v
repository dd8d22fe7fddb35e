(** When goroutines that share a RelinearizationKeySet do not disturb each other.  Definitions only. *)
From Coq Require Import String ZArith List Bool.
From Verif Require Import Spec Go Arith NegRing NTT RingOps Maps Params Elements KeySwitch KeySets F64 EncDec Evaluator Repr SpecCt SpecEnc SpecEv Conc.
Import ListNotations.

(** id is a party of one of the call's operands *)
Definition involves (c : ccall) (id : string) : Prop := party (c_ct (cc_op0 c)) id \/ party (c_ct (cc_op1 c)) id.
(** the calls have no party in common *)
Definition apart (c c' : ccall) : Prop := forall id, involves c id -> ~ involves c' id.
(** the call has not begun, or is over *)
Definition at_rest (pc : cpc) : Prop := match pc with CStart | CRet _ | CPanic _ => True | _ => False end.
(** in the schedule a goroutine makes steps only while every other goroutine with a common party is at rest *)
Inductive orderly (ce : ckenv) : cworld -> list nat -> Prop :=
| ord_nil w : orderly ce w []
| ord_cons w i l : (forall j, j <> i -> apart (t_call (w_t w i)) (t_call (w_t w j)) \/ at_rest (t_pc (w_t w j))) -> orderly ce (cstep ce i w) l -> orderly ce w (i :: l).
(** the operands of a call with the keys of its parties, levels l0 and l1; n divisions follow the multiplication; the pools have
    places for the parties *)
Record call_ok (ce : ckenv) (g : nat -> Z) (A U : nat -> zpoly) (s r : string -> zpoly) (Bs Be Dm : Z) (rs : rlkpool) (l0 l1 n : nat) (c : ccall) : Prop := {
  co_set : mul_setting (e_pp (ce_env ce)) g A U s r Bs Be Dm (c_ct (cc_op0 c)) (c_ct (cc_op1 c)) l0 l1 (rs_keys rs);
  co_same : cc_same c = true -> cc_op1 c = cc_op0 c;
  co_h0 : hoist_ready (e_pp (ce_env ce)) (rs_h0 rs) (c_ct (cc_op0 c)); co_h1 : hoist_ready (e_pp (ce_env ce)) (rs_h1 rs) (c_ct (cc_op1 c));
  co_ord : order_ok (cc_o c);
  co_steps : rescale_steps (pa_Q (e_pp (ce_env ce))) (Nat.min l0 l1) (fmul (c_scale (cc_op0 c)) (c_scale (cc_op1 c))) (ce_scale ce) n }.
(** out is the product of the call's operands (with the errors of a multiplication) *)
Definition product_of (ce : ckenv) (s : string -> zpoly) (Bs Be Dm : Z) (l0 l1 n : nat) (c : ccall) (out : ckct) : Prop :=
  mul_result (e_pp (ce_env ce)) s Bs Be Dm (c_ct (cc_op0 c)) (c_ct (cc_op1 c)) (Nat.min l0 l1) n (fmul (c_scale (cc_op0 c)) (c_scale (cc_op1 c))) out.

(** ** what an interleaving computes *)
(** the part of the phase that comes from the parties' components *)
Definition mask (N : nat) (s : string -> zpoly) (ct : ciphertext) (j : nat) : zpoly := psub (phase N s ct j) (limb ct "0"%string j).
(** op0 times op1, with the masks of u and v in place of their own in the product of the masks *)
Definition mixed (N : nat) (s : string -> zpoly) (op0 op1 u v : ciphertext) (j : nat) : zpoly :=
  padd (psub (pmul N (phase N s op0 j) (phase N s op1 j)) (pmul N (mask N s op0 j) (mask N s op1 j))) (pmul N (mask N s u j) (mask N s v j)).
(** [mul_result] with the mixed product in place of the product *)
Definition mixed_result (pp : params) (s : string -> zpoly) (Bs Be Dm : Z) (op0 op1 u v : ciphertext) (l n : nat) (sc : f64) (out : ckct) : Prop :=
  let D := dropped (pa_Q pp) l n in exists w w',
    ct_ok pp (l - n) (c_ct out) /\ reduced pp (l - n) (c_ct out) /\ (forall id, In id (mkeys (c_ct out)) <-> In id (mkeys op0) \/ In id (mkeys op1)) /\
    c_scale out = scale_after (pa_Q pp) l sc n /\
    pnorm_le (pa_N pp) (pscale (bigP pp) w) (mul_noise_bound (pa_N pp) (nparties op0) (nparties op1) (Z.of_nat (Beta pp l)) Bs Be Dm (bigP pp)) /\
    pnorm_le (pa_N pp) w' (rescale_noise (pa_N pp) (nparties (c_ct out)) Bs D) /\
    divided pp l n (fun j => padd (mixed (pa_N pp) s op0 op1 u v j) w) w' (phase (pa_N pp) s (c_ct out)).
