(** C67: Rescale and RescaleNew when lattigo's division overwrites the last limb of its operand (mkckks/evaluator.go:359-411). *)
From Coq Require Import String ZArith List.
From Verif Require Import Spec Go Lattigo NegRing F64 NTT RingOps Maps Params Elements KeySwitch KeyGen EncDec Utils Evaluator Repr SpecCt SpecEnc SpecEv SpecClobber Clobber ClobberThms.
Import ListNotations.
Local Open Scope Z_scope.

(** in place, whatever is left in the limb, the result is the rescaled ciphertext, for all orders and pools *)
Theorem C67_in_place : forall ce, env_ok (ce_env ce) -> let pp := e_pp (ce_env ce) in forall ct scale thr l n,
  (l < QCount pp)%nat -> ct_ok pp l ct -> ~ rescale_err l scale thr -> rescale_count (pa_Q pp) l scale (fdiv thr (f_of_Z 2)) n -> n <> O ->
  exists cout, rescaled pp l n ct cout /\ reduced pp (l - n) cout /\
    forall cl o st, order_ok o -> ev_ok pp st -> exists st', RescaleC cl ce o None thr (mkCk ct scale) st = Ok (None, None, mkCk cout (scale_after (pa_Q pp) l scale n), st') /\ ev_ok pp st'.
Proof. exact in_place_C. Qed.
Print Assumptions C67_in_place.
(** into another ciphertext: the same result; the operand keeps all limbs but its last *)
Theorem C67_into : forall ce, env_ok (ce_env ce) -> let pp := e_pp (ce_env ce) in forall cin scale thr out so l n,
  (l < QCount pp)%nat -> ct_ok pp l cin -> ct_ok pp l out -> same_keys out cin -> ~ rescale_err l scale thr -> rescale_count (pa_Q pp) l scale (fdiv thr (f_of_Z 2)) n -> n <> O ->
  exists cout, rescaled pp l n cin cout /\ reduced pp (l - n) cout /\
    forall cl o st, order_ok o -> ev_ok pp st -> exists cin' st', RescaleC cl ce o (Some (mkCk cin scale)) thr (mkCk out so) st = Ok (None, Some (mkCk cin' scale), mkCk cout (scale_after (pa_Q pp) l scale n), st') /\
      overwritten (pa_Q pp) cl l cin cin' /\ ev_ok pp st'.
Proof. exact into_C. Qed.
Print Assumptions C67_into.
Theorem C67_new : forall ce, env_ok (ce_env ce) -> let pp := e_pp (ce_env ce) in forall cin scale thr l n,
  (l < QCount pp)%nat -> ct_ok pp l cin -> ~ rescale_err l scale thr -> rescale_count (pa_Q pp) l scale (fdiv thr (f_of_Z 2)) n -> n <> O ->
  exists cout, rescaled pp l n cin cout /\ reduced pp (l - n) cout /\
    forall cl o st, order_ok o -> ev_ok pp st -> exists cin' out st', RescaleNewC cl ce o (mkCk cin scale) thr st = Ok (None, mkCk cin' scale, out, st') /\ same_ct (c_ct out) cout /\
      c_scale out = scale_after (pa_Q pp) l scale n /\ overwritten (pa_Q pp) cl l cin cin' /\ ev_ok pp st'.
Proof. exact new_C. Qed.
Print Assumptions C67_new.
(** a call that divides nothing leaves its operand as it was *)
Theorem C67_new_kept : forall ce, env_ok (ce_env ce) -> let pp := e_pp (ce_env ce) in forall cin scale thr l,
  (l < QCount pp)%nat -> ct_ok pp l cin -> rescale_steps (pa_Q pp) l scale thr 0 ->
  forall cl o st, order_ok o -> ev_ok pp st -> exists e out st', RescaleNewC cl ce o (mkCk cin scale) thr st = Ok (e, mkCk cin scale, out, st') /\ all_zero pp l (c_ct out) /\ ev_ok pp st'.
Proof. exact new_kept. Qed.
Print Assumptions C67_new_kept.
(** with (q-1)/2 added to the words of the limb, the operand decrypts as before below its last limb; in the last limb it does so only for secrets
    whose sum with 1, multiplied by the polynomial of ones, is 0 *)
Theorem C67_half : forall ce, env_ok (ce_env ce) -> let pp := e_pp (ce_env ce) in forall l ct ct' s,
  (l < QCount pp)%nat -> ct_ok pp l ct -> overwritten (pa_Q pp) addHalf l ct ct' ->
  (forall j, (j < l)%nat -> phase (pa_N pp) s ct' j = phase (pa_N pp) s ct j) /\
  peq (pa_N pp) (nth l (pa_Q pp) 0) (phase (pa_N pp) s ct' l) (padd (phase (pa_N pp) s ct l) (pscale ((nth l (pa_Q pp) 0 - 1) / 2) (ones_phase (pa_N pp) s ct))) /\
  (peq (pa_N pp) (nth l (pa_Q pp) 0) (phase (pa_N pp) s ct' l) (phase (pa_N pp) s ct l) <-> peq (pa_N pp) (nth l (pa_Q pp) 0) (ones_phase (pa_N pp) s ct) pzero).
Proof. exact half_phase. Qed.
Print Assumptions C67_half.
(** a call after which the operand has another phase under every secret *)
Theorem C67_operand_refuted : exists ce o st ct ct' out st', env_ok (ce_env ce) /\ order_ok o /\ ev_ok (e_pp (ce_env ce)) st /\ ct_ok (e_pp (ce_env ce)) 3 (c_ct ct) /\
  rescale_steps (pa_Q (e_pp (ce_env ce))) 3 (c_scale ct) (f_of_Z 1) 1 /\ RescaleNewC addHalf ce o ct (f_of_Z 1) st = Ok (None, ct', out, st') /\
  forall s, ~ peq (pa_N (e_pp (ce_env ce))) (nth 3 (pa_Q (e_pp (ce_env ce))) 0) (phase (pa_N (e_pp (ce_env ce))) s (c_ct ct') 3) (phase (pa_N (e_pp (ce_env ce))) s (c_ct ct) 3).
Proof. exact clobber_case. Qed.
Print Assumptions C67_operand_refuted.

(** ** case: one component at level 3 of the moduli 97, 113, 193, 241, words 1, 1, 1 and 200, scale 241, threshold 1: 42/241 in the receiver, the operand's limb 3 becomes 79s *)
Example C67_case : let (ce, st) := NewEvaluator (fun _ l => l) (fun _ _ _ => false) (mkCkp (Shipped.toy 2) (f_of_Z 1)) in
  match RescaleNewC addHalf ce (fun _ l => l) case_ct (f_of_Z 1) st with
  | Ok (None, ct', out, _) => c_ct ct' = [("0"%string, mkPoly false [repeat 1 8; repeat 1 8; repeat 1 8; repeat 79 8])] /\ c_ct out = [("0"%string, mkPoly false [repeat 69 8; repeat 48 8; repeat 25 8])]
  | _ => False end.
Proof. vm_compute. split; reflexivity. Qed.
