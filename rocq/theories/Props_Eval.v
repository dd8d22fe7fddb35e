(** The CKKS evaluator: addition, subtraction, constants, plaintext and ciphertext products, rescaling (properties C18-C27).
    Vocabulary: Spec.v, Repr.v, SpecCt.v, SpecEnc.v, SpecEv.v, SpecHist.v.  [same_ct] is equality of Go maps. *)
From Coq Require Import Reals String ZArith List Bool.
From Verif Require Import Spec Go Arith NegRing NTT RingOps Maps Params Elements KeySwitch KeySets F64 F64Proofs EncDec Utils Evaluator Repr SpecCt SpecEnc SpecEv SpecHist EvThms ConstThms AddThms MulEvThms MulUni EvWorld HistThms World Shipped.
Import ListNotations.
Local Open Scope Z_scope.

(** C18: equal scales: phase(out) = phase(c0) + phase(c1) modulo every q_j of the common level; parties the union, level the
    minimum, scale kept; whatever the map orders and the evaluator's state *)
Theorem C18_add : forall ce, env_ok (ce_env ce) -> let pp := e_pp (ce_env ce) in forall c0 c1 s0 l0 l1,
  (l0 < QCount pp)%nat -> (l1 < QCount pp)%nat -> ct_ok pp l0 c0 -> ct_ok pp l1 c1 ->
  exists cout, combination pp (Nat.min l0 l1) padd 1 1 c0 c1 cout /\
  forall o st, order_ok o -> ev_ok pp st -> exists out st',
    AddNew ce o (mkCk c0 s0) (mkCk c1 s0) st = Ok (mkCk out s0, st') /\ same_ct out cout /\ ev_ok pp st'.
Proof. exact add_eq. Qed.
Print Assumptions C18_add.
Theorem C18_sub : forall ce, env_ok (ce_env ce) -> let pp := e_pp (ce_env ce) in forall c0 c1 s0 l0 l1,
  (l0 < QCount pp)%nat -> (l1 < QCount pp)%nat -> ct_ok pp l0 c0 -> ct_ok pp l1 c1 ->
  exists cout, combination pp (Nat.min l0 l1) psub 1 1 c0 c1 cout /\
  forall o st, order_ok o -> ev_ok pp st -> exists out st',
    SubNew ce o (mkCk c0 s0) (mkCk c1 s0) st = Ok (mkCk out s0, st') /\ same_ct out cout /\ ev_ok pp st'.
Proof. exact sub_eq. Qed.
Print Assumptions C18_sub.

(** C19: different scales: each operand is multiplied by max(1, floor(other scale / own scale)), the scale of the result is the larger *)
Theorem C19_add_aligned : forall ce, env_ok (ce_env ce) -> let pp := e_pp (ce_env ce) in forall c0 c1 s0 s1 l0 l1,
  (l0 < QCount pp)%nat -> (l1 < QCount pp)%nat -> ct_ok pp l0 c0 -> ct_ok pp l1 c1 -> comparable s0 s1 ->
  exists cout, combination pp (Nat.min l0 l1) padd (align_factor s0 s1) (align_factor s1 s0) c0 c1 cout /\
  forall o st, order_ok o -> ev_ok pp st -> exists out st',
    AddNew ce o (mkCk c0 s0) (mkCk c1 s1) st = Ok (mkCk out (if fltb s1 s0 then s0 else s1), st') /\ same_ct out cout /\ ev_ok pp st'.
Proof. exact add_new. Qed.
Print Assumptions C19_add_aligned.
Theorem C19_sub_aligned : forall ce, env_ok (ce_env ce) -> let pp := e_pp (ce_env ce) in forall c0 c1 s0 s1 l0 l1,
  (l0 < QCount pp)%nat -> (l1 < QCount pp)%nat -> ct_ok pp l0 c0 -> ct_ok pp l1 c1 -> comparable s0 s1 ->
  exists cout, combination pp (Nat.min l0 l1) psub (align_factor s0 s1) (align_factor s1 s0) c0 c1 cout /\
  forall o st, order_ok o -> ev_ok pp st -> exists out st',
    SubNew ce o (mkCk c0 s0) (mkCk c1 s1) st = Ok (mkCk out (if fltb s1 s0 then s0 else s1), st') /\ same_ct out cout /\ ev_ok pp st'.
Proof. exact sub_new. Qed.
Print Assumptions C19_sub_aligned.
(** C19: the scale s1 exactly k times s0: the first operand is multiplied by k *)
Theorem C19_integer_ratio : forall ce, env_ok (ce_env ce) -> let pp := e_pp (ce_env ce) in forall c0 c1 s0 s1 l0 l1 a k,
  (l0 < QCount pp)%nat -> (l1 < QCount pp)%nat -> ct_ok pp l0 c0 -> ct_ok pp l1 c1 ->
  fval s0 a -> fval s1 (Rmult (IZR k) a) -> Rlt 0 a -> 1 < k < 2 ^ 52 ->
  (exists cout, combination pp (Nat.min l0 l1) padd k 1 c0 c1 cout /\ forall o st, order_ok o -> ev_ok pp st -> exists out st',
    AddNew ce o (mkCk c0 s0) (mkCk c1 s1) st = Ok (mkCk out s1, st') /\ same_ct out cout /\ ev_ok pp st') /\
  (exists cout, combination pp (Nat.min l0 l1) psub k 1 c0 c1 cout /\ forall o st, order_ok o -> ev_ok pp st -> exists out st',
    SubNew ce o (mkCk c0 s0) (mkCk c1 s1) st = Ok (mkCk out s1, st') /\ same_ct out cout /\ ev_ok pp st').
Proof. exact add_multiple. Qed.
Print Assumptions C19_integer_ratio.
(** C19: scales 2 and 3 (ratio 1.5): messages 1 and 1, encrypted as 2*1 and 3*1; the sum at scale 3 is not 3*(1+1) *)
Theorem C19_ratio_refuted : forall ce, env_ok (ce_env ce) -> let pp := e_pp (ce_env ce) in 3 < nth 0 (pa_Q pp) 0 -> exists c0 c1 cout, ct_ok pp 0 c0 /\ ct_ok pp 0 c1 /\
  (forall s, peq (pa_N pp) (nth 0 (pa_Q pp) 0) (phase (pa_N pp) s c0 0) (pconst (2 * 1))) /\ (forall s, peq (pa_N pp) (nth 0 (pa_Q pp) 0) (phase (pa_N pp) s c1 0) (pconst (3 * 1))) /\
  (forall o st, order_ok o -> ev_ok pp st -> exists out st', AddNew ce o (mkCk c0 (f_of_Z 2)) (mkCk c1 (f_of_Z 3)) st = Ok (mkCk out (f_of_Z 3), st') /\ same_ct out cout) /\
  forall s, ~ peq (pa_N pp) (nth 0 (pa_Q pp) 0) (phase (pa_N pp) s cout 0) (pconst (3 * (1 + 1))).
Proof. exact add_scale_wrong. Qed.
Print Assumptions C19_ratio_refuted.

(** C20: after any two histories of evaluator calls, with any map orders, the same call has the same result: the same ciphertext and
    scale (or error, or hoisted form, or panic), for every method that uses the evaluator's state.  The hoisting pools of a key set may
    hold anything, and hoisted forms may be any hoisted forms of the operands *)
Theorem C20_history_independent : forall ce, env_ok (ce_env ce) -> forall c1 c2 st1 st2 o1 o2,
  call_ok ce c1 -> call_ok ce c2 -> same_call c1 c2 -> ev_history ce st1 -> ev_history ce st2 -> order_ok o1 -> order_ok o2 ->
  same_result (runCall ce o1 c1 st1) (runCall ce o2 c2 st2).
Proof. exact history_indep. Qed.
Print Assumptions C20_history_independent.
(** C20: all evaluator theorems of this file apply to every state of such a history *)
Theorem C20_history_states : forall ce, env_ok (ce_env ce) -> forall st, ev_history ce st -> ev_ok (e_pp (ce_env ce)) st.
Proof. exact history_ok. Qed.
Print Assumptions C20_history_states.

(** C21: a real constant c multiplies the phase by the integer scaled_const c s, s being 1 for integral c and q_l otherwise, and the
    scale by s; limbs of the receiver above the common level are left as they were *)
Theorem C21_real : forall ce, env_ok (ce_env ce) -> let pp := e_pp (ce_env ce) in forall c ct0 sc out so l0 l1,
  (l0 < QCount pp)%nat -> ct_ok pp l0 ct0 -> const_receiver pp ct0 out l1 -> finite c ->
  exists s cout, encoded_at (nth (Nat.min l0 l1) (pa_Q pp) 0) [c] s /\
    (forall o, order_ok o -> MultByConst ce o (mkCk ct0 sc) (KFloat c) (mkCk out so) = Ok (mkCk cout (fmul sc s))) /\
    ct_ok pp l1 cout /\ same_keys ct0 cout /\
    (forall sk j, (j <= Nat.min l0 l1)%nat -> peq (pa_N pp) (nth j (pa_Q pp) 0) (phase (pa_N pp) sk cout j) (pscale (scaled_const c s) (phase (pa_N pp) sk ct0 j))) /\
    (forall id j x, (Nat.min l0 l1 < j)%nat -> limb cout id j x = limb out id j x).
Proof. exact mult_real. Qed.
Print Assumptions C21_real.
(** C21: that integer is s*c up to rounding to the nearest integer and float64 rounding *)
Theorem C21_rounding : forall c s r t, fval c r -> fval s t -> (0 <= t)%R -> (t * Rabs r <= IZR (2 ^ 1000))%R ->
  (Rabs (IZR (scaled_const c s) - t * r) <= / 2 + 2 * / IZR (2 ^ 52) * (t * Rabs r + 1))%R.
Proof. exact const_rounding. Qed.
Print Assumptions C21_rounding.
(** C21: integer constants (int, int64, uint64) multiply by themselves below 2^52 *)
Theorem C21_int : forall ce, env_ok (ce_env ce) -> let pp := e_pp (ce_env ce) in forall c z ct0 sc out so l0 l1,
  (l0 < QCount pp)%nat -> ct_ok pp l0 ct0 -> const_receiver pp ct0 out l1 -> int_const c z ->
  exists cout,
    (forall o, order_ok o -> MultByConst ce o (mkCk ct0 sc) c (mkCk out so) = Ok (mkCk cout (fmul sc (f_of_Z 1)))) /\
    ct_ok pp l1 cout /\ same_keys ct0 cout /\
    (forall sk j, (j <= Nat.min l0 l1)%nat -> peq (pa_N pp) (nth j (pa_Q pp) 0) (phase (pa_N pp) sk cout j) (pscale (scaled_const (f_of_Z z) (f_of_Z 1)) (phase (pa_N pp) sk ct0 j))) /\
    (Z.abs z < 2 ^ 52 -> scaled_const (f_of_Z z) (f_of_Z 1) = z).
Proof. exact mult_int. Qed.
Print Assumptions C21_int.
(** C21: a constant of any other type (float32, int32, ...) silently gives zero *)
Theorem C21_other_types_give_zero : forall ce, env_ok (ce_env ce) -> let pp := e_pp (ce_env ce) in forall ct0 sc out so l0 l1,
  (l0 < QCount pp)%nat -> ct_ok pp l0 ct0 -> const_receiver pp ct0 out l1 ->
  exists cout, (forall o, order_ok o -> MultByConst ce o (mkCk ct0 sc) KOther (mkCk out so) = Ok (mkCk cout (fmul sc (f_of_Z 1)))) /\ ct_ok pp l1 cout /\
    forall sk j, (j <= Nat.min l0 l1)%nat -> peq (pa_N pp) (nth j (pa_Q pp) 0) (phase (pa_N pp) sk cout j) pzero.
Proof. exact mult_other. Qed.
Print Assumptions C21_other_types_give_zero.

(** C22: a complex constant a + bi: the lower half of the coefficients is multiplied by a + b*I, the upper half by a - b*I, I a
    square root of -1 modulo q_j *)
Theorem C22_complex : forall ce, env_ok (ce_env ce) -> let pp := e_pp (ce_env ce) in forall a b ct0 sc out so l0 l1,
  (l0 < QCount pp)%nat -> ct_ok pp l0 ct0 -> const_receiver pp ct0 out l1 -> finite a -> finite b ->
  exists s cout, encoded_at (nth (Nat.min l0 l1) (pa_Q pp) 0) [a; b] s /\
    (forall o, order_ok o -> MultByConst ce o (mkCk ct0 sc) (KComplex a b) (mkCk out so) = Ok (mkCk cout (fmul sc s))) /\
    ct_ok pp l1 cout /\ same_keys ct0 cout /\
    (forall id j, In id (mkeys ct0) -> (j <= Nat.min l0 l1)%nat ->
       peq (pa_N pp) (nth j (pa_Q pp) 0) (limb cout id j) (half_scaled (pa_N pp) (scaled_const a s + scaled_const b s * root4 pp j) (scaled_const a s - scaled_const b s * root4 pp j) (limb ct0 id j))).
Proof. exact mult_complex. Qed.
Print Assumptions C22_complex.
(** C22: it is not multiplication: for every ring of degree above 1 a ciphertext of 1 times i does not become X^(N/2) *)
Theorem C22_complex_refuted : forall ce, env_ok (ce_env ce) -> let pp := e_pp (ce_env ce) in forall (sc : f64) (sk : string -> zpoly), (1 < pa_N pp)%nat -> exists ct cout : ciphertext,
  ct_ok pp 0 ct /\ peq (pa_N pp) (nth 0 (pa_Q pp) 0) (phase (pa_N pp) sk ct 0) pone /\
  (forall o, order_ok o -> MultByConst ce o (mkCk ct sc) (KComplex f0 (f_of_Z 1)) (mkCk ct sc) = Ok (mkCk cout (fmul sc (f_of_Z 1)))) /\
  ~ peq (pa_N pp) (nth 0 (pa_Q pp) 0) (phase (pa_N pp) sk cout 0) (pmul (pa_N pp) (cplx (pa_N pp) 0 1) (phase (pa_N pp) sk ct 0)).
Proof. exact mult_complex_wrong. Qed.
Print Assumptions C22_complex_refuted.

(** C23: with n the number of moduli Rescale drops: phase(out) is M*phase(ct) divided by them with remainder w, |w| bounded; independent of the
    evaluator's history and of the map orders *)
Theorem C23_mul_plaintext : forall ce, env_ok (ce_env ce) -> let pp := e_pp (ce_env ce) in forall ct sc pt ptScale M l lp n,
  (l < QCount pp)%nat -> ct_ok pp l ct -> p_ntt pt = false -> plaintext_is pp lp pt M -> (l <= lp)%nat ->
  rescale_steps (pa_Q pp) l (fmul sc ptScale) (ce_scale ce) n ->
  exists cout, ct_ok pp (l - n) cout /\ reduced pp (l - n) cout /\ same_keys cout ct /\
    (forall s Bs, secrets_le pp s Bs ct -> exists w, pnorm_le (pa_N pp) w (rescale_noise (pa_N pp) (nparties ct) Bs (dropped (pa_Q pp) l n)) /\
       divided pp l n (fun j => pmul (pa_N pp) M (phase (pa_N pp) s ct j)) w (phase (pa_N pp) s cout)) /\
    forall o st, order_ok o -> ev_ok pp st -> exists out st', MulPtxtNew ce o (mkCk ct sc) pt ptScale st = Ok (out, st') /\ same_ct (c_ct out) cout /\
      c_scale out = scale_after (pa_Q pp) l (fmul sc ptScale) n /\ ev_ok pp st'.
Proof. exact mul_ptxt. Qed.
Print Assumptions C23_mul_plaintext.
(** C23: otherwise (the product of the scales exceeds the whole modulus) it panics *)
Theorem C23_panics : forall ce, env_ok (ce_env ce) -> let pp := e_pp (ce_env ce) in forall ct sc pt ptScale M l lp o st,
  (l < QCount pp)%nat -> ct_ok pp l ct -> p_ntt pt = false -> plaintext_is pp lp pt M -> (l <= lp)%nat ->
  ~ (exists n, rescale_steps (pa_Q pp) l (fmul sc ptScale) (ce_scale ce) n) -> order_ok o -> ev_ok pp st -> MulPtxtNew ce o (mkCk ct sc) pt ptScale st = Panic PIndex.
Proof. exact mul_ptxt_panics. Qed.
Print Assumptions C23_panics.

(** C24: the number of divisions, the rounded division component by component, and what it means for the decryption *)
Theorem C24_rescale : forall ce, env_ok (ce_env ce) -> let pp := e_pp (ce_env ce) in forall cin scale thr l n,
  (l < QCount pp)%nat -> ct_ok pp l cin -> ~ rescale_err l scale thr -> rescale_count (pa_Q pp) l scale (fdiv thr (f_of_Z 2)) n -> n <> O ->
  exists cout, rescaled pp l n cin cout /\ reduced pp (l - n) cout /\
    (forall s Bs, secrets_le pp s Bs cin -> exists w, pnorm_le (pa_N pp) w (rescale_noise (pa_N pp) (nparties cin) Bs (dropped (pa_Q pp) l n)) /\
       divided pp l n (phase (pa_N pp) s cin) w (phase (pa_N pp) s cout)) /\
    forall o st, order_ok o -> ev_ok pp st -> exists out st', RescaleNew ce o (mkCk cin scale) thr st = Ok (None, out, st') /\ same_ct (c_ct out) cout /\
      c_scale out = scale_after (pa_Q pp) l scale n /\ ev_ok pp st'.
Proof. exact rescale_new. Qed.
Print Assumptions C24_rescale.
(** C24: the same for Rescale into a given receiver of the same parties and level *)
Theorem C24_rescale_into : forall ce, env_ok (ce_env ce) -> let pp := e_pp (ce_env ce) in forall cin scale thr out so l n,
  (l < QCount pp)%nat -> ct_ok pp l cin -> ct_ok pp l out -> same_keys out cin -> ~ rescale_err l scale thr -> rescale_count (pa_Q pp) l scale (fdiv thr (f_of_Z 2)) n -> n <> O ->
  exists cout, rescaled pp l n cin cout /\ reduced pp (l - n) cout /\
    forall o st, order_ok o -> ev_ok pp st -> exists st', Rescale ce o (mkCk cin scale) thr (mkCk out so) st = Ok (None, mkCk cout (scale_after (pa_Q pp) l scale n), st') /\ ev_ok pp st'.
Proof. exact rescale_into. Qed.
Print Assumptions C24_rescale_into.

(** C25: no division: RescaleNew returns a ciphertext of zeros *)
Theorem C25_rescale_new_zero : forall ce, env_ok (ce_env ce) -> let pp := e_pp (ce_env ce) in forall cin scale thr l,
  (l < QCount pp)%nat -> ct_ok pp l cin -> rescale_steps (pa_Q pp) l scale thr 0 ->
  forall o st, order_ok o -> ev_ok pp st -> exists e out st', RescaleNew ce o (mkCk cin scale) thr st = Ok (e, out, st') /\
    all_zero pp l (c_ct out) /\ same_keys (c_ct out) cin /\ c_scale out = scale /\ (e = None <-> ~ rescale_err l scale thr) /\ ev_ok pp st'.
Proof. exact rescale_new_zero. Qed.
Print Assumptions C25_rescale_new_zero.

(** C26: RescaleNew returns, at a level between 0 and the input's, or panics with an index out of range; the panic happens exactly
    when every modulus down to q_0 can be divided out *)
Theorem C26_rescale_panics : forall ce, env_ok (ce_env ce) -> let pp := e_pp (ce_env ce) in forall cin scale thr l o st,
  (l < QCount pp)%nat -> ct_ok pp l cin -> order_ok o -> ev_ok pp st ->
  let exhausted := fleb thr f0 = false /\ feqb scale f0 = false /\ l <> O /\ forall i, (1 <= i <= l + 1)%nat -> fleb (fdiv thr (f_of_Z 2)) (scale_after (pa_Q pp) l scale i) = true in
  (exhausted -> RescaleNew ce o (mkCk cin scale) thr st = Panic PIndex) /\
  (~ exhausted -> exists n e out st', RescaleNew ce o (mkCk cin scale) thr st = Ok (e, out, st') /\ (n <= l)%nat /\ rescale_steps (pa_Q pp) l scale thr n /\ ct_ok pp (l - n) (c_ct out) /\ ev_ok pp st').
Proof. exact rescale_total. Qed.
Print Assumptions C26_rescale_panics.

(** C27: MulRelinNew (squaring through the shared pool when [same]): the decryption is the product of the decryptions plus bounded
    noise, divided by the dropped moduli; it panics exactly when the scale exceeds the whole modulus.  The result is one ciphertext for
    all evaluator states, pools and map orders, and MulRelinHoistedNew with hoisted forms of both operands returns it too *)
Theorem C27_mul_relin_new : forall ce, env_ok (ce_env ce) -> let pp := e_pp (ce_env ce) in forall g A U s r Bs Be Dm op0 op1 sc0 sc1 l0 l1 rlks,
  mul_setting pp g A U s r Bs Be Dm op0 op1 l0 l1 rlks ->
  let ready (same : bool) rs o st := rs_keys rs = rlks /\ hoist_ready pp (rs_h0 rs) op0 /\ (if same then op1 = op0 else hoist_ready pp (rs_h1 rs) op1) /\ order_ok o /\ ev_ok pp st in
  let run same rs o st := MulRelinNew ce o same (mkCk op0 sc0) (mkCk op1 sc1) rs st in
  (forall n, rescale_steps (pa_Q pp) (Nat.min l0 l1) (fmul sc0 sc1) (ce_scale ce) n ->
     exists cout, mul_result pp s Bs Be Dm op0 op1 (Nat.min l0 l1) n (fmul sc0 sc1) cout /\
     (forall same rs o st, ready same rs o st -> exists out rs' st', run same rs o st = Ok (out, rs', st') /\ same_ct (c_ct out) (c_ct cout) /\ c_scale out = c_scale cout /\ ev_ok pp st' /\
       rs_keys rs' = rs_keys rs /\ (forall c, hoist_ready pp (rs_h0 rs) c -> hoist_ready pp (rs_h0 rs') c) /\ (forall c, hoist_ready pp (rs_h1 rs) c -> hoist_ready pp (rs_h1 rs') c)) /\
     forall h0 h1 o st, hoisted_at (ce_env ce) l0 op0 h0 -> hoisted_at (ce_env ce) l1 op1 h1 -> order_ok o -> ev_ok pp st ->
       exists out st', MulRelinHoistedNew ce o (mkCk op0 sc0) (mkCk op1 sc1) (Some h0) (Some h1) rlks st = Ok (out, st') /\ same_ct (c_ct out) (c_ct cout) /\ c_scale out = c_scale cout /\ ev_ok pp st') /\
  (~ (exists n, rescale_steps (pa_Q pp) (Nat.min l0 l1) (fmul sc0 sc1) (ce_scale ce) n) -> forall same rs o st, ready same rs o st -> run same rs o st = Panic PIndex).
Proof. exact mul_relin_u. Qed.
Print Assumptions C27_mul_relin_new.
(** C27: the pools of every key set built with AddRelinearizationKey are ready *)
Theorem C27_key_set_ready : forall pp L ct, (forall id, party ct id -> In id (mkeys (rs_keys (keyset_of pp L)))) -> hoist_ready pp (rs_h0 (keyset_of pp L)) ct /\ hoist_ready pp (rs_h1 (keyset_of pp L)) ct.
Proof. exact keyset_ready. Qed.
Print Assumptions C27_key_set_ready.

(** concrete cases: the shipped moduli and scale, ciphertexts of the parties "a","b" and "b" with generated keys *)
Example C18_case : exists ce st rs g A U s r Dm, env_ok (ce_env ce) /\ ce_scale ce = sc38 /\ ev_ok (e_pp (ce_env ce)) st /\ pa_Q (e_pp (ce_env ce)) = shippedQ /\ pa_P (e_pp (ce_env ce)) = shippedP /\ pa_logN (e_pp (ce_env ce)) = 15%nat /\
  forall l0 l1, (0 < l0 < QCount (e_pp (ce_env ce)))%nat -> (0 < l1 < QCount (e_pp (ce_env ce)))%nat ->
    mul_setting (e_pp (ce_env ce)) g A U s r 1 1 Dm (ones_ct (e_pp (ce_env ce)) l0 ["a"; "b"]%string) (ones_ct (e_pp (ce_env ce)) l1 ["b"]%string) l0 l1 (rs_keys rs) /\
    hoist_ready (e_pp (ce_env ce)) (rs_h0 rs) (ones_ct (e_pp (ce_env ce)) l0 ["a"; "b"]%string) /\ hoist_ready (e_pp (ce_env ce)) (rs_h1 rs) (ones_ct (e_pp (ce_env ce)) l1 ["b"]%string) /\
    rescale_steps (pa_Q (e_pp (ce_env ce))) (Nat.min l0 l1) (fmul sc38 sc38) (ce_scale ce) 1.
Proof. exact ev_world. Qed.
Example C19_case : comparable sc38 (f_of_Z (2 ^ 39)) /\ fval sc38 (IZR (2 ^ 38)) /\ fval (f_of_Z (2 ^ 39)) (Rmult (IZR 2) (IZR (2 ^ 38))).
Proof. exact (conj comparable_case scales_case). Qed.
Example C20_case : exists ce st1 st2 st3 rs rs' out out', env_ok (ce_env ce) /\ pa_Q (e_pp (ce_env ce)) = shippedQ /\ pa_P (e_pp (ce_env ce)) = shippedP /\ pa_logN (e_pp (ce_env ce)) = 15%nat /\
  let call rs := CMulRelin false (mkCk (ones_ct (e_pp (ce_env ce)) 20 ["a"; "b"]%string) sc38) (mkCk (ones_ct (e_pp (ce_env ce)) 20 ["b"]%string) sc38) rs in
  ev_history ce st1 /\ ev_history ce st2 /\ ev_history ce st3 /\ call_ok ce (call rs) /\ call_ok ce (call rs') /\ same_call (call rs) (call rs') /\
  runCall ce o_id (call rs) st1 = Ok (out, st2) /\ runCall ce o_id (call rs') st2 = Ok (out', st3).
Proof. exact history_world. Qed.
Example C24_case : forall l, (0 < l < 21)%nat -> rescale_steps shippedQ l (fmul sc38 sc38) sc38 1.
Proof. exact steps38. Qed.
Example C25_case : rescale_steps shippedQ 2 sc38 sc38 0.
Proof. exact kept_case. Qed.
Example C26_case : let s := f_of_Z (2 ^ 200) in fleb sc38 f0 = false /\ feqb s f0 = false /\ 2%nat <> O /\
  forall i, (1 <= i <= 3)%nat -> fleb (fdiv sc38 (f_of_Z 2)) (scale_after shippedQ 2 s i) = true.
Proof. exact exhausted_case. Qed.
