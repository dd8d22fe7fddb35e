(** Calls that write into one of their operands (property C58).
    Vocabulary: Spec.v, Repr.v, SpecKeys.v (psigma e A is A(X^e)), SpecCt.v, SpecEv.v, SpecRot.v, SpecAlias.v.  In the model (Alias.v) the
    operand [None] is the receiver itself. *)
From Coq Require Import String ZArith List Bool.
From Verif Require Import Spec Go Arith NegRing NTT RingOps Maps Params Elements KeySwitch KeySets KeyGen F64 EncDec Utils Evaluator Repr SpecKeys SpecCt SpecEnc SpecEv SpecRot SpecAlias Alias AliasThms AliasConj AliasWorld AliasMulWorld RaceWorld Shipped.
Import ListNotations.
Local Open Scope Z_scope.

(** C58: MultByConst into its own operand multiplies it by the constant *)
Theorem C58_mult_by_const : forall ce, env_ok (ce_env ce) -> let pp := e_pp (ce_env ce) in forall c ct sc l,
  (l < QCount pp)%nat -> ct_ok pp l ct -> finite c ->
  exists s cout, encoded_at (nth l (pa_Q pp) 0) [c] s /\
    (forall o, order_ok o -> MultByConstAt ce o None (KFloat c) (mkCk ct sc) = Ok (mkCk cout (fmul sc s))) /\
    ct_ok pp l cout /\ mkeys cout = mkeys ct /\
    forall sk j, (j <= l)%nat -> peq (pa_N pp) (nth j (pa_Q pp) 0) (phase (pa_N pp) sk cout j) (pscale (scaled_const c s) (phase (pa_N pp) sk ct j)).
Proof. exact const_in_place. Qed.
Print Assumptions C58_mult_by_const.
(** C58: for a constant of any type, in place or not, the word-by-word loops of the code leave what the model of C21 leaves *)
Theorem C58_mult_by_const_any : forall ce, env_ok (ce_env ce) -> let pp := e_pp (ce_env ce) in forall c o o' l,
  order_ok o -> order_ok o' -> (l < QCount pp)%nat ->
  (forall ct r, ct_ok pp l (c_ct ct) -> MultByConst ce o ct c ct = Ok r -> MultByConstAt ce o' None c ct = Ok r) /\
  (forall ct0 ct l1 r, ct_ok pp l (c_ct ct0) -> const_receiver pp (c_ct ct0) (c_ct ct) l1 -> MultByConst ce o ct0 c ct = Ok r -> MultByConstAt ce o' (Some ct0) c ct = Ok r).
Proof. exact const_any. Qed.
Print Assumptions C58_mult_by_const_any.
(** C58: Rescale into its own operand *)
Theorem C58_rescale : forall ce, env_ok (ce_env ce) -> let pp := e_pp (ce_env ce) in forall ct scale thr l n,
  (l < QCount pp)%nat -> ct_ok pp l ct -> ~ rescale_err l scale thr -> rescale_count (pa_Q pp) l scale (fdiv thr (f_of_Z 2)) n -> n <> O ->
  exists cout, rescaled pp l n ct cout /\ reduced pp (l - n) cout /\
    forall o st, order_ok o -> ev_ok pp st -> exists st', RescaleAt ce o None thr (mkCk ct scale) st = Ok (None, mkCk cout (scale_after (pa_Q pp) l scale n), st') /\ ev_ok pp st'.
Proof. exact rescale_in_place. Qed.
Print Assumptions C58_rescale.
(** C58: Rotate and RotateHoisted into their own operand *)
Theorem C58_rotate : forall env, env_ok env -> let pp := e_pp env in forall g s Bs Be Dm ct l rks k m h,
  rot_setting pp g s Bs Dm ct l -> 0 <= m -> cong (Z.of_nat (pa_N pp) / 2) k m -> rot_keys pp g Be s ct (normNeg (pa_logN pp) k) rks -> maybe_hoisted_at env l ct h ->
  exists cout, auto_result pp s l ct (5 ^ m) (step_noise pp l ct Bs Be Dm) cout /\
    forall o kp, order_ok o -> pool_ok pp kp -> exists ct' kp', RotateAt env o None k h rks ct kp = Ok (ct', kp') /\ pool_ok pp kp' /\ same_ct ct' cout.
Proof. exact rotate_in_place. Qed.
Print Assumptions C58_rotate.
(** C58: MulAndRelinHoisted into its first operand, when the hoisted form of that operand is given *)
Theorem C58_mul_hoisted : forall env, env_ok env -> forall g A U s r Bs Be Dm op0 op1 l0 l1 rlks h0 h1,
  mul_setting (e_pp env) g A U s r Bs Be Dm op0 op1 l0 l1 rlks -> (l0 <= l1)%nat -> (forall id, In id (mkeys op1) -> In id (mkeys op0)) ->
  hoisted_at env l0 op0 h0 -> maybe_hoisted_at env l1 op1 h1 ->
  exists ct' w,
    pnorm_le (pa_N (e_pp env)) (pscale (bigP (e_pp env)) w)
      (mul_noise_bound (pa_N (e_pp env)) (nparties op0) (nparties op1) (Z.of_nat (Beta (e_pp env) l0)) Bs Be Dm (bigP (e_pp env))) /\
    ct_ok (e_pp env) l0 ct' /\ mkeys ct' = mkeys op0 /\
    (forall j, (j <= l0)%nat -> peq (pa_N (e_pp env)) (modulus (pa_Q (e_pp env)) j) (phase (pa_N (e_pp env)) s ct' j)
       (padd (pmul (pa_N (e_pp env)) (phase (pa_N (e_pp env)) s op0 j) (phase (pa_N (e_pp env)) s op1 j)) w)) /\
    forall o k, order_ok o -> pool_ok (e_pp env) k ->
      exists k', MulAndRelinAt env o None (Some op1) (Some h0) h1 rlks op0 k = Ok (ct', k') /\ pool_ok (e_pp env) k'.
Proof. exact mul_in_place. Qed.
Print Assumptions C58_mul_hoisted.
(** C58: Conjugate into its own operand does not conjugate it: it returns the conjugate of the mirrored ciphertext, whose upper
    coefficients have been replaced *)
Theorem C58_conjugate_mirrors : forall env, env_ok env -> let pp := e_pp env in forall g s Bs Be Dm ct l cks,
  rot_setting pp g s Bs Dm ct l -> QCount pp = (l + 1)%nat -> conj_keys pp g Be s ct cks ->
  exists m cout, mirrored pp l ct m /\ auto_result pp s l m (-1) (step_noise pp l ct Bs Be Dm) cout /\
    forall o k, order_ok o -> pool_ok pp k -> exists ct' k', ConjugateAt env o None cks ct k = Ok (ct', k') /\ pool_ok pp k' /\ same_ct ct' cout.
Proof. exact conjugate_in_place. Qed.
Print Assumptions C58_conjugate_mirrors.
(** C58: with the shipped parameters and valid keys there is a ciphertext for which every in-place conjugation is off by more than 2^35,
    where a conjugation into a separate ciphertext is off by at most 2^17 *)
Theorem C58_conjugate_in_place_refuted : exists env g s Dm ct cks, env_ok env /\ pa_Q (e_pp env) = shippedQ /\ pa_P (e_pp env) = shippedP /\ pa_logN (e_pp env) = 15%nat /\
  rot_setting (e_pp env) g s 1 Dm ct 20 /\ conj_keys (e_pp env) g 19 s ct cks /\ step_noise (e_pp env) 20 ct 1 19 Dm <= bigP (e_pp env) * 2 ^ 17 /\
  forall o k, order_ok o -> pool_ok (e_pp env) k -> exists ct' k', ConjugateAt env o None cks ct k = Ok (ct', k') /\ ~ auto_result (e_pp env) s 20 ct (-1) (bigP (e_pp env) * 2 ^ 35) ct'.
Proof. exact conj_refuted. Qed.
Print Assumptions C58_conjugate_in_place_refuted.

(** C58: MulAndRelin into one of its operands, or of an operand with itself into that operand, does not multiply: with the shipped parameters
    and valid keys there are operands for which the result is off by more than 2^70, where a product into a separate ciphertext is off by at
    most 2^64.  For (true, true) the same holds with every valid key: C58_square_in_place_zero *)
Theorem C58_mul_in_place_refuted : forall first second : bool, first || second = true -> exists env g A U s r op0 op1 rlks, let pp := e_pp env in
  env_ok env /\ pa_Q pp = shippedQ /\ pa_P pp = shippedP /\ pa_logN pp = 15%nat /\ crs_is pp 0 A /\ (first = true -> second = true -> op0 = op1) /\
  mul_setting pp g A U s r 1 1 raceDm op0 op1 20 20 rlks /\
  mul_noise_bound (pa_N pp) (nparties op0) (nparties op1) (Z.of_nat (Beta pp 20)) 1 1 raceDm (bigP pp) <= bigP pp * 2 ^ 64 /\
  forall o k, order_ok o -> pool_ok pp k -> exists ct' k',
    MulAndRelinPlainAt env o (if first then None else Some op0) (if second then None else Some op1) rlks (if first then op0 else op1) k = Ok (ct', k') /\
    ~ exists w, pnorm_le (pa_N pp) w (2 ^ 70) /\ forall j, (j <= 20)%nat ->
        peq (pa_N pp) (modulus (pa_Q pp) j) (phase (pa_N pp) s ct' j) (padd (pmul (pa_N pp) (phase (pa_N pp) s op0 j) (phase (pa_N pp) s op1 j)) w).
Proof. exact mul_in_place_wrong. Qed.
Print Assumptions C58_mul_in_place_refuted.
(** C58: squaring in place a ciphertext whose component "0" is zero gives an encryption of zero, whatever the keys (gadget blocks of one prime,
    as in the shipped parameters): the components are overwritten before the relinearization loops read them *)
Theorem C58_square_in_place_zero : forall env, env_ok env -> forall g A U s r Bs Be Dm ct l rlks, Alpha (e_pp env) = 1%nat ->
  mul_setting (e_pp env) g A U s r Bs Be Dm ct ct l l rlks ->
  (forall j, (j <= l)%nat -> peq (pa_N (e_pp env)) (modulus (pa_Q (e_pp env)) j) (limb ct "0"%string j) pzero) ->
  forall o k, order_ok o -> pool_ok (e_pp env) k -> exists ct' k', MulAndRelinPlainAt env o None None rlks ct k = Ok (ct', k') /\ pool_ok (e_pp env) k' /\
    ct_ok (e_pp env) l ct' /\ mkeys ct' = mkeys ct /\
    forall j, (j <= l)%nat -> peq (pa_N (e_pp env)) (modulus (pa_Q (e_pp env)) j) (phase (pa_N (e_pp env)) s ct' j) pzero.
Proof. exact square_in_place_zero. Qed.
Print Assumptions C58_square_in_place_zero.
(** concrete case: shipped parameters, generated keys, a ciphertext whose square is not zero *)
Example C58_square_case : exists env g A U s r ct rlks, env_ok env /\ Alpha (e_pp env) = 1%nat /\ pa_Q (e_pp env) = shippedQ /\ pa_P (e_pp env) = shippedP /\ pa_logN (e_pp env) = 15%nat /\
  mul_setting (e_pp env) g A U s r 1 1 raceDm ct ct 20 20 rlks /\
  (forall j, (j <= 20)%nat -> peq (pa_N (e_pp env)) (modulus (pa_Q (e_pp env)) j) (limb ct "0"%string j) pzero) /\
  ~ (forall j, (j <= 20)%nat -> peq (pa_N (e_pp env)) (modulus (pa_Q (e_pp env)) j) (pmul (pa_N (e_pp env)) (phase (pa_N (e_pp env)) s ct j) (phase (pa_N (e_pp env)) s ct j)) pzero).
Proof. exact square_case. Qed.

(** concrete case: shipped moduli, party "a", a ciphertext of level 20 that holds 2^36 X; C30_case, C24_case and C27_case provide cases for the
    other hypotheses *)
Example C58_case : exists env g s cks, env_ok env /\ pa_Q (e_pp env) = shippedQ /\ pa_P (e_pp env) = shippedP /\ pa_logN (e_pp env) = 15%nat /\ pa_gamma (e_pp env) = 2%nat /\
  let ct := xct (pa_N (e_pp env)) 20 (2 ^ 36) in rot_setting (e_pp env) g s 1 raceDm ct 20 /\ conj_keys (e_pp env) g 19 s ct cks.
Proof. exact conj_world. Qed.
