(** Properties C27 - C29: multiplication with relinearisation.  Vocabulary: Spec.v, Repr.v, SpecCt.v. *)
From Coq Require Import String ZArith List Bool Lia.
From Verif Require Import Spec Go Arith NegRing BasisExt RingOps Maps Params Elements KeySwitch KeySets Repr SpecCt Shipped MulThms World.
Import ListNotations.
Local Open Scope Z_scope.

(** C27 (KeySwitcher): the product's phase is the product of the phases plus w, modulo every q_j, with P*w bounded by
    mul_noise_bound; every order in which Go visits the maps, every content of the scratch space, and each operand with or
    without its hoisted form give the same ciphertext *)
Theorem C27_mul_and_relin : forall env, env_ok env -> forall g A U s r Bs Be Dm op0 op1 l0 l1 l rlks ctOut h0 h1,
  mul_setting (e_pp env) g A U s r Bs Be Dm op0 op1 l0 l1 rlks -> mul_receiver (e_pp env) op0 op1 l0 l1 l ctOut ->
  maybe_hoisted_at env l0 op0 h0 -> maybe_hoisted_at env l1 op1 h1 ->
  exists ct' w,
    pnorm_le (pa_N (e_pp env)) (pscale (bigP (e_pp env)) w)
      (mul_noise_bound (pa_N (e_pp env)) (nparties op0) (nparties op1) (Z.of_nat (Beta (e_pp env) l)) Bs Be Dm (bigP (e_pp env))) /\
    ct_ok (e_pp env) l ct' /\ reduced (e_pp env) l ct' /\ mkeys ct' = mkeys ctOut /\
    (forall j, (j <= l)%nat -> peq (pa_N (e_pp env)) (modulus (pa_Q (e_pp env)) j) (phase (pa_N (e_pp env)) s ct' j)
       (padd (pmul (pa_N (e_pp env)) (phase (pa_N (e_pp env)) s op0 j) (phase (pa_N (e_pp env)) s op1 j)) w)) /\
    forall o k, order_ok o -> pool_ok (e_pp env) k ->
      exists k', MulAndRelinHoisted env o op0 op1 h0 h1 rlks ctOut k = Ok (ct', k') /\ pool_ok (e_pp env) k'.
Proof. exact mul_correct. Qed.
Print Assumptions C27_mul_and_relin.

(** C28: plain, nil-hoisted and hoisted multiplication return the same ciphertext *)
Theorem C28_hoisted_agrees : forall env, env_ok env -> forall g A U s r Bs Be Dm op0 op1 l0 l1 l rlks ctOut h0 h1,
  mul_setting (e_pp env) g A U s r Bs Be Dm op0 op1 l0 l1 rlks -> mul_receiver (e_pp env) op0 op1 l0 l1 l ctOut ->
  hoisted_at env l op0 h0 -> hoisted_at env l op1 h1 ->
  exists ct', forall o k, order_ok o -> pool_ok (e_pp env) k ->
      (exists k', MulAndRelin env o op0 op1 rlks ctOut k = Ok (ct', k')) /\
      forall x0 x1, In x0 [None; Some h0] -> In x1 [None; Some h1] -> exists k', MulAndRelinHoisted env o op0 op1 x0 x1 rlks ctOut k = Ok (ct', k').
Proof. exact mul_same. Qed.
Print Assumptions C28_hoisted_agrees.

(** C29: digits computed at level lh, used at a lower level l, still recombine (sum of g_t * D_t) to the component modulo
    every q_j of level l *)
Theorem C29_hoist_above : forall env, env_ok env -> forall l lh op h g Dm, (l <= lh < QCount (e_pp env))%nat -> ct_ok (e_pp env) lh op ->
  hoisted_at env lh op h -> gadget (e_pp env) g -> digit_bound (e_pp env) Dm ->
  forall id, party op id -> exists s D, sget h id = Some s /\
    (forall t, (t < Beta (e_pp env) l)%nat -> (t < List.length s)%nat /\ qrep (e_pp env) l (nth t s dqp) (D t) /\ pnorm_le (pa_N (e_pp env)) (D t) Dm) /\
    forall j, (j <= l)%nat -> peq (pa_N (e_pp env)) (modulus (pa_Q (e_pp env)) j)
      (psumL (fun t => pmul (pa_N (e_pp env)) (pconst (g t)) (D t)) (seq 0 (Beta (e_pp env) l))) (limb op id j).
Proof. exact hoist_recombines. Qed.
Print Assumptions C29_hoist_above.

(** the hypotheses hold for the shipped moduli, ciphertexts of the parties "a","b" and "b" and generated keys *)
Example C27_case : exists env g A U s r rlks Dm, env_ok env /\ pa_Q (e_pp env) = shippedQ /\ pa_P (e_pp env) = shippedP /\ pa_logN (e_pp env) = 15%nat /\
  forall l0 l1, (l0 < QCount (e_pp env))%nat -> (l1 < QCount (e_pp env))%nat ->
    mul_setting (e_pp env) g A U s r 1 1 Dm (ones_ct (e_pp env) l0 ["a"; "b"]%string) (ones_ct (e_pp env) l1 ["b"]%string) l0 l1 rlks /\
    mul_receiver (e_pp env) (ones_ct (e_pp env) l0 ["a"; "b"]%string) (ones_ct (e_pp env) l1 ["b"]%string) l0 l1 (Nat.min l0 l1)
      (ones_ct (e_pp env) (Nat.min l0 l1) ["a"; "b"]%string).
Proof. exact mul_world. Qed.
