(** C76: how random bits become secret keys, with which probabilities, and where the errors are cut. *)
From Coq Require Import String ZArith List SpecFloat.
From Verif Require Import Spec Go F64 NegRing NTT RingOps Params Elements KeySwitch KeySets KeyGen Repr SpecKeys Shipped Samplers SpecSamplers SamplersProofs.
Import ListNotations.
Local Open Scope Z_scope.

(** C76: whatever the bits, GenSecretKey does not panic and gives the key of the polynomial whose coefficient i is 0, 1 or -1 as the i-th pair of bits says; no coefficient is a negative zero
    (which would be the word q) *)
Theorem C76_key : forall pp, params_ok pp -> bound_ok pp 1 -> forall d id, length d = pa_N pp -> exists sk, GenSecretKey pp d id = Ok sk /\ sk_ID sk = id /\ sk_is pp sk (fun i => nth i (coefficients (ternary d)) 0) /\
  pnorm_le (pa_N pp) (fun i => nth i (coefficients (ternary d)) 0) 1 /\ (forall c, In (false, c) (ternary d) -> 0 < c) /\ forall i, nth i (coefficients (ternary d)) 0 = match nth_error d i with Some (true, false) => 1 | Some (true, true) => -1 | _ => 0 end.
Proof. exact key_thm. Qed.
Print Assumptions C76_key.

(** C76: outcomes n has every list of n pairs of bits exactly once *)
Theorem C76_outcomes : forall n, NoDup (outcomes n) /\ forall d, In d (outcomes n) <-> length d = n.
Proof. exact (fun n => conj (outcomes_nodup n) (outcomes_in n)). Qed.
Print Assumptions C76_outcomes.

(** C76: of the 4^n outcomes, 2^z give a ternary polynomial with z zeros: the coefficients are independent, with probabilities 1/4, 1/2, 1/4 *)
Theorem C76_joint : forall n t, length t = n -> Forall (fun x => x = -1 \/ x = 0 \/ x = 1) t ->
  outcomes_with n (fun d => same (coefficients (ternary d)) t) = 2 ^ zeros t /\ outcomes_with n (fun _ => true) = 4 ^ Z.of_nat n.
Proof. exact joint_thm. Qed.
Print Assumptions C76_joint.
Example C76_joint_case : outcomes_with 3 (fun d => same (coefficients (ternary d)) [0; -1; 0]) = 4 /\ outcomes_with 3 (fun _ => true) = 64.
Proof. vm_compute. auto. Qed.

(** C76: each coefficient is 0 in half of the outcomes, 1 in a quarter and -1 in a quarter *)
Theorem C76_marginal : forall n i v, (i < n)%nat -> v = -1 \/ v = 0 \/ v = 1 ->
  outcomes_with n (fun d => Z.eqb (nth i (coefficients (ternary d)) 5) v) * (if v =? 0 then 2 else 4) = outcomes_with n (fun _ => true).
Proof. exact marginal_thm. Qed.
Print Assumptions C76_marginal.

(** C76: so no value has probability 1/3, which the comment of GenSecretKey (keygen.go:57) says *)
Theorem C76_not_thirds : forall n i v, (i < n)%nat -> 3 * outcomes_with n (fun d => Z.eqb (nth i (coefficients (ternary d)) 5) v) <> outcomes_with n (fun _ => true).
Proof. exact third_thm. Qed.
Print Assumptions C76_not_thirds.

(** C76: the default sigma is the float64 nearest to 3.2; with it the errors are cut at 19, and both 19 and the ternary bound are small for the shipped moduli *)
Theorem C76_cut : (exists m, DefaultSigma = S754_finite false m (-51) /\ 2 ^ 52 <= Zpos m < 2 ^ 53 /\ 2 * Z.abs (5 * Zpos m - 16 * 2 ^ 51) <= 5) /\ errBound DefaultSigma = 19 /\ forall pp, pa_Q pp = shippedQ -> pa_P pp = shippedP -> bound_ok pp (errBound DefaultSigma) /\ bound_ok pp 1.
Proof. exact bound_thm. Qed.
Print Assumptions C76_cut.

(** a case: four pairs of bits *)
Example C76_case : coefficients (ternary [(true, false); (false, true); (true, true); (false, false)]) = [1; 0; -1; 0] /\ fmul (f_of_Z 6) DefaultSigma <> f_of_Z 19.
Proof. vm_compute. split; [reflexivity|discriminate]. Qed.
(** a case: the shipped parameters, any bits *)
Example C76_key_case : forall d id, length d = pa_N shipped -> exists sk, GenSecretKey shipped d id = Ok sk.
Proof. intros d id H. destruct (C76_key shipped shipped_ok (proj2 (proj2 (proj2 C76_cut) shipped eq_refl eq_refl)) d id H) as (sk & E & _). exists sk. exact E. Qed.
