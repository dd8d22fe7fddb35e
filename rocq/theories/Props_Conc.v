(** C49: goroutines that multiply with one RelinearizationKeySet. *)
From Coq Require Import String ZArith List Bool.
From Verif Require Import Spec Go Lattigo NegRing NTT RingOps Maps Params Elements KeySwitch KeySets F64 EncDec Evaluator Repr SpecCt SpecEnc SpecEv Shipped EvWorld Conc SpecConc ConcProofs RaceProofs ConcRace RaceWorld.
Import ListNotations.
Local Open Scope Z_scope.
Local Open Scope list_scope.

(** C49: any number of goroutines call MulRelinNew, each on its own Evaluator, all with one RelinearizationKeySet.  In every schedule where a
    goroutine makes steps only while no other goroutine with a party in common is inside its call (in particular in every sequential
    schedule, and in every schedule at all when the calls have no party in common): no goroutine panics, whatever a goroutine returns is
    the product of its own operands, and a goroutine that has made enough steps has returned. *)
Theorem C49_orderly : forall ce g A U s r Bs Be Dm rs l0 l1 n calls evs sched, env_ok (ce_env ce) ->
  (forall i, call_ok ce g A U s r Bs Be Dm rs (l0 i) (l1 i) (n i) (calls i)) -> (forall i, ev_ok (e_pp (ce_env ce)) (evs i)) ->
  let w := mkWorld rs (fun i => mkThread (calls i) CStart (evs i)) in orderly ce w sched ->
  forall i, (forall p, t_pc (w_t (crun ce sched w) i) <> CPanic p) /\
    (forall out, t_pc (w_t (crun ce sched w) i) = CRet out -> product_of ce s Bs Be Dm (l0 i) (l1 i) (n i) (calls i) out) /\
    ((length (mkeys (c_ct (cc_op0 (calls i)))) + length (mkeys (c_ct (cc_op1 (calls i)))) + 4 <= count_occ Nat.eq_dec sched i)%nat ->
     exists out, t_pc (w_t (crun ce sched w) i) = CRet out).
Proof. intros ce g A U s r Bs Be Dm rs l0 l1 n calls evs sched He HC Hev. exact (orderly_correct ce He g A U s r Bs Be Dm rs l0 l1 n calls HC evs sched Hev). Qed.
Print Assumptions C49_orderly.

(** C49: the steps of a goroutine, made without interruption, are the call: they return what MulRelinNew returns and leave the key set and
    the Evaluator as MulRelinNew leaves them, or panic as it does. *)
Theorem C49_alone : forall ce i w c ev, order_ok (cc_o c) -> w_t w i = mkThread c CStart ev -> exists k, let w' := crun ce (repeat i k) w in
  (forall j, j <> i -> w_t w' j = w_t w j) /\
  match MulRelinNew ce (cc_o c) (cc_same c) (cc_op0 c) (cc_op1 c) (w_rs w) ev with
  | Ok (out, rs', ev') => w_rs w' = rs' /\ w_t w' i = mkThread c (CRet out) ev'
  | Panic p => t_pc (w_t w' i) = CPanic p
  end.
Proof. exact alone. Qed.
Print Assumptions C49_alone.

(** C49: whatever two goroutines i and j multiply, operands of the same parties and levels, some schedule makes i's multiplication read the
    digits j has written: both calls return normally, i's with its own product in which the product of the parties' parts is that of
    j's operands. *)
Theorem C49_race_effect : forall ce g A U s r Bs Be Dm rs l0 l1 n calls evs i j, env_ok (ce_env ce) ->
  (forall k, call_ok ce g A U s r Bs Be Dm rs (l0 k) (l1 k) (n k) (calls k)) -> (forall k, ev_ok (e_pp (ce_env ce)) (evs k)) -> i <> j ->
  cc_same (calls i) = false -> cc_same (calls j) = false -> l0 j = l0 i -> l1 j = l1 i ->
  (forall id, In id (mkeys (c_ct (cc_op0 (calls j)))) <-> In id (mkeys (c_ct (cc_op0 (calls i))))) ->
  (forall id, In id (mkeys (c_ct (cc_op1 (calls j)))) <-> In id (mkeys (c_ct (cc_op1 (calls i))))) ->
  exists sched outi outj, let w := crun ce sched (mkWorld rs (fun k => mkThread (calls k) CStart (evs k))) in
    t_pc (w_t w i) = CRet outi /\ t_pc (w_t w j) = CRet outj /\
    mixed_result (e_pp (ce_env ce)) s Bs Be Dm (c_ct (cc_op0 (calls i))) (c_ct (cc_op1 (calls i))) (c_ct (cc_op0 (calls j))) (c_ct (cc_op1 (calls j)))
      (Nat.min (l0 i) (l1 i)) (n i) (fmul (c_scale (cc_op0 (calls i))) (c_scale (cc_op1 (calls i)))) outi /\
    product_of ce s Bs Be Dm (l0 j) (l1 j) (n j) (calls j) outj.
Proof. intros ce g A U s r Bs Be Dm rs l0 l1 n calls evs i j He HC. exact (race_effect ce He g A U s r Bs Be Dm rs l0 l1 n calls HC evs i j). Qed.
Print Assumptions C49_race_effect.

(** C49: with the shipped parameters there are two calls (and a schedule where both return normally) such that the result of one is not
    the product of its operands: no orderly schedule returns it.  Some orderly schedule lets both return. *)
Theorem C49_race_refuted : exists ce g A U s r rs st sched outi outj, let pp := e_pp (ce_env ce) in
  env_ok (ce_env ce) /\ ce_scale ce = sc38 /\ pa_Q pp = shippedQ /\ pa_P pp = shippedP /\ pa_logN pp = 15%nat /\ ev_ok pp st /\
  (forall i, call_ok ce g A U s r 1 1 raceDm rs 20 20 1 (rcalls (pa_N pp) i)) /\
  let w0 := mkWorld rs (fun i => mkThread (rcalls (pa_N pp) i) CStart st) in
  t_pc (w_t (crun ce sched w0) 0%nat) = CRet outi /\ t_pc (w_t (crun ce sched w0) 1%nat) = CRet outj /\
  ~ product_of ce s 1 1 raceDm 20 20 1 (rcalls (pa_N pp) 0) outi /\
  (forall sched', orderly ce w0 sched' -> t_pc (w_t (crun ce sched' w0) 0%nat) <> CRet outi) /\
  exists sched' a b, orderly ce w0 sched' /\ t_pc (w_t (crun ce sched' w0) 0%nat) = CRet a /\ t_pc (w_t (crun ce sched' w0) 1%nat) = CRet b.
Proof. exact race_wrong_seq. Qed.
Print Assumptions C49_race_refuted.

(** the hypotheses of the theorems above hold with the shipped parameters, for goroutines that multiply different ciphertexts of one party,
    and for a schedule in which two of them return *)
Example C49_case : exists ce g A U s r rs st, env_ok (ce_env ce) /\ pa_Q (e_pp (ce_env ce)) = shippedQ /\ pa_P (e_pp (ce_env ce)) = shippedP /\ ev_ok (e_pp (ce_env ce)) st /\
  (forall i, call_ok ce g A U s r 1 1 raceDm rs 20 20 1 (rcalls (pa_N (e_pp (ce_env ce))) i)) /\
  let w0 := mkWorld rs (fun i => mkThread (rcalls (pa_N (e_pp (ce_env ce))) i) CStart st) in
  exists sched a b, orderly ce w0 sched /\ t_pc (w_t (crun ce sched w0) 0%nat) = CRet a /\ t_pc (w_t (crun ce sched w0) 1%nat) = CRet b.
Proof.
  destruct race_wrong_seq as (ce & g & A & U & s & r & rs & st & sched & oi & oj & H1 & _ & H2 & H3 & _ & H4 & H5 & _ & _ & _ & _ & H6).
  exists ce, g, A, U, s, r, rs, st. cbv zeta in *. auto 10.
Qed.
