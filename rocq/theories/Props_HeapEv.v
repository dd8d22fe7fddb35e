(** Evaluator calls on ciphertexts as objects in memory (property C64).
    Vocabulary: Heap.v and HeapEv.v (the memory, and the calls as programs that read and write objects through pointers), SpecHeap.v and SpecHeapEv.v
    (separate: the objects are independent and hold the given values; points, own, scratch: what the caller and the evaluator point to;
    unwritten: no call overwrites the variable), Circuit.v (the same calls on values), SpecCircuit.v (tracks, v_holds). *)
From Coq Require Import Reals String ZArith List Bool.
From Verif Require Import Spec Go Arith NegRing NTT RingOps Maps Params Elements KeySwitch KeySets KeyGen F64 EncDec Evaluator Repr SpecKeys SpecCt SpecEnc SpecEv SpecRot SpecSlots SpecLREnc Shipped EncThms EvWorld Circuit SpecCircuit CircWorld Heap SpecHeap HeapEv SpecHeapEv HeapEvThms HeapEvWorld.
Import ListNotations.

(** C64: a sequence of calls on objects panics exactly as the sequence on values does, or ends with objects that hold the values of that sequence, again
    independent of each other and of the evaluator's scratch ciphertext; variables keep their objects, a variable no call overwrites keeps its scale, and
    every object that no call overwrites (operands, and objects the caller never named) reads in every component as before *)
Theorem C64_calls : forall ce rks cks pts orders n p vars cts hst st h vals, (forall n, order_ok (orders n)) ->
  separate h vals -> own vars hst -> scratch vals hst st -> Forall2 (points vals) vars cts ->
  match execs ce rks cks pts orders n p cts st with
  | Panic e => runOnHeap (execsP ce rks cks pts orders n p vars hst) h = Panic e
  | Ok (cts', st') => exists vars' hst' h' vals', runOnHeap (execsP ce rks cks pts orders n p vars hst) h = Ok ((vars', hst'), h') /\
      separate h' vals' /\ own vars' hst' /\ scratch vals' hst' st' /\ Forall2 (points vals') vars' cts' /\
      (forall i x, nth_error vars i = Some x -> exists y, nth_error vars' i = Some y /\ hc y = hc x /\ (unwritten i p -> y = x)) /\
      (forall c, (c < length vals)%nat -> c <> he_ct (hcs_ev hst) -> (forall i x, nth_error vars i = Some x -> hc x = c -> unwritten i p) ->
         forall id, loadComp h' c id = loadComp h c id)
  end.
Proof. exact execs_objects. Qed.
Print Assumptions C64_calls.

(** C64: the operands of a sequence that returns are not modified *)
Theorem C64_operands : forall ce rks cks pts orders n p vars cts hst st h vals vars' hst' h', (forall n, order_ok (orders n)) ->
  separate h vals -> own vars hst -> scratch vals hst st -> Forall2 (points vals) vars cts ->
  runOnHeap (execsP ce rks cks pts orders n p vars hst) h = Ok ((vars', hst'), h') ->
  forall i x, nth_error vars i = Some x -> unwritten i p -> nth_error vars' i = Some x /\ forall id, loadComp h' (hc x) id = loadComp h (hc x) id.
Proof. exact operands_kept. Qed.
Print Assumptions C64_operands.

(** C64: so the sequences of C61 compute on encrypted slots when their ciphertexts are objects *)
Theorem C64_circuit : forall ce, env_ok (ce_env ce) -> let pp := e_pp (ce_env ce) in forall g A U s r Bs Be Dm ids keys rks cks,
  circ_keys pp g A U s r Bs Be Dm ids keys -> (0 < Z.of_nat (pa_N pp) / 2)%Z -> forall vpts pts, Forall2 (vp_holds pp) vpts pts ->
  forall p vs vs' cts orders n st vars hst h vals, tracks pp (ce_scale ce) g s Bs Be Dm ids rks cks vpts vs p vs' -> (forall n, order_ok (orders n)) ->
  Forall2 (v_holds pp s ids) vs cts -> circ_ok pp ids keys st -> separate h vals -> own vars hst -> scratch vals hst st -> Forall2 (points vals) vars cts ->
  exists cts' st' vars' hst' h' vals', runOnHeap (execsP ce rks cks pts orders n p vars hst) h = Ok ((vars', hst'), h') /\
    separate h' vals' /\ own vars' hst' /\ scratch vals' hst' st' /\ circ_ok pp ids keys st' /\ Forall2 (points vals') vars' cts' /\ Forall2 (v_holds pp s ids) vs' cts'.
Proof. exact circuit_objects. Qed.
Print Assumptions C64_circuit.

(** C64: every list of ciphertexts is held by the independent objects of some heap *)
Theorem C64_heaps : forall vals, (forall v, In v vals -> NoDup (mkeys v)) -> exists h, separate h vals.
Proof. exact separate_exists. Qed.
Print Assumptions C64_heaps.

(** the shipped parameters, two encryptions and the evaluator's scratch ciphertext as objects, and the sequence of C61_case *)
Example C64_case : exists ce g A U s r Dm keys rks cks st, let pp := e_pp (ce_env ce) in let N := pa_N pp in
  let err := (2 * INR N + 2 * INR N * IZR (19 * (1 + Z.of_nat N * 1 + Z.of_nat N * 1)))%R in
  env_ok (ce_env ce) /\ (0 < Z.of_nat N / 2)%Z /\ circ_keys pp g A U s r 1 19 Dm two keys /\ circ_ok pp two keys st /\ pa_Q pp = shippedQ /\ pa_P pp = shippedP /\ pa_logN pp = 15%nat /\
  forall m0 m1 m2, exists vs pt ct0 ct1 h vals vars hst, vp_holds pp (mkVp sc38 m2 (2 * INR N)) pt /\
    tracks pp (ce_scale ce) g s 1 19 Dm two rks cks [mkVp sc38 m2 (2 * INR N)] [mkV 20 sc38 m0 err; mkV 20 sc38 m1 err] case_calls vs /\
    Forall2 (v_holds pp s two) [mkV 20 sc38 m0 err; mkV 20 sc38 m1 err] [ct0; ct1] /\
    separate h vals /\ own vars hst /\ scratch vals hst st /\ Forall2 (points vals) vars [ct0; ct1] /\ unwritten 0 case_calls /\ unwritten 1 case_calls.
Proof. exact heap_world. Qed.
