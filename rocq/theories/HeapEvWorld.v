(** Heaps with given ciphertexts; circuits on objects. *)
From Coq Require Import Reals String ZArith List Lia Bool Permutation.
From Verif Require Import Spec Go GoProofs Lattigo Arith NegRing NTT RingOps RingOpsProofs Maps MapsProofs F64 Params Elements KeySwitch KeySets KeyGen EncDec Evaluator Repr SpecKeys SpecCt SpecEnc SpecEv SpecRot SpecSlots SpecLREnc Shipped EncThms EvWorld Alias Circuit SpecCircuit CircProofs CircEnc CircWorld Heap SpecHeap HeapProofs HeapEv SpecHeapEv HeapEvSim HeapEvVals HeapEvCalls HeapEvThms.
Import ListNotations.
Local Open Scope list_scope.

Lemma separate_empty : separate emptyHeap [].
Proof. constructor; try (intros c; intros; destruct c; discriminate). reflexivity. Qed.
Lemma separate_more h vals v : separate h vals -> NoDup (mkeys v) -> exists h', separate h' (vals ++ [v]).
Proof.
  intros S N. set (P := Alloc (fun c => foldP (fun _ id => let+ p := lift (sptr v id) in Put c id p (Ret tt)) (mkeys v) tt)).
  assert (R : runOnVals P vals = Ok (tt, vals ++ [v])).
  { unfold P. rewrite run_alloc. rewrite (fold_out _ (fun w id => let* p := sptr v id in Ok (sset w id p))).
    - match goal with |- bind ?m _ = _ => replace m with (Ok v) by (symmetry; exact (rebuild v N)) end. cbn [bind]. now rewrite lset_app_r.
    - intros w x. rewrite run_bind, run_lift. destruct (sptr v x); cbn [bind]; [|reflexivity]. now rewrite (HeapEvVals.run_put _ _ _ _ _ _ _ (fresh_slot vals)). }
  pose proof (simulation P h vals S) as X. rewrite R in X. destruct X as (h' & _ & X). eauto.
Qed.
Theorem separate_exists vals : (forall v, In v vals -> NoDup (mkeys v)) -> exists h, separate h vals.
Proof.
  induction vals as [|v vals IH] using rev_ind; intros H; [exists emptyHeap; exact separate_empty|]. destruct IH as [h S]; [intros w Hw; apply H; apply in_or_app; now left|]. apply (separate_more h vals v S). apply H. apply in_or_app. right. now left.
Qed.

Section Run.
Context (ce : ckenv) (rks : rotset) (cks : conjset) (pts : list (poly * f64)).
Theorem operands_kept orders n p vars cts hst st h vals vars' hst' h' : (forall n, order_ok (orders n)) -> separate h vals -> own vars hst -> scratch vals hst st -> Forall2 (points vals) vars cts ->
  runOnHeap (execsP ce rks cks pts orders n p vars hst) h = Ok ((vars', hst'), h') ->
  forall i x, nth_error vars i = Some x -> unwritten i p -> nth_error vars' i = Some x /\ forall id, loadComp h' (hc x) id = loadComp h (hc x) id.
Proof.
  intros Ho S O SC F R i x Hi U. pose proof (execs_objects ce rks cks pts orders n p vars cts hst st h vals Ho S O SC F) as X. destruct (execs _ _ _ _ _ _ _ _ _) as [[cts' st']|]; [|congruence].
  destruct X as (vars1 & hst1 & h1 & vals1 & R1 & _ & _ & _ & _ & A & K). rewrite R in R1. injection R1 as <- <- <-. destruct (A i x Hi) as (y & Hy & _ & Ey). rewrite (Ey U) in Hy. split; [exact Hy|].
  apply K.
  - apply Forall2_nth in F as [FL F]. destruct (nth_error cts i) as [z|] eqn:Ez; [|apply nth_error_None in Ez; apply nth_lt in Hi; lia]. destruct (F _ _ _ Hi Ez) as [X _]. eapply nth_lt; eauto.
  - unfold own in O. apply NoDup_cons_iff in O as [O _]. intros X. apply O. rewrite <- X. apply in_map. eapply nth_error_In; eauto.
  - intros j y' Hj Ej. replace j with i; [exact U|]. unfold own in O. apply NoDup_cons_iff in O as [_ O]. apply (proj1 (NoDup_nth_error _) O); [rewrite map_length; eapply nth_lt; eauto|]. rewrite !nth_error_map, Hi, Hj. cbn. now rewrite Ej.
Qed.
End Run.

Theorem circuit_objects : forall ce, env_ok (ce_env ce) -> let pp := e_pp (ce_env ce) in forall g A U s r Bs Be Dm ids keys rks cks,
  circ_keys pp g A U s r Bs Be Dm ids keys -> (0 < Z.of_nat (pa_N pp) / 2)%Z -> forall vpts pts, Forall2 (vp_holds pp) vpts pts ->
  forall p vs vs' cts orders n st vars hst h vals, tracks pp (ce_scale ce) g s Bs Be Dm ids rks cks vpts vs p vs' -> (forall n, order_ok (orders n)) ->
  Forall2 (v_holds pp s ids) vs cts -> circ_ok pp ids keys st -> separate h vals -> own vars hst -> scratch vals hst st -> Forall2 (points vals) vars cts ->
  exists cts' st' vars' hst' h' vals', runOnHeap (execsP ce rks cks pts orders n p vars hst) h = Ok ((vars', hst'), h') /\
    separate h' vals' /\ own vars' hst' /\ scratch vals' hst' st' /\ circ_ok pp ids keys st' /\ Forall2 (points vals') vars' cts' /\ Forall2 (v_holds pp s ids) vs' cts'.
Proof.
  intros ce He pp g A U s r Bs Be Dm ids keys rks cks HK Hh vpts pts Hp p vs vs' cts orders n st vars hst h vals HT Ho HF HC S O SC HP.
  destruct (run_circuit ce He g A U s r Bs Be Dm ids keys rks cks HK Hh vpts pts Hp p vs vs' cts orders n st HT Ho HF HC) as (cts' & st' & R & HC' & HF').
  pose proof (execs_objects ce rks cks pts orders n p vars cts hst st h vals Ho S O SC HP) as X. rewrite R in X. destruct X as (vars' & hst' & h' & vals' & X1 & X2 & X3 & X4 & X5 & _).
  exists cts', st', vars', hst', h', vals'. repeat (split; [assumption|]). assumption.
Qed.

Theorem heap_world : exists ce g A U s r Dm keys rks cks st, let pp := e_pp (ce_env ce) in let N := pa_N pp in
  let err := (2 * INR N + 2 * INR N * IZR (19 * (1 + Z.of_nat N * 1 + Z.of_nat N * 1)))%R in
  env_ok (ce_env ce) /\ (0 < Z.of_nat N / 2)%Z /\ circ_keys pp g A U s r 1 19 Dm two keys /\ circ_ok pp two keys st /\ pa_Q pp = shippedQ /\ pa_P pp = shippedP /\ pa_logN pp = 15%nat /\
  forall m0 m1 m2, exists vs pt ct0 ct1 h vals vars hst, vp_holds pp (mkVp sc38 m2 (2 * INR N)) pt /\
    tracks pp (ce_scale ce) g s 1 19 Dm two rks cks [mkVp sc38 m2 (2 * INR N)] [mkV 20 sc38 m0 err; mkV 20 sc38 m1 err] case_calls vs /\
    Forall2 (v_holds pp s two) [mkV 20 sc38 m0 err; mkV 20 sc38 m1 err] [ct0; ct1] /\
    separate h vals /\ own vars hst /\ scratch vals hst st /\ Forall2 (points vals) vars [ct0; ct1] /\ unwritten 0 case_calls /\ unwritten 1 case_calls.
Proof.
  destruct circ_world as (ce & g & A & U & s & r & Dm & keys & rks & cks & pk & e & a & on & st & H). cbv zeta in H. destruct H as (H1 & H2 & H3 & H4 & H5 & H6 & H7 & _ & _ & _ & _ & _ & _ & _ & _ & _ & _ & _ & HC & HP & HT & _).
  exists ce, g, A, U, s, r, Dm, keys, rks, cks, st. cbv zeta. repeat (split; [assumption|]). intros m0 m1 m2. destruct (HC m0) as [ct0 C0]. destruct (HC m1) as [ct1 C1]. destruct (HP m2) as [pt P2]. destruct (HT m0 m1 m2) as [vs T].
  set (vals := [ev_ct (cs_ev st); c_ct ct0; c_ct ct1]). assert (ND : forall v, In v vals -> NoDup (mkeys v)).
  { intros v [<-|[<-|[<-|[]]]]; [exact (eo_nd _ _ (co_ev _ _ _ _ H4))|exact (ck_nd _ _ _ (hd_ct _ _ _ _ _ _ _ _ C0))|exact (ck_nd _ _ _ (hd_ct _ _ _ _ _ _ _ _ C1))]. }
  destruct (separate_exists vals ND) as [h S]. exists vs, pt, ct0, ct1, h, vals, [mkHct 1 (c_scale ct0); mkHct 2 (c_scale ct1)], (mkHcs (mkHev 0 (ev_q (cs_ev st)) (ev_k (cs_ev st))) (cs_rs st)).
  split; [exact P2|]. split; [exact T|]. split; [constructor; [exact C0|constructor; [exact C1|constructor]]|]. split; [exact S|]. split; [|split; [repeat split|split; [constructor; [split; reflexivity|constructor; [split; reflexivity|constructor]]|]]].
  - unfold own. cbn. repeat constructor; cbn; intuition discriminate.
  - split; intros c Hc X; unfold case_calls in Hc; cbn in Hc; repeat (destruct Hc as [<-|Hc]; [discriminate X|]); exact Hc.
Qed.
