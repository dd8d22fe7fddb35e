(** A case for the hypotheses of C60. *)
From Coq Require Import String ZArith List Lia.
From Verif Require Import Go BasisExt NTT RingOps Maps MapsProofs Params Elements KeySwitch KeySets KeyGen F64 EncDec Evaluator SpecCt SpecRot SpecRotUse LR LREval LRSetup RotUse.
Import ListNotations.
Local Open Scope Z_scope.

Theorem runs_use_powers_all ce orders rnd pk Msg (encode : poly -> Msg -> poly) zero_msg c rks rks' : let pp := e_pp (ce_env ce) in
  let E rks := evalOps ce orders rnd rks pk encode zero_msg in let numCol := 2 ^ Z.of_nat c in
  (1 <= pa_logN pp)%nat -> same_powers pp rks rks' -> no_backward pp numCol ->
  (forall K numRow numIter nf z vb t st, lrRun (E rks) K numRow numCol numIter nf z vb t st = lrRun (E rks') K numRow numCol numIter nf z vb t st) /\
  (forall K numRow bs numIter nf vb t st, lrRunBatch (E rks) K numRow numCol bs numIter nf vb t st = lrRunBatch (E rks') K numRow numCol bs numIter nf vb t st).
Proof. exact (runs_use_powers ce orders rnd pk encode zero_msg c rks rks'). Qed.

Definition casePP : params := mkParams 15 [] [] [] [] 2 (map (fun k => (k, [])) (crsIndices 15 ++ [14; 8191])).
Definition caseKeys : rotset := [("a"%string, [(1, mkRotk [] "a" 1); (14, mkRotk [] "a" 14)])].
Definition caseKeys' : rotset := [("a"%string, [(1, mkRotk [] "a" 1)])].
Lemma rot_use_case : let pp := casePP in pa_logN pp = 15%nat /\ has_crs pp 14 /\ has_crs pp 8191 /\ no_backward pp 32 /\
  same_powers pp caseKeys caseKeys' /\ (exists rk, GetRotationKey caseKeys "a" 14 = Ok rk) /\ GetRotationKey caseKeys' "a" 14 <> GetRotationKey caseKeys "a" 14.
Proof.
  cbv zeta. split; [reflexivity|]. split; [exists []; reflexivity|]. split; [exists []; reflexivity|]. split; [|split; [|split; [eexists; reflexivity|discriminate]]].
  - intros j Hj _. assert (j < 5)%nat. { apply Nat2Z.inj_lt. apply (Z.pow_lt_mono_r_iff 2); lia. }
    rewrite half_pow' by (cbn; lia). do 5 (destruct j as [|j]; [intros (v & Hv); vm_compute in Hv; discriminate|]). lia.
  - intros id i Hi. unfold GetRotationKey, caseKeys, caseKeys'. cbn [mget]. destruct (String.eqb id "a") eqn:E; [|reflexivity].
    unfold casePP in Hi. cbn [pa_logN] in Hi. do 14 (destruct i as [|i]; [reflexivity|]). lia.
Qed.
