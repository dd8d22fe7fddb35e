(** Which rotation keys the logistic-regression programs use (property C60).  Vocabulary: SpecRotUse.v, SpecRot.v (has_crs), SpecCt.v (party). *)
From Coq Require Import String ZArith List.
From Verif Require Import Go Params RingOps Maps Elements KeySwitch KeySets KeyGen F64 EncDec Evaluator SpecCt SpecRot SpecRotUse LR LREval LRSetup RotUse RotNeed RotUseCase.
Import ListNotations.
Local Open Scope Z_scope.

(** C60: without common reference strings for the backward rotations, a run, in batches or not, depends on a set of rotation keys only through the keys for the
    powers of two: two sets that agree on those give the same ciphertexts, final states and panics *)
Theorem C60_only_powers_used : forall ce orders rnd pk Msg (encode : poly -> Msg -> poly) zero_msg c rks rks', let pp := e_pp (ce_env ce) in
  let E rks := evalOps ce orders rnd rks pk encode zero_msg in let numCol := 2 ^ Z.of_nat c in
  (1 <= pa_logN pp)%nat -> same_powers pp rks rks' -> no_backward pp numCol ->
  (forall K numRow numIter nf z vb t st, lrRun (E rks) K numRow numCol numIter nf z vb t st = lrRun (E rks') K numRow numCol numIter nf z vb t st) /\
  (forall K numRow bs numIter nf vb t st, lrRunBatch (E rks) K numRow numCol bs numIter nf vb t st = lrRunBatch (E rks') K numRow numCol bs numIter nf vb t st).
Proof. exact runs_use_powers_all. Qed.
Print Assumptions C60_only_powers_used.
(** C60, a finding: the set-up of all four programs (logN = 15, rotations 14, ..., 8191, 8190, 8188, 8184, which are backward rotations for N/2 = 8192) is such a
    case, whatever the number of columns: the keys generated for the listed rotations other than 512 are never used *)
Theorem C60_shipped_setup : forall o Q P psiQ psiP gamma smp0 pp0 ids smp rnd tc numCol,
  NewParameters 15 Q P psiQ psiP gamma smp0 = Ok pp0 -> genTestParams o pp0 lrRots ids smp rnd = Ok tc -> no_backward (tc_pp tc) numCol.
Proof. exact shipped_no_backward. Qed.
Print Assumptions C60_shipped_setup.
(** C60, a finding: there a backward rotation by 2^j, with j+1 < logN-1, takes the keys of all powers of two from 2^j to N/4, logN-1-j key switches *)
Theorem C60_backward_needs : forall ce o ct j rks st r id, let pp := e_pp (ce_env ce) in order_ok o -> party (c_ct ct) id -> (S j < pa_logN pp - 1)%nat -> no_backward pp (2 ^ Z.of_nat j + 1) ->
  RotateNew ce o ct (- 2 ^ Z.of_nat j) rks st = Ok r -> forall i : nat, (j <= i < pa_logN pp - 1)%nat -> exists rk, GetRotationKey rks id (2 ^ Z.of_nat i) = Ok rk.
Proof. exact backward_needs. Qed.
Print Assumptions C60_backward_needs.

(** concrete case: logN = 15, the default common reference strings and those for 14 and 8191; two key sets of which one has no key for 14 *)
Example C60_case : let pp := casePP in pa_logN pp = 15%nat /\ has_crs pp 14 /\ has_crs pp 8191 /\ no_backward pp 32 /\
  same_powers pp caseKeys caseKeys' /\ (exists rk, GetRotationKey caseKeys "a" 14 = Ok rk) /\ GetRotationKey caseKeys' "a" 14 <> GetRotationKey caseKeys "a" 14.
Proof. exact rot_use_case. Qed.
