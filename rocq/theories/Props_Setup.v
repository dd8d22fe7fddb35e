(** The main functions of the logistic-regression programs (property C53): parameters, common reference strings, keys of all companies, encryption of
    the inputs, training, prediction, decryption.
    Vocabulary: SpecSetup.v.  [run_ok]: what lattigo's samplers and encoder return; [lr_correct] and [lr_batch_correct]: a run does not panic and
    leaves a [run_result]: v and beta of every iteration are those of Nesterov's method, up to the error bounds, the printed messages decode them, and
    the predictions are the sigmoid polynomial at the scalar product. *)
From Coq Require Import Reals String ZArith List Bool.
From Coq.Floats Require Import SpecFloat.
From Verif Require Import Spec Go Arith NegRing BasisExt NTT F64 RingOps Maps Params Elements KeySwitch KeySets KeyGen EncDec Evaluator Repr ParamsSpec SpecKeys SpecCt SpecEnc SpecEv SpecRot SpecSlots LR SpecLR LREval LRShadow LRRel SpecLREnc Shipped EvWorld LRShipped LRSetup SpecSetup LRSetupThms LRMainShip.
Import ListNotations.
Local Open Scope Z_scope.

(** C53: the set-up succeeds, for every order in which the parties are visited, and yields what the evaluator needs: one public key, secret keys
    of all companies, relinearization keys and rotation keys for all of them and for every rotation amount of the training *)
Theorem C53_setup : forall logN Q P psiQ psiP sc lz u Bs B Dm rots numCompany encode ee,
  let pb := bare logN Q P psiQ psiP in let ids := companyNames numCompany in let s := secretOf u in
  run_ok pb sc Bs B Dm u encode ee -> (forall x, In x rots -> 0 < x < Z.of_nat (pa_N pb) / 2) -> (0 < numCompany)%nat ->
  exists pp0 is tc g A U pk, let cp := mkCkp (tc_pp tc) sc in
  NewParameters logN Q P psiQ psiP 2 (u_crs0 u) = Ok pp0 /\ companyIDs numCompany = Ok is /\ (forall x, In x (mkeys is) <-> In x ids) /\
  genTestParams (u_gen u) pp0 rots is (u_crs u) (u_party u) = Ok tc /\ same_rings pb (tc_pp tc) /\ params_ok (tc_pp tc) /\
  GetPublicKey (tc_pk tc) (companyName 0) = Ok pk /\ pk_ID pk = companyName 0 /\
  (exists e a, pk_is (tc_pp tc) pk (s (companyName 0)) e a /\ pnorm_le (pa_N (tc_pp tc)) e B) /\
  (forall ct, (forall id, party ct id -> In id ids) -> sks_ok (tc_pp tc) s ct (tc_sk tc) /\ forall id, party ct id -> has_key (tc_sk tc) id) /\
  forall en, encst_ok cp en -> let (ce, ev) := NewEvaluator (u_ev u) lz cp in e_pp (ce_env ce) = tc_pp tc /\ ce_scale ce = sc /\
    lr_setting ce g A U s (fun id => smallpoly (r_r (u_party u id))) Bs B Dm (Z.of_nat logN - 1) ids (rs_keys (tc_rlk tc)) (tc_rot tc) (u_oo u) (u_zero u) pk encode (repeat 0%R (pa_N pb / 2)) Bs B ee (mkLr ev (tc_rlk tc) en 0).
Proof. exact setup_run. Qed.
Print Assumptions C53_setup.

(** C53: lr.go and lr_toy.go, any parameters: the levels and scales are those that the run computes on levels and scales only *)
Theorem C53_program : forall logN Q P psiQ psiP sc rots, let pp := bare logN Q P psiQ psiP in
  (forall x, In x rots -> 0 < x < Z.of_nat (pa_N pp) / 2) -> forall toy rr c nf numIter lv sv lb sb lt st log1 log2,
  logN = S (rr + c) -> (nf <= 2 ^ c)%nat ->
  let SO := scaleOps Q (maxLevel pp) sc in let t0 := (maxLevel pp, sc) in
  let trainS k := train SO (KC (maxLevel pp) sc numIter) (2 ^ Z.of_nat rr) (2 ^ Z.of_nat c) k t0 (t0, t0) [] in
  trainS numIter = Ok (((lv, sv), (lb, sb)), log1) -> infer SO (KC (maxLevel pp) sc numIter) (Z.of_nat nf) t0 (lb, sb) [] = Ok ((lt, st), log2) -> stays trainS numIter lt ->
  lr_correct pp sc rots toy rr c nf numIter lv sv lb sb lt st log1 log2.
Proof. exact lr_program_correct. Qed.
Print Assumptions C53_program.

(** C53: lr_minibatch.go and lr_minibatch_toy.go, any parameters *)
Theorem C53_program_batch : forall logN Q P psiQ psiP sc rots, let pp := bare logN Q P psiQ psiP in
  (forall x, In x rots -> 0 < x < Z.of_nat (pa_N pp) / 2) -> forall sl nf batchSize numTrain ne numIter lv sv lb sb lt st log1 log2,
  let c := Nat.log2_up nf in
  logN = S sl -> (c <= sl)%nat -> (0 < batchSize <= numTrain)%nat -> (batchSize < 2 ^ (sl - c))%nat \/ Nat.divide (2 ^ (sl - c)) batchSize -> (numIter <= ne)%nat ->
  let SO := scaleOps Q (maxLevel pp) sc in let t0 := (maxLevel pp, sc) in
  let trainS k := trainBatch SO (KC (maxLevel pp) sc ne) (2 ^ Z.of_nat (sl - c)) (2 ^ Z.of_nat c) (repeat (repeat (t0, sc, repeat sc ne) (numCtPerBatch (2 ^ sl) nf batchSize)) (numTrain / batchSize)) k (t0, t0) [] in
  trainS numIter = Ok (((lv, sv), (lb, sb)), log1) -> infer SO (KC (maxLevel pp) sc ne) (Z.of_nat nf) t0 (lb, sb) [] = Ok ((lt, st), log2) -> stays trainS numIter lt ->
  lr_batch_correct pp sc rots sl c nf batchSize numTrain ne numIter lv sv lb sb lt st log1 log2.
Proof. exact lr_batch_program_correct. Qed.
Print Assumptions C53_program_batch.

(** C53: the four programs with the shipped parameters (N = 2^15, 21 + 2 primes, scale 2^38), rotation amounts and sizes; every multiplication drops one prime *)
Theorem C53_lr : lr_correct shipped sc38 lrRots false 11 3 7 4 4 (S754_finite false 9007149865596385 (-15)) 4 beta38 1 sc38 (repeat 1%nat 52) (repeat 1%nat 4).
Proof. exact lr_go. Qed.
Print Assumptions C53_lr.
Theorem C53_lr_toy : lr_correct shipped sc38 lrRots true 9 5 20 2 12 (S754_finite false 9007014574901172 (-15)) 12 beta38 9 sc38 (repeat 1%nat 26) (repeat 1%nat 4).
Proof. exact lr_toy_go. Qed.
Print Assumptions C53_lr_toy.
Theorem C53_lr_minibatch : lr_batch_correct shipped sc38 lrRots 14 3 7 (2 ^ 9) (2 ^ 11) 4 4 4 (S754_finite false 4503667274105103 (-14)) 4 sc38 1 sc38 (repeat 1%nat 52) (repeat 1%nat 4).
Proof. exact lr_minibatch_go. Qed.
Print Assumptions C53_lr_minibatch.
(** lr_minibatch_toy.go:313: the loop stops after three iterations *)
Theorem C53_lr_minibatch_toy : lr_batch_correct shipped sc38 lrRots 14 5 20 (2 ^ 7) (2 ^ 9) 4 3 8 sc38 8 sc38 5 (S754_finite false 4503707005784917 (-14)) (repeat 1%nat 39) (repeat 1%nat 4).
Proof. exact lr_minibatch_toy_go. Qed.
Print Assumptions C53_lr_minibatch_toy.

(** a case: the shipped parameters, all samples 1 (onesRun), an encoder that rounds the inverse of the slot map *)
Example C53_case : exists Dm ee, run_ok shipped sc38 1 19 Dm onesRun listEncode ee.
Proof. exact run_world. Qed.
