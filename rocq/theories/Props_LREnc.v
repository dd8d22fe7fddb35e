(** The logistic-regression programs on ciphertexts (properties C46, C47).
    Vocabulary: SpecLREnc.v.  [encrypts pp s ids l sc m e ct]: ct has level l and scale sc, and the message it decrypts to under the
    secrets s has sc * m i in slot i up to e.  [evalOps] runs a program with the evaluator's AddNew, MulRelinNew, MulPtxtNew, RotateNew and
    the encryptor's EncryptMsgNew; [logOps] notes the number of moduli every multiplication drops; [errOps] computes the error bounds.
    [learned .. v b t]: v, b encrypt the vectors of Nesterov's method in every row, t the prediction.  [lr_setting]: keys of all parties, in
    the format their generation gives, and initial state. *)
From Coq Require Import Reals String ZArith List Bool.
From Coq.Floats Require Import SpecFloat.
From Verif Require Import Spec Go Arith NegRing BasisExt NTT F64 RingOps Maps Params Elements KeySwitch KeySets KeyGen EncDec Evaluator Repr SpecKeys SpecCt SpecEnc SpecEv SpecRot SpecSlots LR SpecLR LREval LRShadow LRRel SpecLREnc Shipped EvWorld LREncThms LRLevels LRShipped LREncLR LREncWorld LREncDec LREncShip.
Import ListNotations.
Local Open Scope Z_scope.

Local Notation PP ce := (e_pp (ce_env ce)).
Local Notation TOP ce := (maxLevel (PP ce)).
Local Notation ERR ce ids Bs Be Dm nr Bu B ez := (errOps (pa_N (PP ce) / 2) (lr_noise (PP ce) (Z.of_nat (List.length ids)) Bs Be Dm nr Bu B ez) (pa_Q (PP ce)) (TOP ce) (ce_scale ce)).

(** C47: when every multiplication drops one modulus, n iterations and the inference need exactly 4n + 3 levels: v and beta end 4n levels
    lower than the inputs, the result 4n + 3 lower, and with less than 4n + 3 levels a multiplication finds no modulus to drop *)
Theorem C47_levels : forall (ct pt : Type) (K : lrconst ct pt) top n,
  (n <= length (k_2 K))%nat -> (n <= length (k_4 K))%nat -> (n <= length (k_6 K))%nat -> (n <= length (k_7 K))%nat ->
  forall numRow numCol numFeature,
  lrRun levelOps (levelConst top K) numRow numCol n numFeature top (top, top) top tt =
  if (4 * n + 3 <=? top)%nat then Ok ((top - 4 * n, top - 4 * n)%nat, (top - (4 * n + 3))%nat, tt) else Panic PIndex.
Proof. exact @level_run. Qed.
Print Assumptions C47_levels.

Example C47_levels_case : exists K : lrconst nat unit, (4 <= length (k_2 K))%nat /\ (4 <= length (k_4 K))%nat /\ (4 <= length (k_6 K))%nat /\ (4 <= length (k_7 K))%nat /\
  lrRun levelOps (levelConst 20 K) 2048 8 4 7 20%nat (20%nat, 20%nat) 20%nat tt = Ok ((4%nat, 4%nat), 1%nat, tt).
Proof. exists (mkConst _ _ tt tt (repeat tt 4) tt (repeat tt 4) O (repeat tt 4) (repeat tt 4) tt O). repeat split; repeat constructor. Qed.

(** C47, C46: lr.go on the shipped parameters (21 moduli, scale 2^38, 2^15 coefficients), 2048 rows of 8 slots, 7 features, 4 iterations:
    the whole encrypted run succeeds for all data, each of the 56 multiplications drops exactly one modulus, v and beta end at level 4, the
    result at level 1, and they encrypt what Nesterov's method and the prediction give, up to the errors the [errOps] run computes *)
Theorem C47_shipped_lr : forall ce g A U s r Bs Be Dm nr ids keys rks orders rnd pk (Msg : Type) (encode : poly -> Msg -> poly) (zero_msg : Msg) Bu B ez st,
  lr_setting ce g A U s r Bs Be Dm nr ids keys rks orders rnd pk encode zero_msg Bu B ez st ->
  pa_Q (PP ce) = shippedQ -> ce_scale ce = sc38 -> forall (gamma c0 c1 c3 : R) etas feature label x e,
  pa_logN (PP ce) = 15%nat -> c3 <> 0%R -> table feature (2 ^ 11) 7 -> (2 ^ 11 <= length label)%nat -> length etas = 4%nat -> (7 <= length x)%nat ->
  let n := (2 ^ 11 * 2 ^ 3)%nat in let gn := (gamma / INR (2 ^ 11))%R in
  exists zv yv tv, zVector 0%R n (2 ^ 11) (2 ^ 3) 7 feature = Ok zv /\ labelVector 0%R n (2 ^ 11) (2 ^ 3) label = Ok yv /\ testVector 0%R n 7 x = Ok tv /\
    let K := vconst 0%R 1%R Rmult Rminus Ropp gn c0 c3 (c1 / c3)%R etas (maskVector 0%R 1%R n (2 ^ 3)) (ofList 0%R yv) in
    let nb := nesterovAll 0%R 1%R Rplus Rmult Rminus c0 c1 c3 gn 7 (entry 0%R feature) (entry1 0%R label) (fun _ => seq 0 (2 ^ 11)) etas in
    forall KE z v0 b0 test, consts_held (PP ce) (ce_scale ce) s ids e K KE -> fresh (PP ce) (ce_scale ce) s ids e (ofList 0%R zv) z -> fresh (PP ce) (ce_scale ce) s ids e (fun _ => 0%R) v0 -> fresh (PP ce) (ce_scale ce) s ids e (fun _ => 0%R) b0 -> fresh (PP ce) (ce_scale ce) s ids e (ofList 0%R tv) test ->
    exists v b t st' av ab at',
      lrRun (evalOps ce orders rnd rks pk encode zero_msg) KE (2 ^ 11) (2 ^ 3) 4 7 z (v0, b0) test st = Ok ((v, b), t, st') /\
      lrRun (logOps (evalOps ce orders rnd rks pk encode zero_msg)) KE (2 ^ 11) (2 ^ 3) 4 7 z (v0, b0) test (st, []) = Ok ((v, b), t, (st', repeat 1%nat 56)) /\
      lrRun (ERR ce ids Bs Be Dm nr Bu B ez) (errConst (TOP ce) (ce_scale ce) e K) (2 ^ 11) (2 ^ 3) 4 7 (fa (TOP ce) (ce_scale ce) e (ofList 0%R zv))
        (fa (TOP ce) (ce_scale ce) e (fun _ => 0%R), fa (TOP ce) (ce_scale ce) e (fun _ => 0%R)) (fa (TOP ce) (ce_scale ce) e (ofList 0%R tv)) [] = Ok ((av, ab), at', repeat 1%nat 56) /\
      learned (PP ce) s ids (2 ^ 11) (2 ^ 3) 7 c0 c1 c3 x nb 4 4 1 (S754_finite false 9007149865596385 (-15)) beta38 sc38 (a_e av) (a_e ab) (a_e at') v b t.
Proof. exact @shipped_lr. Qed.
Print Assumptions C47_shipped_lr.

(** C47, C46: lr_toy.go: 512 rows of 32 slots, 20 features, 2 iterations *)
Theorem C47_shipped_lr_toy : forall ce g A U s r Bs Be Dm nr ids keys rks orders rnd pk (Msg : Type) (encode : poly -> Msg -> poly) (zero_msg : Msg) Bu B ez st,
  lr_setting ce g A U s r Bs Be Dm nr ids keys rks orders rnd pk encode zero_msg Bu B ez st ->
  pa_Q (PP ce) = shippedQ -> ce_scale ce = sc38 -> forall (gamma c0 c1 c3 : R) etas feature label x e,
  pa_logN (PP ce) = 15%nat -> c3 <> 0%R -> table feature (2 ^ 9) 20 -> (2 ^ 9 <= length label)%nat -> length etas = 2%nat -> (20 <= length x)%nat ->
  let n := (2 ^ 9 * 2 ^ 5)%nat in let gn := (gamma / INR (2 ^ 9))%R in
  exists zv yv tv, zVector 0%R n (2 ^ 9) (2 ^ 5) 20 feature = Ok zv /\ labelVector 0%R n (2 ^ 9) (2 ^ 5) label = Ok yv /\ testVector 0%R n 20 x = Ok tv /\
    let K := vconst 0%R 1%R Rmult Rminus Ropp gn c0 c3 (c1 / c3)%R etas (maskVector 0%R 1%R n (2 ^ 5)) (ofList 0%R yv) in
    let nb := nesterovAll 0%R 1%R Rplus Rmult Rminus c0 c1 c3 gn 20 (entry 0%R feature) (entry1 0%R label) (fun _ => seq 0 (2 ^ 9)) etas in
    forall KE z v0 b0 test, consts_held (PP ce) (ce_scale ce) s ids e K KE -> fresh (PP ce) (ce_scale ce) s ids e (ofList 0%R zv) z -> fresh (PP ce) (ce_scale ce) s ids e (fun _ => 0%R) v0 -> fresh (PP ce) (ce_scale ce) s ids e (fun _ => 0%R) b0 -> fresh (PP ce) (ce_scale ce) s ids e (ofList 0%R tv) test ->
    exists v b t st' av ab at',
      lrRun (evalOps ce orders rnd rks pk encode zero_msg) KE (2 ^ 9) (2 ^ 5) 2 20 z (v0, b0) test st = Ok ((v, b), t, st') /\
      lrRun (logOps (evalOps ce orders rnd rks pk encode zero_msg)) KE (2 ^ 9) (2 ^ 5) 2 20 z (v0, b0) test (st, []) = Ok ((v, b), t, (st', repeat 1%nat 30)) /\
      lrRun (ERR ce ids Bs Be Dm nr Bu B ez) (errConst (TOP ce) (ce_scale ce) e K) (2 ^ 9) (2 ^ 5) 2 20 (fa (TOP ce) (ce_scale ce) e (ofList 0%R zv))
        (fa (TOP ce) (ce_scale ce) e (fun _ => 0%R), fa (TOP ce) (ce_scale ce) e (fun _ => 0%R)) (fa (TOP ce) (ce_scale ce) e (ofList 0%R tv)) [] = Ok ((av, ab), at', repeat 1%nat 30) /\
      learned (PP ce) s ids (2 ^ 9) (2 ^ 5) 20 c0 c1 c3 x nb 12 12 9 (S754_finite false 9007014574901172 (-15)) beta38 sc38 (a_e av) (a_e ab) (a_e at') v b t.
Proof. exact @shipped_toy. Qed.
Print Assumptions C47_shipped_lr_toy.

(** C47, C46: lr_minibatch.go: 2048 data points in 4 batches of 512, 7 features, 4 iterations *)
Theorem C47_shipped_minibatch : forall ce g A U s r Bs Be Dm nr ids keys rks orders rnd pk (Msg : Type) (encode : poly -> Msg -> poly) (zero_msg : Msg) Bu B ez st,
  lr_setting ce g A U s r Bs Be Dm nr ids keys rks orders rnd pk encode zero_msg Bu B ez st ->
  pa_Q (PP ce) = shippedQ -> ce_scale ce = sc38 -> forall (gn c0 c1 c3 : R) etas feature label x e,
  pa_logN (PP ce) = 15%nat -> c3 <> 0%R -> table feature (2 ^ 11) 7 -> (2 ^ 11 <= length label)%nat -> length etas = 4%nat -> (7 <= length x)%nat ->
  let n := (2 ^ 14)%nat in
  exists bs tv, packBatches 0%R 1%R Rmult Rminus Ropp n 7 (2 ^ 11) (2 ^ 9) gn c0 c3 (c1 / c3)%R etas feature label = Ok bs /\ testVector 0%R n 7 x = Ok tv /\
    let K := vconst 0%R 1%R Rmult Rminus Ropp gn c0 c3 (c1 / c3)%R etas (maskVector 0%R 1%R n (2 ^ 3)) (fun _ => 0%R) in
    let nb := nesterovAll 0%R 1%R Rplus Rmult Rminus c0 c1 c3 gn 7 (entry 0%R feature) (entry1 0%R label) (fun a => seq (a mod 4 * 2 ^ 9) (2 ^ 9)) etas in
    forall KE be v0 b0 test, consts_held (PP ce) (ce_scale ce) s ids e K KE -> batches_held (PP ce) (ce_scale ce) s ids e bs be -> fresh (PP ce) (ce_scale ce) s ids e (fun _ => 0%R) v0 -> fresh (PP ce) (ce_scale ce) s ids e (fun _ => 0%R) b0 -> fresh (PP ce) (ce_scale ce) s ids e (ofList 0%R tv) test ->
    exists v b t st' av ab at',
      lrRunBatch (evalOps ce orders rnd rks pk encode zero_msg) KE (2 ^ 11) (2 ^ 3) be 4 7 (v0, b0) test st = Ok ((v, b), t, st') /\
      lrRunBatch (logOps (evalOps ce orders rnd rks pk encode zero_msg)) KE (2 ^ 11) (2 ^ 3) be 4 7 (v0, b0) test (st, []) = Ok ((v, b), t, (st', repeat 1%nat 56)) /\
      lrRunBatch (ERR ce ids Bs Be Dm nr Bu B ez) (errConst (TOP ce) (ce_scale ce) e K) (2 ^ 11) (2 ^ 3) (mapBatches (fa (TOP ce) (ce_scale ce) e) (fp (ce_scale ce) e) bs) 4 7
        (fa (TOP ce) (ce_scale ce) e (fun _ => 0%R), fa (TOP ce) (ce_scale ce) e (fun _ => 0%R)) (fa (TOP ce) (ce_scale ce) e (ofList 0%R tv)) [] = Ok ((av, ab), at', repeat 1%nat 56) /\
      learned (PP ce) s ids (2 ^ 11) (2 ^ 3) 7 c0 c1 c3 x nb 4 4 1 (S754_finite false 4503667274105103 (-14)) sc38 sc38 (a_e av) (a_e ab) (a_e at') v b t.
Proof. exact @shipped_mini. Qed.
Print Assumptions C47_shipped_minibatch.

(** C47, C46: lr_minibatch_toy.go: 512 data points in 4 batches of 128, 20 features, 4 weights of which the 3 iterations of line 313 use three *)
Theorem C47_shipped_minibatch_toy : forall ce g A U s r Bs Be Dm nr ids keys rks orders rnd pk (Msg : Type) (encode : poly -> Msg -> poly) (zero_msg : Msg) Bu B ez st,
  lr_setting ce g A U s r Bs Be Dm nr ids keys rks orders rnd pk encode zero_msg Bu B ez st ->
  pa_Q (PP ce) = shippedQ -> ce_scale ce = sc38 -> forall (gn c0 c1 c3 : R) etas feature label x e,
  pa_logN (PP ce) = 15%nat -> c3 <> 0%R -> table feature (2 ^ 9) 20 -> (2 ^ 9 <= length label)%nat -> length etas = 4%nat -> (20 <= length x)%nat ->
  let n := (2 ^ 14)%nat in
  exists bs tv, packBatches 0%R 1%R Rmult Rminus Ropp n 20 (2 ^ 9) (2 ^ 7) gn c0 c3 (c1 / c3)%R etas feature label = Ok bs /\ testVector 0%R n 20 x = Ok tv /\
    let K := vconst 0%R 1%R Rmult Rminus Ropp gn c0 c3 (c1 / c3)%R etas (maskVector 0%R 1%R n (2 ^ 5)) (fun _ => 0%R) in
    let nb := nesterovAll 0%R 1%R Rplus Rmult Rminus c0 c1 c3 gn 20 (entry 0%R feature) (entry1 0%R label) (fun a => seq (a mod 4 * 2 ^ 7) (2 ^ 7)) (firstn 3 etas) in
    forall KE be v0 b0 test, consts_held (PP ce) (ce_scale ce) s ids e K KE -> batches_held (PP ce) (ce_scale ce) s ids e bs be -> fresh (PP ce) (ce_scale ce) s ids e (fun _ => 0%R) v0 -> fresh (PP ce) (ce_scale ce) s ids e (fun _ => 0%R) b0 -> fresh (PP ce) (ce_scale ce) s ids e (ofList 0%R tv) test ->
    exists v b t st' av ab at',
      lrRunBatch (evalOps ce orders rnd rks pk encode zero_msg) KE (2 ^ 9) (2 ^ 5) be 3 20 (v0, b0) test st = Ok ((v, b), t, st') /\
      lrRunBatch (logOps (evalOps ce orders rnd rks pk encode zero_msg)) KE (2 ^ 9) (2 ^ 5) be 3 20 (v0, b0) test (st, []) = Ok ((v, b), t, (st', repeat 1%nat 43)) /\
      lrRunBatch (ERR ce ids Bs Be Dm nr Bu B ez) (errConst (TOP ce) (ce_scale ce) e K) (2 ^ 9) (2 ^ 5) (mapBatches (fa (TOP ce) (ce_scale ce) e) (fp (ce_scale ce) e) bs) 3 20
        (fa (TOP ce) (ce_scale ce) e (fun _ => 0%R), fa (TOP ce) (ce_scale ce) e (fun _ => 0%R)) (fa (TOP ce) (ce_scale ce) e (ofList 0%R tv)) [] = Ok ((av, ab), at', repeat 1%nat 43) /\
      learned (PP ce) s ids (2 ^ 9) (2 ^ 5) 20 c0 c1 c3 x nb 8 8 5 sc38 sc38 (S754_finite false 4503707005784917 (-14)) (a_e av) (a_e ab) (a_e at') v b t.
Proof. exact @shipped_mini_toy. Qed.
Print Assumptions C47_shipped_minibatch_toy.

(** C46: the encrypted training and inference for any parameters, number of rows, features and iterations: when the levels and scales
    alone ([scaleOps]) get through, so does the encrypted run, and its results encrypt what the plain method gives *)
Theorem C46_encrypted : forall ce g A U s r Bs Be Dm nr ids keys rks orders rnd pk (Msg : Type) (encode : poly -> Msg -> poly) (zero_msg : Msg) Bu B ez st,
  lr_setting ce g A U s r Bs Be Dm nr ids keys rks orders rnd pk encode zero_msg Bu B ez st ->
  forall rr c nf numIter (gamma c0 c1 c3 : R) etas feature label x e,
  pa_logN (PP ce) = S (rr + c) -> c3 <> 0%R -> (nf <= 2 ^ c)%nat -> table feature (2 ^ rr) nf -> (2 ^ rr <= length label)%nat -> (numIter <= length etas)%nat -> (nf <= length x)%nat ->
  let n := (2 ^ rr * 2 ^ c)%nat in let gn := (gamma / INR (2 ^ rr))%R in
  exists zv yv tv, zVector 0%R n (2 ^ rr) (2 ^ c) nf feature = Ok zv /\ labelVector 0%R n (2 ^ rr) (2 ^ c) label = Ok yv /\ testVector 0%R n nf x = Ok tv /\
    let K := vconst 0%R 1%R Rmult Rminus Ropp gn c0 c3 (c1 / c3)%R etas (maskVector 0%R 1%R n (2 ^ c)) (ofList 0%R yv) in
    let nb := nesterovAll 0%R 1%R Rplus Rmult Rminus c0 c1 c3 gn nf (entry 0%R feature) (entry1 0%R label) (fun _ => seq 0 (2 ^ rr)) (firstn numIter etas) in
    let rows := Z.of_nat (2 ^ rr) in let cols := Z.of_nat (2 ^ c) in
    forall KE z v0 b0 test lv sv lb sb lt st0 log, consts_held (PP ce) (ce_scale ce) s ids e K KE -> fresh (PP ce) (ce_scale ce) s ids e (ofList 0%R zv) z -> fresh (PP ce) (ce_scale ce) s ids e (fun _ => 0%R) v0 -> fresh (PP ce) (ce_scale ce) s ids e (fun _ => 0%R) b0 -> fresh (PP ce) (ce_scale ce) s ids e (ofList 0%R tv) test ->
    lrRun (scaleOps (pa_Q (PP ce)) (TOP ce) (ce_scale ce)) (scaleConst (TOP ce) (ce_scale ce) K) rows cols numIter (Z.of_nat nf) (TOP ce, ce_scale ce) ((TOP ce, ce_scale ce), (TOP ce, ce_scale ce)) (TOP ce, ce_scale ce) [] = Ok (((lv, sv), (lb, sb)), (lt, st0), log) ->
    exists v b t st' xv xb xt av ab at',
      lrRun (evalOps ce orders rnd rks pk encode zero_msg) KE rows cols numIter (Z.of_nat nf) z (v0, b0) test st = Ok ((v, b), t, st') /\
      lrRun (logOps (evalOps ce orders rnd rks pk encode zero_msg)) KE rows cols numIter (Z.of_nat nf) z (v0, b0) test (st, []) = Ok ((v, b), t, (st', log)) /\
      lrRun (ERR ce ids Bs Be Dm nr Bu B ez) (errConst (TOP ce) (ce_scale ce) e K) rows cols numIter (Z.of_nat nf) (fa (TOP ce) (ce_scale ce) e (ofList 0%R zv))
        (fa (TOP ce) (ce_scale ce) e (fun _ => 0%R), fa (TOP ce) (ce_scale ce) e (fun _ => 0%R)) (fa (TOP ce) (ce_scale ce) e (ofList 0%R tv)) [] = Ok ((av, ab), at', log) /\
      encrypts (PP ce) s ids lv sv xv (a_e av) v /\ encrypts (PP ce) s ids lb sb xb (a_e ab) b /\ encrypts (PP ce) s ids lt st0 xt (a_e at') t /\
      (forall row j, (row < 2 ^ rr)%nat -> (j < nf)%nat -> let i := Z.of_nat (2 ^ c * row + j) in xv i = fst nb j /\ xb i = snd nb j) /\
      xt 0 = sigma3 Rplus Rmult c0 c1 c3 (dot 0%R Rplus Rmult nf (entry1 0%R x) (snd nb)).
Proof. exact @lr_encrypted. Qed.
Print Assumptions C46_encrypted.

(** C46: the same for the mini-batch programs *)
Theorem C46_encrypted_minibatch : forall ce g A U s r Bs Be Dm nr ids keys rks orders rnd pk (Msg : Type) (encode : poly -> Msg -> poly) (zero_msg : Msg) Bu B ez st,
  lr_setting ce g A U s r Bs Be Dm nr ids keys rks orders rnd pk encode zero_msg Bu B ez st ->
  forall sl nf batchSize numTrain numIter (gn c0 c1 c3 : R) etas feature label x e,
  pa_logN (PP ce) = S sl -> c3 <> 0%R -> (Nat.log2_up nf <= sl)%nat -> (0 < batchSize <= numTrain)%nat -> (batchSize < 2 ^ (sl - Nat.log2_up nf))%nat \/ Nat.divide (2 ^ (sl - Nat.log2_up nf)) batchSize ->
  table feature numTrain nf -> (numTrain <= length label)%nat -> (numIter <= length etas)%nat -> (nf <= length x)%nat ->
  let c := Nat.log2_up nf in let n := (2 ^ sl)%nat in
  exists bs tv, packBatches 0%R 1%R Rmult Rminus Ropp n nf numTrain batchSize gn c0 c3 (c1 / c3)%R etas feature label = Ok bs /\ testVector 0%R n nf x = Ok tv /\
    let K := vconst 0%R 1%R Rmult Rminus Ropp gn c0 c3 (c1 / c3)%R etas (maskVector 0%R 1%R n (2 ^ c)) (fun _ => 0%R) in
    let nb := nesterovAll 0%R 1%R Rplus Rmult Rminus c0 c1 c3 gn nf (entry 0%R feature) (entry1 0%R label) (fun a => seq (a mod (numTrain / batchSize) * batchSize) batchSize) (firstn numIter etas) in
    let rows := Z.of_nat (2 ^ (sl - c)) in let cols := Z.of_nat (2 ^ c) in
    forall KE be v0 b0 test lv sv lb sb lt st0 log, consts_held (PP ce) (ce_scale ce) s ids e K KE -> batches_held (PP ce) (ce_scale ce) s ids e bs be -> fresh (PP ce) (ce_scale ce) s ids e (fun _ => 0%R) v0 -> fresh (PP ce) (ce_scale ce) s ids e (fun _ => 0%R) b0 -> fresh (PP ce) (ce_scale ce) s ids e (ofList 0%R tv) test ->
    lrRunBatch (scaleOps (pa_Q (PP ce)) (TOP ce) (ce_scale ce)) (scaleConst (TOP ce) (ce_scale ce) K) rows cols (mapBatches (fun _ => (TOP ce, ce_scale ce)) (fun _ => ce_scale ce) bs) numIter (Z.of_nat nf) ((TOP ce, ce_scale ce), (TOP ce, ce_scale ce)) (TOP ce, ce_scale ce) [] = Ok (((lv, sv), (lb, sb)), (lt, st0), log) ->
    exists v b t st' xv xb xt av ab at',
      lrRunBatch (evalOps ce orders rnd rks pk encode zero_msg) KE rows cols be numIter (Z.of_nat nf) (v0, b0) test st = Ok ((v, b), t, st') /\
      lrRunBatch (logOps (evalOps ce orders rnd rks pk encode zero_msg)) KE rows cols be numIter (Z.of_nat nf) (v0, b0) test (st, []) = Ok ((v, b), t, (st', log)) /\
      lrRunBatch (ERR ce ids Bs Be Dm nr Bu B ez) (errConst (TOP ce) (ce_scale ce) e K) rows cols (mapBatches (fa (TOP ce) (ce_scale ce) e) (fp (ce_scale ce) e) bs) numIter (Z.of_nat nf)
        (fa (TOP ce) (ce_scale ce) e (fun _ => 0%R), fa (TOP ce) (ce_scale ce) e (fun _ => 0%R)) (fa (TOP ce) (ce_scale ce) e (ofList 0%R tv)) [] = Ok ((av, ab), at', log) /\
      encrypts (PP ce) s ids lv sv xv (a_e av) v /\ encrypts (PP ce) s ids lb sb xb (a_e ab) b /\ encrypts (PP ce) s ids lt st0 xt (a_e at') t /\
      (forall row j, (row < 2 ^ (sl - c))%nat -> (j < nf)%nat -> let i := Z.of_nat (2 ^ c * row + j) in xv i = fst nb j /\ xb i = snd nb j) /\
      xt 0 = sigma3 Rplus Rmult c0 c1 c3 (dot 0%R Rplus Rmult nf (entry1 0%R x) (snd nb)).
Proof. exact @lr_batch_encrypted. Qed.
Print Assumptions C46_encrypted_minibatch.

(** C46: the inputs: EncryptMsgNewExpand of a message for the parties idset gives a fresh ciphertext of its slots, the error being the
    encoder's plus that of the encryption *)
Theorem C46_encrypt_inputs : forall pp, params_ok pp -> forall sc (Msg : Type) (encode : poly -> Msg -> poly) msg pk s ids e a u e0 e1 Bs Bu B M m ee,
  (forall p, plen p = QCount pp -> plaintext_is pp (maxLevel pp) (encode p msg) M) ->
  (forall i, 0 <= i < Z.of_nat (pa_N pp) / 2 -> (cnorm (csub (slot (pa_N pp) M i) (creal (fR sc * m i))) <= ee)%R) ->
  pk_is pp pk (s (pk_ID pk)) e a -> pnorm_le (pa_N pp) e B -> pnorm_le (pa_N pp) (s (pk_ID pk)) Bs -> In (pk_ID pk) ids -> ~ In "0"%string ids -> bound_ok pp Bu -> bound_ok pp B ->
  small_ok (pa_N pp) Bu u -> small_ok (pa_N pp) B e0 -> small_ok (pa_N pp) B e1 ->
  forall o idset st, order_ok o -> encst_ok (mkCkp pp sc) st -> In (pk_ID pk) (mkeys idset) -> (forall x, In x (mkeys idset) -> In x ids) ->
  exists ct st', EncryptMsgNewExpand (mkCkp pp sc) encode o msg pk idset u e0 e1 st = Ok (ct, st') /\ encst_ok (mkCkp pp sc) st' /\
    fresh pp sc s ids (ee + 2 * INR (pa_N pp) * IZR (B * (1 + Z.of_nat (pa_N pp) * Bu + Z.of_nat (pa_N pp) * Bs)))%R m ct /\ (forall x, party (c_ct ct) x <-> In x (mkeys idset)).
Proof. exact @encrypt_expand_fresh. Qed.
Print Assumptions C46_encrypt_inputs.

(** C46: the results: with the secret keys of all its parties, Decrypt of a ciphertext that [encrypts] m gives the decoder a plaintext
    whose slots are sc * m up to e, whatever the iteration order, if 4 (|sc * m| + e) is below the modulus *)
Theorem C46_decrypt_results : forall ce, env_ok (ce_env ce) -> forall s ids l sc m e ct (Msg : Type) (decode : poly -> f64 -> Msg) pool pl,
  encrypts (PP ce) s ids l sc m e ct -> plen pool = (pl + 1)%nat ->
  (forall i, 0 <= i < Z.of_nat (pa_N (PP ce)) / 2 -> (4 * (Rabs (fR sc * m i) + e) < IZR (Ql (PP ce) (Nat.min l pl)))%R) ->
  exists pt, plen pt = (Nat.min l pl + 1)%nat /\
    (forall o sks, order_ok o -> sks_ok (PP ce) s (c_ct ct) sks -> (forall id, party (c_ct ct) id -> has_key sks id) ->
       ckDecrypt (mkCkp (PP ce) (ce_scale ce)) decode o ct sks pool = Ok (decode pt sc, pt)) /\
    exists V, (forall i, (i < pa_N (PP ce))%nat -> 2 * Z.abs (V i) < Ql (PP ce) (Nat.min l pl)) /\ held (PP ce) false (fun q => q) (Nat.min l pl) pt V /\
      centred_value (PP ce) (Nat.min l pl) false pt V /\
      forall i, 0 <= i < Z.of_nat (pa_N (PP ce)) / 2 -> (cnorm (csub (slot (pa_N (PP ce)) V i) (creal (fR sc * m i))) <= e)%R.
Proof. exact @dec_encrypts. Qed.
Print Assumptions C46_decrypt_results.

(** the settings exist: three companies with keys made by the key generator on the shipped parameters, an encoder for every slot vector,
    fresh encryptions of every slot vector, hence of all inputs and constants of the programs *)
Example C46_C47_setting : exists ce g A U s r Dm keys rks orders rnd pk st, let pp := PP ce in
  let e := (2 * INR (pa_N pp) + 2 * INR (pa_N pp) * IZR (19 * (1 + Z.of_nat (pa_N pp) * 1 + Z.of_nat (pa_N pp) * 1)))%R in
  lr_setting ce g A U s r 1 19 Dm 14 companies keys rks orders rnd pk (realEncode pp (ce_scale ce)) (fun _ => 0%R) 1 19 (2 * INR (pa_N pp)) st /\
  pa_Q pp = shippedQ /\ pa_P pp = shippedP /\ pa_logN pp = 15%nat /\ ce_scale ce = sc38 /\
  (forall m, (exists ct, fresh pp (ce_scale ce) s companies e m ct) /\ freshpt pp (ce_scale ce) e m (realEncode pp (ce_scale ce) (ringPoly (ringQ pp)) m, ce_scale ce)) /\
  (forall K, exists KE, consts_held pp (ce_scale ce) s companies e K KE) /\ (forall bs, exists be, batches_held pp (ce_scale ce) s companies e bs be).
Proof. exact lr_world. Qed.
