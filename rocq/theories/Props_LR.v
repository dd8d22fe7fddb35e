(** The logistic-regression programs (properties C44-C46, C48).
    Vocabulary: SpecLR.v (sigma3, dot, gradient, nesterovAll, table, entry); [exactOps n] runs a program on n exact slots, as AddNew,
    MulRelinNew, MulPtxtNew and RotateNew act on slots; the theorems hold in every commutative ring, the last ones are for the reals. *)
From Coq Require Import ZArith List Bool Ring_theory ZArithRing Reals RealField.
From Verif Require Import Go LR SpecSlots SpecLR LRProofs LRPack LRThms LRWorld.
Import ListNotations.
Local Open Scope Z_scope.

(** C44: on numRow = 2^r rows of C columns every slot i of SumRowVec holds the sum over the rows of its column i mod C *)
Theorem C44_sum_rows : forall (R : Type) (rO rI : R) radd rmul rsub ropp, ring_theory rO rI radd rmul rsub ropp (@eq R) ->
  forall r C (x : Z -> R), 0 < C -> let n := 2 ^ Z.of_nat r * C in
  exists y, SumRowVec (exactOps rO radd rmul n) x (2 ^ Z.of_nat r) C tt = Ok (y, tt) /\
    forall i, 0 <= i < n -> y i = rsum rO radd (2 ^ r) (fun row => x (C * Z.of_nat row + i mod C)).
Proof. exact @sumRow_pow. Qed.
Print Assumptions C44_sum_rows.

(** C44: for every numRow it is a sum of cyclic shifts, as many as the smallest power of two from numRow on *)
Theorem C44_sum_shifts : forall (R : Type) (rO rI : R) radd rmul rsub ropp, ring_theory rO rI radd rmul rsub ropp (@eq R) ->
  forall n numRow numCol (x : Z -> R), 0 < n ->
  exists y, SumRowVec (exactOps rO radd rmul n) x numRow numCol tt = Ok (y, tt) /\
    forall i, 0 <= i < n -> y i = rsum rO radd (2 ^ Z.to_nat (Z.log2_up numRow)) (fun t => x ((i + numCol * Z.of_nat t) mod n)).
Proof. exact @sumRow_spec. Qed.
Print Assumptions C44_sum_shifts.

Example C44_case : match SumRowVec (exactOps 0 Z.add Z.mul 6) (fun i => i * i) 2 3 tt with Ok (y, _) => map y [0; 1; 2; 3; 4; 5] = [9; 17; 29; 9; 17; 29] | _ => False end.
Proof. reflexivity. Qed.
(** three rows are summed as four shifts *)
Example C44_three_rows : match SumRowVec (exactOps 0 Z.add Z.mul 6) (fun i => i * i) 3 2 tt with Ok (y, _) => y 0 = 0 + 4 + 16 + 0 /\ y 3 = 9 + 25 + 1 + 9 | _ => False end.
Proof. split; reflexivity. Qed.

(** C45: with C = 2^c columns, C dividing the slot number n, and the mask of the multiples of C, every slot i of SumColVec holds the
    sum of its row i / C *)
Theorem C45_sum_columns : forall (R : Type) (rO rI : R) radd rmul rsub ropp, ring_theory rO rI radd rmul rsub ropp (@eq R) ->
  forall c n (x mask : Z -> R) numRow, 0 < n -> let C := 2 ^ Z.of_nat c in (C | n) ->
  (forall i, 0 <= i < n -> mask i = if i mod C =? 0 then rI else rO) ->
  exists y, SumColVec (exactOps rO radd rmul n) x mask numRow C tt = Ok (y, tt) /\
    forall i, 0 <= i < n -> y i = rsum rO radd (2 ^ c) (fun t => x (C * (i / C) + Z.of_nat t)).
Proof. exact @sumCol_pow. Qed.
Print Assumptions C45_sum_columns.

(** C45: mask_vector of the programs is such a mask *)
Theorem C45_mask : forall (R : Type) (rO rI : R) slotNum c i, 0 <= i < Z.of_nat slotNum ->
  nth (Z.to_nat i) (maskVector rO rI slotNum (2 ^ c)) rO = if i mod 2 ^ Z.of_nat c =? 0 then rI else rO.
Proof. intros. now apply (mask_ok rO rI slotNum c (Z.of_nat slotNum) eq_refl). Qed.
Print Assumptions C45_mask.

Example C45_case : match SumColVec (exactOps 0 Z.add Z.mul 8) (fun i => i * i) (ofList 0 (maskVector 0 1 8 4)) 2 4 tt with Ok (y, _) => map y [0; 1; 2; 3; 4; 5; 6; 7] = [14; 14; 14; 14; 126; 126; 126; 126] | _ => False end.
Proof. reflexivity. Qed.

(** C46: from the data to the result of lr.go and lr_toy.go: after numIter iterations the slots of the features j < nf of every row hold
    v_j and beta_j of numIter steps of Nesterov's method on the 2^r data points; nothing panics.  gn is gamma / batchSize, c13 is c1/c3. *)
Theorem C46_training : forall (R : Type) (rO rI : R) radd rmul rsub ropp, ring_theory rO rI radd rmul rsub ropp (@eq R) ->
  forall r c nf numIter gn c0 c1 c3 c13 etas feature label, rmul c3 c13 = c1 ->
  (nf <= 2 ^ c)%nat -> table feature (2 ^ r) nf -> (2 ^ r <= length label)%nat -> (numIter <= length etas)%nat ->
  exists v beta, lrTrain rO rI radd rmul rsub ropp (2 ^ r * 2 ^ c) (2 ^ r) (2 ^ c) nf numIter gn c0 c3 c13 etas feature label = Ok (v, beta) /\
    let nb := nesterovAll rO rI radd rmul rsub c0 c1 c3 gn nf (entry rO feature) (entry1 rO label) (fun _ => seq 0 (2 ^ r)) (firstn numIter etas) in
    forall row j, (row < 2 ^ r)%nat -> (j < nf)%nat -> let i := Z.of_nat (2 ^ c * row + j) in v i = fst nb j /\ beta i = snd nb j.
Proof. exact @lrTrain_rows. Qed.
Print Assumptions C46_training.

(** C46: on the reals, for all c0, c1, c3 <> 0 and gamma; n = 2^r data points *)
Theorem C46_training_reals : forall r c nf numIter (gamma c0 c1 c3 : R) etas feature label, c3 <> 0%R ->
  (nf <= 2 ^ c)%nat -> table feature (2 ^ r) nf -> (2 ^ r <= length label)%nat -> (numIter <= length etas)%nat ->
  exists v beta, lrTrain 0%R 1%R Rplus Rmult Rminus Ropp (2 ^ r * 2 ^ c) (2 ^ r) (2 ^ c) nf numIter (gamma / INR (2 ^ r))%R c0 c3 (c1 / c3)%R etas feature label = Ok (v, beta) /\
    let nb := nesterovAll 0%R 1%R Rplus Rmult Rminus c0 c1 c3 (gamma / INR (2 ^ r))%R nf (entry 0%R feature) (entry1 0%R label) (fun _ => seq 0 (2 ^ r)) (firstn numIter etas) in
    forall row j, (row < 2 ^ r)%nat -> (j < nf)%nat -> let i := Z.of_nat (2 ^ c * row + j) in v i = fst nb j /\ beta i = snd nb j.
Proof. intros. apply (lrTrain_rows 0%R 1%R Rplus Rmult Rminus Ropp RTheory); auto using c13_ok. Qed.
Print Assumptions C46_training_reals.

(** C46: the inference on a data point x computes sigma3 (x . beta) in slot 0 *)
Theorem C46_inference : forall (R : Type) (rO rI : R) radd rmul rsub ropp, ring_theory rO rI radd rmul rsub ropp (@eq R) ->
  forall s nf c0 c1 c3 c13 beta x, rmul c3 c13 = c1 -> (nf <= 2 ^ s)%nat -> (nf <= length x)%nat ->
  lrInfer rO rI radd rmul rsub ropp (2 ^ s) nf c0 c3 c13 beta x = Ok (sigma3 radd rmul c0 c1 c3 (dot rO radd rmul nf (entry1 rO x) (fun k => beta (Z.of_nat k)))).
Proof. exact @lrInfer_ok. Qed.
Print Assumptions C46_inference.

(** C46: the mini-batch programs: iteration a is a Nesterov step on the batchSize data points from (a mod numBatch) * batchSize on, when
    batchSize is below, or a multiple of, the number 2^(s - ceil(log2 nf)) of data points per ciphertext *)
Theorem C46_minibatch : forall (R : Type) (rO rI : R) radd rmul rsub ropp, ring_theory rO rI radd rmul rsub ropp (@eq R) ->
  forall s nf batchSize numTrain numIter gn c0 c1 c3 c13 etas feature label, rmul c3 c13 = c1 ->
  (Nat.log2_up nf <= s)%nat -> (0 < batchSize <= numTrain)%nat -> (batchSize < 2 ^ (s - Nat.log2_up nf))%nat \/ Nat.divide (2 ^ (s - Nat.log2_up nf)) batchSize ->
  table feature numTrain nf -> (numTrain <= length label)%nat -> (numIter <= length etas)%nat ->
  exists v beta, lrTrainBatch rO rI radd rmul rsub ropp (2 ^ s) nf (2 ^ Nat.log2_up nf) numTrain batchSize numIter gn c0 c3 c13 etas feature label = Ok (v, beta) /\
    let nb := nesterovAll rO rI radd rmul rsub c0 c1 c3 gn nf (entry rO feature) (entry1 rO label) (fun a => seq (a mod (numTrain / batchSize) * batchSize) batchSize) (firstn numIter etas) in
    forall row j, (row < 2 ^ (s - Nat.log2_up nf))%nat -> (j < nf)%nat -> let i := Z.of_nat (2 ^ Nat.log2_up nf * row + j) in v i = fst nb j /\ beta i = snd nb j.
Proof. exact @lrTrainBatch_exact. Qed.
Print Assumptions C46_minibatch.

Example C46_case_hyps : 1 * 2 = 2 /\ (3 <= 2 ^ 2)%nat /\ table wFeature (2 ^ 2) 3 /\ (2 ^ 2 <= length wLabel)%nat /\ (2 <= length [2; -1]%Z)%nat.
Proof. exact wTrain_hyps. Qed.
Example C46_case : map (readBeta wTrain) [0; 1; 2; 12; 13; 14] = map Some [-48054; -103473; -288732; -48054; -103473; -288732] /\ map (snd wNesterov) [0; 1; 2]%nat = [-48054; -103473; -288732].
Proof. exact wTrain_run. Qed.
Example C46_infer_case : lrInfer 0 1 Z.add Z.mul Z.sub Z.opp (2 ^ 3) 3 5 1 2 (fun i => i + 1) [2; 1; 1] = Ok (1 * (7 * 7 * 7) + 2 * 7 + 5).
Proof. exact wInfer_run. Qed.
Example C46_minibatch_case_hyps : (Nat.log2_up 2 <= 3)%nat /\ (0 < 2 <= 8)%nat /\ ((2 < 2 ^ (3 - Nat.log2_up 2))%nat \/ Nat.divide (2 ^ (3 - Nat.log2_up 2)) 2) /\ table bFeature 8 2 /\ (8 <= length bLabel)%nat /\ (2 <= length [2; -1]%Z)%nat.
Proof. exact bTrain_hyps. Qed.
Example C46_minibatch_case : map (readBeta (bTrain 2 2)) [0; 1; 6; 7] = map Some [-2; -1; -2; -1].
Proof. exact bTrain_run. Qed.

(** C48: every training index below numBatch * numCtPerBatch * realnumDataPerCt is dataId of exactly one (batch, ciphertext, row) *)
Theorem C48_partition : forall nct real numBatch d, (d < numBatch * (nct * real))%nat ->
  exists b i j, ((b < numBatch /\ i < nct /\ j < real) /\ dataId nct real b i j = d /\
    forall b' i' j', i' < nct /\ j' < real -> dataId nct real b' i' j' = d -> b' = b /\ i' = i /\ j' = j)%nat.
Proof. exact dataId_unique. Qed.
Print Assumptions C48_partition.

(** C48: packing never writes outside the 2^s slots; row j of ciphertext i of batch b holds the data point b*nct*real + i*real + j, if
    j < real and there is such a training point, and zeros otherwise *)
Theorem C48_packing : forall (R : Type) (rO : R) s nf batchSize numTrain feature b i, (Nat.log2_up nf <= s)%nat -> (0 < batchSize)%nat -> table feature numTrain nf ->
  let nct := numCtPerBatch (2 ^ s) nf batchSize in let real := realNumDataPerCt (2 ^ s) nf batchSize in
  exists v, packZ rO (2 ^ s) nf batchSize numTrain feature b i = Ok v /\ length v = (2 ^ s)%nat /\
    forall j k, (j < 2 ^ (s - Nat.log2_up nf))%nat -> (k < 2 ^ Nat.log2_up nf)%nat ->
      nth (2 ^ Nat.log2_up nf * j + k) v rO = if Nat.ltb j real && Nat.ltb (b * nct * real + i * real + j) numTrain && Nat.ltb k nf then entry rO feature (b * nct * real + i * real + j) k else rO.
Proof. exact @packZ_rows. Qed.
Print Assumptions C48_packing.

(** C48: the labels are packed in the same rows *)
Theorem C48_labels : forall (R : Type) (rO : R) s nf batchSize numTrain label b i, (Nat.log2_up nf <= s)%nat -> (0 < batchSize)%nat -> (numTrain <= length label)%nat ->
  let nct := numCtPerBatch (2 ^ s) nf batchSize in let real := realNumDataPerCt (2 ^ s) nf batchSize in
  exists v, packLabel rO (2 ^ s) nf batchSize numTrain label b i = Ok v /\ length v = (2 ^ s)%nat /\
    forall j k, (j < 2 ^ (s - Nat.log2_up nf))%nat -> (k < 2 ^ Nat.log2_up nf)%nat ->
      nth (2 ^ Nat.log2_up nf * j + k) v rO = if Nat.ltb j real && Nat.ltb (b * nct * real + i * real + j) numTrain && Nat.ltb k nf then entry1 rO label (b * nct * real + i * real + j) else rO.
Proof. exact @packLabel_rows. Qed.
Print Assumptions C48_labels.

(** C48: a batch holds exactly batchSize data points in these configurations and in no other *)
Theorem C48_batch_size : forall s nf batchSize, (Nat.log2_up nf <= s)%nat -> (0 < batchSize)%nat ->
  (numCtPerBatch (2 ^ s) nf batchSize * realNumDataPerCt (2 ^ s) nf batchSize = batchSize)%nat <->
  (batchSize < 2 ^ (s - Nat.log2_up nf))%nat \/ Nat.divide (2 ^ (s - Nat.log2_up nf)) batchSize.
Proof. exact batch_exact. Qed.
Print Assumptions C48_batch_size.

(** C48: in the others the ciphertexts of a batch hold more than batchSize data points *)
Theorem C48_batch_size_otherwise : forall s nf batchSize, (Nat.log2_up nf <= s)%nat -> (0 < batchSize)%nat ->
  ~ ((batchSize < 2 ^ (s - Nat.log2_up nf))%nat \/ Nat.divide (2 ^ (s - Nat.log2_up nf)) batchSize) ->
  (batchSize < numCtPerBatch (2 ^ s) nf batchSize * realNumDataPerCt (2 ^ s) nf batchSize)%nat.
Proof. exact batch_size_ge. Qed.
Print Assumptions C48_batch_size_otherwise.

(** C48: in the others the loops do not train on batches of batchSize: a run whose result is not a Nesterov step on the first batchSize
    data points *)
Theorem C48_minibatch_refuted : exists s nf batchSize numTrain (feature : list (list Z)) label v beta,
  (Nat.log2_up nf <= s)%nat /\ (0 < batchSize <= numTrain)%nat /\ table feature numTrain nf /\ (numTrain <= length label)%nat /\
  lrTrainBatch 0 1 Z.add Z.mul Z.sub Z.opp (2 ^ s) nf (2 ^ Nat.log2_up nf) numTrain batchSize 1 1 1 1 1 [2] feature label = Ok (v, beta) /\
  beta 0 <> snd (nesterovAll 0 1 Z.add Z.mul Z.sub 1 1 1 1 nf (entry 0 feature) (entry1 0 label) (fun a => seq (a mod (numTrain / batchSize) * batchSize) batchSize) [2]) 0%nat.
Proof. exact bTrain_wrong. Qed.
Print Assumptions C48_minibatch_refuted.

(** the shipped configuration of lr_minibatch.go (2^14 slots, 7 features, batches of 512) is a good one *)
Example C48_shipped : (Nat.log2_up 7 <= 14)%nat /\ (512 < 2 ^ (14 - Nat.log2_up 7))%nat.
Proof. split; apply Nat.ltb_lt || apply Nat.leb_le; vm_compute; reflexivity. Qed.
