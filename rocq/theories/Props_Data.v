(** The data of the logistic-regression programs (properties C54 to C57): reading the file, labels, normalisation, counting correct predictions.
    Vocabulary: SpecData.v.  [parse] is strconv.ParseFloat, any function; the fields of a file are given as strings. *)
From Coq Require Import Reals String ZArith List Bool.
From Coq.Floats Require Import SpecFloat.
From Verif Require Import Spec Go Arith NegRing BasisExt NTT RingOps Params F64 SpecCt SpecEnc SpecSlots LR SpecLR SpecLREnc SpecSetup LRData SpecData SpecLRConst SpecStats StatsRoundThms LRDataProofs LRNorm LRCount LRDataThms Shipped EvWorld LRDataWorld.
Import ListNotations.

(** C54: a well-formed file is read: row i of the table holds the fields of the i-th row below the header except the last, entry i of the labels the last *)
Theorem C54_read : forall parse numFeature numData recs, file_ok parse numData numFeature recs ->
  exists F L, readData parse numData numFeature recs = Ok (F, L) /\ file_data parse numData numFeature recs F L.
Proof. exact read_ok. Qed.
Print Assumptions C54_read.
(** C54: and readData panics on every other file *)
Theorem C54_read_iff : forall parse numFeature numData recs,
  (exists r, readData parse numData numFeature recs = Ok r) <-> file_ok parse numData numFeature recs.
Proof. exact read_iff. Qed.
Print Assumptions C54_read_iff.
(** C54: the first n rows of a file with at least n rows make a table of the kind the training theorems (C45, C46, C53) take *)
Theorem C54_tables : forall parse numData d recs F L n, file_data parse numData d recs F L -> n <= length (tl recs) -> n <= numData ->
  table (map (map fR) F) n d /\ n <= length (map fR L).
Proof. exact file_tables. Qed.
Print Assumptions C54_tables.
Example C54_case : file_ok parse01 3 2 [["a"; "b"; "y"]; ["1"; "0"; "1"]; ["0"; "1"; "0"]]%string.
Proof. exact file_case. Qed.

(** C55: the label of a row becomes 1 when it equals the chosen class and 0 otherwise (lr.go, lr_toy.go, lr_minibatch.go) *)
Theorem C55_labels : forall k numData label, (Z.abs k <= 2 ^ 53)%Z -> numData <= length label ->
  exists label', relabel (isClass (f_of_Z k)) numData label = Ok label' /\ length label' = length label /\
  forall i l, i < numData -> nth_error label i = Some l -> finite l -> exists b, nth_error label' i = Some (lab b) /\ (b = true <-> fR l = IZR k).
Proof. exact labels. Qed.
Print Assumptions C55_labels.
(** C55: lr_minibatch_toy.go truncates first: every label strictly between -1 and 1 counts as class 0 *)
Theorem C55_labels_int : forall numData label, numData <= length label ->
  exists label', relabel (isClassInt 0) numData label = Ok label' /\ length label' = length label /\
  forall i l, i < numData -> nth_error label i = Some l -> finite l -> exists b, nth_error label' i = Some (lab b) /\ (b = true <-> (-1 < fR l < 1)%R).
Proof. exact labels_int. Qed.
Print Assumptions C55_labels_int.
(** the programs disagree on the label 1/2 *)
Theorem C55_programs_agree_refuted : finite fhalf /\ fR fhalf = (1 / 2)%R /\ isClass f0 fhalf = false /\ isClassInt 0 fhalf = true.
Proof. exact labels_disagree. Qed.
Print Assumptions C55_programs_agree_refuted.
(** C55, a finding: with class 0, as in all four programs, the rows that a short file does not have are members of the class, without features *)
Theorem C55_missing_rows : forall parse numData numFeature recs F L, readData parse numData numFeature recs = Ok (F, L) -> length (tl recs) < numData ->
  forall isC, isC = isClass f0 \/ isC = isClassInt 0 -> exists L', relabel isC numData L = Ok L' /\
  forall i, length (tl recs) <= i < numData -> nth_error F i = Some [] /\ nth_error L' i = Some (lab true).
Proof. exact missing_rows. Qed.
Print Assumptions C55_missing_rows.
Example C55_case : length (tl [["a"; "b"; "y"]; ["1"; "0"; "1"]; ["0"; "1"; "0"]]%string) < 3 /\ exists F L, readData parse01 3 2 [["a"; "b"; "y"]; ["1"; "0"; "1"]; ["0"; "1"; "0"]]%string = Ok (F, L).
Proof. split; [exact (le_n 3)|]. eexists. eexists. reflexivity. Qed.

(** C56: in exact arithmetic lr_toy.go gives every column that is to be normalised, and is not constant, mean 0 and variance 1 over the training
    rows, by an increasing affine map that is applied to the test rows as well *)
Theorem C56_normalise_toy : forall numData d batchSize tab, table tab numData d -> 0 < batchSize <= numData ->
  exists tab', normaliseToy Rnum numData d batchSize tab = Ok tab' /\ normalised numData d batchSize (INR batchSize) tab tab'.
Proof. exact normalise_toy. Qed.
Print Assumptions C56_normalise_toy.
(** C56: lr_minibatch_toy.go: sample variance 1 *)
Theorem C56_normalise_minibatch_toy : forall numData d numTrain tab, table tab numData d -> 1 < numTrain <= numData ->
  exists tab', normaliseMinibatchToy Rnum numData d numTrain tab = Ok tab' /\ normalised numData d numTrain (INR numTrain - 1) tab tab'.
Proof. exact normalise_minibatch_toy. Qed.
Print Assumptions C56_normalise_minibatch_toy.
Example C56_case : let tab := [[1; 5]; [3; 6]; [4; 7]]%R in table tab 3 2 /\ 1 < 2 <= 3 /\ ~ kept 0 /\ kept 1 /\ entry 0%R tab 0 0 <> entry 0%R tab 1 0.
Proof. exact normalise_case. Qed.
(** C56: in float64 the table is that of the exact computation on the same data up to an error of 640 m / 2^53 (G / sd)^3 per entry, for data up to G in
    columns whose deviation sd over the m training rows is not tiny; kept columns are unchanged *)
Theorem C56_rounding_toy : forall G numData d m tab, (1 <= G <= 2 ^ 100)%R -> table tab numData d -> 0 < m <= numData -> (INR m <= 2 ^ 20)%R ->
  (forall i j, i < numData -> j < d -> within G (entry f0 tab i j)) ->
  exists tab' tabR, normaliseToy f64num numData d m tab = Ok tab' /\ normaliseToy Rnum numData d m (map (map fR) tab) = Ok tabR /\ table tab' numData d /\
    (forall i j, i < numData -> j < d -> kept j -> entry f0 tab' i j = entry f0 tab i j) /\
    forall j, j < d -> ~ kept j -> let sd := deviation m (INR m) (fun i => fR (entry f0 tab i j)) in (2 ^ 10 * INR m / 2 ^ 53 * G ^ 2 <= sd ^ 2)%R ->
      forall i, i < numData -> finite (entry f0 tab' i j) /\ (Rabs (fR (entry f0 tab' i j) - entry 0%R tabR i j) * sd ^ 3 <= 640 * INR m / 2 ^ 53 * G ^ 3)%R.
Proof. exact normalise_rounding_toy. Qed.
Print Assumptions C56_rounding_toy.
(** C56: lr_minibatch_toy.go *)
Theorem C56_rounding_minibatch_toy : forall G numData d m tab, (1 <= G <= 2 ^ 100)%R -> table tab numData d -> 1 < m <= numData -> (INR m <= 2 ^ 20)%R ->
  (forall i j, i < numData -> j < d -> within G (entry f0 tab i j)) ->
  exists tab' tabR, normaliseMinibatchToy f64num numData d m tab = Ok tab' /\ normaliseMinibatchToy Rnum numData d m (map (map fR) tab) = Ok tabR /\ table tab' numData d /\
    (forall i j, i < numData -> j < d -> kept j -> entry f0 tab' i j = entry f0 tab i j) /\
    forall j, j < d -> ~ kept j -> let sd := deviation m (INR m - 1) (fun i => fR (entry f0 tab i j)) in (2 ^ 10 * INR m / 2 ^ 53 * G ^ 2 <= sd ^ 2)%R ->
      forall i, i < numData -> finite (entry f0 tab' i j) /\ (Rabs (fR (entry f0 tab' i j) - entry 0%R tabR i j) * sd ^ 3 <= 640 * INR m / 2 ^ 53 * G ^ 3)%R.
Proof. exact normalise_rounding_minibatch_toy. Qed.
Print Assumptions C56_rounding_minibatch_toy.
Example C56_rounding_case : let tab := [[f_of_Z 1; f_of_Z 5]; [f_of_Z 3; f_of_Z 6]; [f_of_Z 4; f_of_Z 7]] in table tab 3 2 /\ 1 < 2 <= 3 /\ ~ kept 0 /\
  (forall i j, i < 3 -> j < 2 -> within 8 (entry f0 tab i j)) /\ (2 ^ 10 * INR 2 / 2 ^ 53 * 8 ^ 2 <= deviation 2 (INR 2) (fun i => fR (entry f0 tab i 0)) ^ 2)%R.
Proof. exact rounding_case. Qed.
(** C56, a finding: in float64 a constant column of integers becomes NaN in every training row, in both programs (dv is the divisor of the variance) *)
Theorem C56_constant_column : forall numData d m dv tab j k, table tab numData d -> 0 < m <= numData -> j < d -> ~ kept j -> (Z.abs k * Z.of_nat m <= 2 ^ 53)%Z ->
  (forall i, i < m -> finite (entry f0 tab i j) /\ fR (entry f0 tab i j) = IZR k) ->
  exists tab', normalise f64num numData d m dv tab = Ok tab' /\ forall i, i < m -> entry f0 tab' i j = S754_nan.
Proof. exact constant_kept. Qed.
Print Assumptions C56_constant_column.
Example C56_constant_case : let tab := repeat [f_of_Z 7] 4 in table tab 4 1 /\ (Z.abs 7 * Z.of_nat 3 <= 2 ^ 53)%Z /\ forall i, i < 3 -> finite (entry f0 tab i 0) /\ fR (entry f0 tab i 0) = 7%R.
Proof. exact constant_case. Qed.
(** C56, a finding: with a file of fewer rows than numData the normalisation panics (C55_case: readData accepts such a file) *)
Theorem C56_missing_rows : forall parse numData numFeature recs F L, readData parse numData numFeature recs = Ok (F, L) -> length (tl recs) < numData -> 0 < numFeature ->
  forall m dv t', normalise f64num numData numFeature m dv F <> Ok t'.
Proof. exact normalise_missing_rows. Qed.
Print Assumptions C56_missing_rows.

(** C57: the number of correct predictions is that of the pairs whose value is on the label's side of 1/2 *)
Theorem C57_count : forall fs bs, Forall finite fs ->
  countCorrect fs (map lab bs) = length (filter (fun pb => agrees (fR (fst pb)) (snd pb)) (combine fs bs)).
Proof. exact count_finite. Qed.
Print Assumptions C57_count.
(** C57: when the errors of encryption and decoding are below the distance of the probability from 1/2, the count is the one the exact probabilities give *)
Theorem C57_count_clear : forall pp l Msg (decode : poly -> f64 -> Msg) re0 M ed msgs ps bs,
  1 <= pa_logN pp -> decoder_ok pp l decode re0 M ed -> Forall2 (clear pp l decode M ed) msgs ps ->
  countCorrect (map re0 msgs) (map lab bs) = length (filter (fun pb => agrees (fst pb) (snd pb)) (combine ps bs)).
Proof. exact @count_clear. Qed.
Print Assumptions C57_count_clear.
Example C57_case : decoder_ok shipped 0 decode0 (fun x => x) 1024 1 /\ clear shipped 0 decode0 1024 1 (decode0 pt3 sc38) 3.
Proof. exact (conj decode0_ok pt3_clear). Qed.
(** C57, a finding: predictions that are NaN are never correct, whatever the label *)
Theorem C57_nan : forall fs labels, Forall (eq S754_nan) fs -> countCorrect fs labels = 0.
Proof. exact count_nan_all. Qed.
Print Assumptions C57_nan.
