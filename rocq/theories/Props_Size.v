(** C63: the sizes the mini-batch programs compute with math.Log2, math.Ceil and math.Pow.
    [log_ok lg]: the product Log(frac)*(1/Ln2) inside math.Log2 is accurate to 2^-45; [sizes_ok]: what the sizes should be (SpecSize.v). *)
From Coq Require Import ZArith Reals List Bool Lra Lia.
From Coq.Floats Require Import SpecFloat.
From Verif Require Import Go F64 Utils SpecEv SpecLREnc LR LRSize SpecSize LRSizeThms.
Local Open Scope Z_scope.

(** C63: a record gets the least power of two of slots that holds it, the records fill the ciphertext, and a batch takes as few ciphertexts as possible *)
Theorem C63_sizes : forall lg ex s numFeature batchSize, log_ok lg -> 0 <= s <= 40 -> 1 <= numFeature <= 2 ^ 40 -> numFeature <= 2 ^ s -> 1 <= batchSize < 2 ^ 53 ->
  sizes_ok (2 ^ s) numFeature batchSize (fslotsPerData lg ex numFeature) (fnumDataPerCt lg ex (2 ^ s) numFeature)
    (frealNumDataPerCt lg ex (2 ^ s) numFeature batchSize) (fnumCtPerBatch lg ex (2 ^ s) numFeature batchSize).
Proof. exact (fun lg ex s nf b Hl Hs Hn Hf Hb => sizes_right lg ex s nf Hl Hs Hn b Hf Hb). Qed.
Print Assumptions C63_sizes.

(** the integer functions the packing theorems (C48) use are these sizes *)
Theorem C63_sizes_are_the_models : forall lg ex (s nf batch : nat), log_ok lg -> (s <= 40)%nat -> (1 <= nf <= 2 ^ s)%nat -> (1 <= batch)%nat -> Z.of_nat batch < 2 ^ 53 ->
  let S := 2 ^ Z.of_nat s in
  fslotsPerData lg ex (Z.of_nat nf) = Z.of_nat (slotsPerData nf) /\
  fnumDataPerCt lg ex S (Z.of_nat nf) = Z.of_nat (numDataPerCt (2 ^ s) nf) /\
  frealNumDataPerCt lg ex S (Z.of_nat nf) (Z.of_nat batch) = Z.of_nat (realNumDataPerCt (2 ^ s) nf batch) /\
  fnumCtPerBatch lg ex S (Z.of_nat nf) (Z.of_nat batch) = Z.of_nat (numCtPerBatch (2 ^ s) nf batch).
Proof. exact sizes_model. Qed.
Print Assumptions C63_sizes_are_the_models.

(** C63: with more features than slots no record fits, and the number of ciphertexts becomes negative (making a slice of it panics) *)
Theorem C63_too_many_features : forall lg ex s numFeature batchSize, log_ok lg -> 0 <= s <= 40 -> 1 <= numFeature <= 2 ^ 40 -> 2 ^ s < numFeature -> 1 <= batchSize < 2 ^ 53 ->
  fnumDataPerCt lg ex (2 ^ s) numFeature = 0 /\ fnumCtPerBatch lg ex (2 ^ s) numFeature batchSize = - 2 ^ 63.
Proof. exact (fun lg ex s nf b Hl Hs Hn Hf Hb => sizes_none lg ex s nf Hl Hs Hn b Hf Hb). Qed.
Print Assumptions C63_too_many_features.

(** C63: int(math.Pow(2, float64(k))) is 2^k *)
Theorem C63_pow2 : forall ex k, 0 <= k <= 62 -> fpow2 ex k = 2 ^ k.
Proof. exact fpow2_exact. Qed.
Print Assumptions C63_pow2.

(** C63: math.Pow(d, 2), as the normalisation uses it, is the correctly rounded square *)
Theorem C63_square : forall d, finite d -> (fR d = 0 \/ powerRZ 2 (-500) <= Rabs (fR d) <= powerRZ 2 500)%R -> goSquare d = fmul d d.
Proof. exact square_pow. Qed.
Print Assumptions C63_square.

(** a logarithm of that accuracy exists; the sizes of lr_minibatch.go (7 features, batches of 512, 2^14 slots) and lr_minibatch_toy.go (20, 128) *)
Example C63_case : exists lg, log_ok lg /\ forall ex,
  (fpow2 ex 14 = 16384 /\ fslotsPerData lg ex 7 = 8 /\ fnumDataPerCt lg ex 16384 7 = 2048 /\ frealNumDataPerCt lg ex 16384 7 512 = 512 /\ fnumCtPerBatch lg ex 16384 7 512 = 1) /\
  (fslotsPerData lg ex 20 = 32 /\ fnumDataPerCt lg ex 16384 20 = 512 /\ frealNumDataPerCt lg ex 16384 20 128 = 128 /\ fnumCtPerBatch lg ex 16384 20 128 = 1) /\
  (fnumDataPerCt lg ex 4 7 = 0) /\ fnumCtPerBatch lg ex 16384 7 5000 = 3.
Proof. exact sizes_case. Qed.
Example C63_square_case : finite (f_of_Z 3) /\ fR (f_of_Z 3) = 3%R /\ goSquare (f_of_Z 3) = f_of_Z 9 /\ goSquare (fneg (f_of_Z 5)) = f_of_Z 25.
Proof. exact square_case. Qed.
