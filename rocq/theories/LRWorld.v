(** Concrete runs of the logistic-regression programs on integers. *)
From Coq Require Import ZArith Lia List Bool Ring_theory ZArithRing.
From Verif Require Import Go LR SpecSlots SpecLR SlotThms LRProofs LRPack LRThms.
Import ListNotations.
Local Open Scope Z_scope.

(** a small data set: 4 points of 3 features; the matrix has 4 rows of 4 columns *)
Definition wFeature : list (list Z) := [[1; 2; -1]; [0; 1; 3]; [2; -1; 1]; [1; 1; 1]].
Definition wLabel : list Z := [1; 0; 1; 0].
Definition wTrain := lrTrain 0 1 Z.add Z.mul Z.sub Z.opp (2 ^ 2 * 2 ^ 2) (2 ^ 2) (2 ^ 2) 3 2 1 3 1 2 [2; -1] wFeature wLabel.
Definition readBeta (r : res (@slotvec Z * @slotvec Z)) (i : Z) : option Z := match r with Ok (_, beta) => Some (beta i) | _ => None end.
Definition wNesterov := nesterovAll 0 1 Z.add Z.mul Z.sub 3 2 1 1 3 (entry 0 wFeature) (entry1 0 wLabel) (fun _ => seq 0 (2 ^ 2)) [2; -1].
(** the run, in the first and the last row, and the reference *)
Lemma wTrain_run : map (readBeta wTrain) [0; 1; 2; 12; 13; 14] = map Some [-48054; -103473; -288732; -48054; -103473; -288732] /\ map (snd wNesterov) [0; 1; 2]%nat = [-48054; -103473; -288732].
Proof. vm_compute. split; reflexivity. Qed.
Lemma wTrain_hyps : 1 * 2 = 2 /\ (3 <= 2 ^ 2)%nat /\ table wFeature (2 ^ 2) 3 /\ (2 ^ 2 <= length wLabel)%nat /\ (2 <= length [2; -1]%Z)%nat.
Proof. repeat split; cbn; try lia. intros i Hi. do 4 (destruct i as [|i]; [cbn; lia|]). lia. Qed.
(** the inference on x = (2, 1, 1) *)
Lemma wInfer_run : lrInfer 0 1 Z.add Z.mul Z.sub Z.opp (2 ^ 3) 3 5 1 2 (fun i => i + 1) [2; 1; 1] = Ok (1 * (7 * 7 * 7) + 2 * 7 + 5).
Proof. reflexivity. Qed.

(** 8 points of 2 features in batches of 6, 4 points per ciphertext *)
Definition bFeature : list (list Z) := [[1; 0]; [0; 1]; [1; 1]; [2; 0]; [0; 2]; [1; 2]; [2; 1]; [1; -1]].
Definition bLabel : list Z := [1; 0; 1; 1; 0; 0; 1; 0].
Definition bTrain (batchSize numIter : nat) := lrTrainBatch 0 1 Z.add Z.mul Z.sub Z.opp (2 ^ 3) 2 (2 ^ 1) 8 batchSize numIter 1 1 1 1 [2; -1] bFeature bLabel.
Lemma bTrain_hyps : (Nat.log2_up 2 <= 3)%nat /\ (0 < 2 <= 8)%nat /\ ((2 < 2 ^ (3 - Nat.log2_up 2))%nat \/ Nat.divide (2 ^ (3 - Nat.log2_up 2)) 2) /\ table bFeature 8 2 /\ (8 <= length bLabel)%nat /\ (2 <= length [2; -1]%Z)%nat.
Proof. repeat split; cbn; try lia. intros i Hi. do 8 (destruct i as [|i]; [cbn; lia|]). lia. Qed.
Lemma bTrain_run : map (readBeta (bTrain 2 2)) [0; 1; 6; 7] = map Some [-2; -1; -2; -1].
Proof. vm_compute. reflexivity. Qed.
(** one iteration with batches of 6 uses all 8 points *)
Lemma bTrain_wrong : exists s nf batchSize numTrain (feature : list (list Z)) label v beta,
  (Nat.log2_up nf <= s)%nat /\ (0 < batchSize <= numTrain)%nat /\ table feature numTrain nf /\ (numTrain <= length label)%nat /\
  lrTrainBatch 0 1 Z.add Z.mul Z.sub Z.opp (2 ^ s) nf (2 ^ Nat.log2_up nf) numTrain batchSize 1 1 1 1 1 [2] feature label = Ok (v, beta) /\
  beta 0 <> snd (nesterovAll 0 1 Z.add Z.mul Z.sub 1 1 1 1 nf (entry 0 feature) (entry1 0 label) (fun a => seq (a mod (numTrain / batchSize) * batchSize) batchSize) [2]) 0%nat.
Proof.
  destruct (lrTrainBatch_ok 0 1 Z.add Z.mul Z.sub Z.opp Zth 3 2 6 8 ltac:(cbn; lia) ltac:(lia) bFeature bLabel) with (gn := 1) (c0 := 1) (c1 := 1) (c3 := 1) (c13 := 1) (etas := [2]) (numIter := 1%nat) as (v & beta & E & H); try (cbn; lia).
  { split; [cbn; lia|]. intros i Hi. do 8 (destruct i as [|i]; [cbn; lia|]). lia. }
  exists 3%nat, 2%nat, 6%nat, 8%nat, bFeature, bLabel, v, beta. repeat split; try (cbn; lia); [intros i Hi; do 8 (destruct i as [|i]; [cbn; lia|]); lia|exact E|].
  destruct (H 0%nat 0%nat) as [_ Hb]; [cbn; lia|lia|]. change (Z.of_nat (2 ^ Nat.log2_up 2 * 0 + 0)) with 0 in Hb. rewrite Hb. vm_compute. discriminate.
Qed.
