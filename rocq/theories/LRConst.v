(** The float64 arithmetic that prepares the constants of the logistic-regression programs. *)
From Coq Require Import ZArith Bool List.
From Coq.Floats Require Import SpecFloat.
From Verif Require Import Go F64 Utils LR LRData.
Import ListNotations.
Local Open Scope Z_scope.

(** lr/lr.go:165-243 (lr_toy.go:202-276, lr_minibatch.go:193-279, lr_minibatch_toy.go:221-307) on float64 slots: [gamma] = float64(gamma),
    [n] = batchSize, [c0], [c1], [c3] and the weights are float64 variables (lr.go:20-36), [y] the label vector.  Operations associate to the left, as in
    Go, and are rounded one by one.  The messages have imaginary part 0. *)
Section K.
Context (gamma : f64) (n : nat) (c0 c1 c3 : f64) (etas : list f64) (mask : list f64) (y : Z -> f64).
Notation bs := (f_of_Z (Z.of_nat n)).
(** -float64(gamma)/float64(batchSize) *)
Definition fstep : f64 := fdiv (fneg gamma) bs.
(** -(1-eta)*float64(gamma)/float64(batchSize) *)
Definition fstep2 (eta : f64) : f64 := fdiv (fmul (fneg (fsub f1 eta)) gamma) bs.
Definition fconst : lrconst (Z -> f64) (Z -> f64) := {|
  k_mask := fun i => nth (Z.to_nat i) mask f0;
  k_1 := fun i => fmul fstep (fsub c0 (y i));
  k_2 := map (fun eta i => fmul (fstep2 eta) (fsub c0 (y i))) etas;
  k_3 := fun _ => fmul fstep c3;
  k_4 := map (fun eta _ => fmul (fstep2 eta) c3) etas;
  k_5 := fun _ => fdiv c1 c3;
  k_6 := map (fun eta _ => fsub f1 eta) etas;
  k_7 := map (fun eta _ => eta) etas;
  k_8 := fun _ => c3;
  k_9 := fun _ => c0
|}.
End K.
(** lr/lr_minibatch.go:139-224 (lr_minibatch_toy.go:167-252): z[b][i], const1_pt[b][i] and const2_pt[b][i] *)
Definition fpackBatches (numSlots numFeature numTrain batchSize : nat) (gamma c0 c1 c3 : f64) (etas : list f64) (feature : list (list f64)) (label : list f64) : res (list (list ((Z -> f64) * (Z -> f64) * list (Z -> f64)))) :=
  let numBatch := Nat.div numTrain batchSize in
  let nct := numCtPerBatch numSlots numFeature batchSize in
  mapM (fun b => mapM (fun i =>
    let* z := packZ f0 numSlots numFeature batchSize numTrain feature b i in
    let* y := packLabel f0 numSlots numFeature batchSize numTrain label b i in
    let K := fconst gamma batchSize c0 c1 c3 etas [] (ofList f0 y) in
    Ok (ofList f0 z, k_1 K, k_2 K)) (seq 0 nct)) (seq 0 numBatch).
