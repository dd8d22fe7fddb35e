(** What the float64 constants of the logistic-regression programs are compared with.  Definitions only. *)
From Coq Require Import ZArith List Reals.
From Coq.Floats Require Import SpecFloat.
From Verif Require Import Go F64 LR SpecEv SpecLREnc LRRel LRConst.
Import ListNotations.
Local Open Scope R_scope.

(** the float64 slots f are finite and within d of the real slots m *)
Definition near (d : R) (m : Z -> R) (f : Z -> f64) : Prop := forall i, finite (f i) /\ Rabs (fR (f i) - m i) <= d.
(** a finite float64 of absolute value at most G *)
Definition within (G : R) (x : f64) : Prop := finite x /\ Rabs (fR x) <= G.
(** real slots of float64 slots *)
Definition rslots (f : Z -> f64) : Z -> R := fun i => fR (f i).
(** the rounding error of the constants when all inputs are within G *)
Definition const_err (G : R) : R := 17 / 2 ^ 51 * G ^ 3.
(** the exact constants: real arithmetic on the values of the same inputs *)
Definition exact_const (gamma : f64) (n : nat) (c0 c1 c3 : f64) (etas mask : list f64) (y : Z -> f64) : lrconst (Z -> R) (Z -> R) :=
  vconst 0 1 Rmult Rminus Ropp (fR gamma / INR n) (fR c0) (fR c3) (fR c1 / fR c3) (map fR etas) (map fR mask) (rslots y).
(** the constants and labels are finite and at most G in absolute value, c3 is not 0, and c1/c3 is at most G^3 *)
Definition inputs_within (G : R) (gamma c0 c1 c3 : f64) (etas label : list f64) : Prop :=
  1 <= G <= 2 ^ 100 /\ within G gamma /\ within G c0 /\ within G c3 /\ within G c1 /\ fR c3 <> 0 /\ Rabs (fR c1 / fR c3) <= G ^ 3 /\ Forall (within G) etas /\ Forall (within G) label.
(** the exact batches: real arithmetic on the values of the same inputs *)
Definition exact_batches (numSlots numFeature numTrain batchSize : nat) (gamma c0 c1 c3 : f64) (etas : list f64) (feature : list (list f64)) (label : list f64) : res (list (list ((Z -> R) * (Z -> R) * list (Z -> R)))) :=
  packBatches 0 1 Rmult Rminus Ropp numSlots numFeature numTrain batchSize (fR gamma / INR batchSize) (fR c0) (fR c3) (fR c1 / fR c3) (map fR etas) (map (map fR) feature) (map fR label).
(** the same data, constants up to d *)
Definition batches_near (d : R) (bs : list (list ((Z -> R) * (Z -> R) * list (Z -> R)))) (bf : list (list ((Z -> f64) * (Z -> f64) * list (Z -> f64)))) : Prop :=
  Forall2 (Forall2 (fun x y => (forall i, fst (fst x) i = fR (fst (fst y) i)) /\ near d (snd (fst x)) (snd (fst y)) /\ Forall2 (near d) (snd x) (snd y))) bs bf.
