(** mkckks/utils.go: the statistics helper. *)
From Coq Require Import ZArith List.
From Coq.Floats Require Import SpecFloat.
From Verif Require Import Go F64 LRData.
Import ListNotations.

(** mkckks/utils.go:10-28 StandardDeviation, over the arithmetic operations it uses ([mul] for the final multiplication by scale; tmp*tmp is
    [nsq]) *)
Definition StandardDeviation {T} (A : numops T) (mul : T -> T -> T) (vec : list T) (scale : T) : T :=
  let n := nofnat A (length vec) in
  let mean := ndiv A (fold_left (fun mean c => nadd A mean c) vec (n0 A)) n in
  let err := fold_left (fun err c => nadd A err (nsq A (nsub A c mean))) vec (n0 A) in
  mul (nsqrt A (ndiv A err n)) scale.
(** float64 *)
Definition StandardDeviationF : list f64 -> f64 -> f64 := StandardDeviation f64num fmul.
