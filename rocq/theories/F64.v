(** Go's float64, as IEEE-754 binary64 with round-to-nearest-even, through the
    executable specification [Coq.Floats.SpecFloat] (no primitive floats, no axioms). *)
From Coq Require Import ZArith Bool.
From Coq.Floats Require Import SpecFloat.
From Verif Require Import Go.
Local Open Scope Z_scope.

Definition f64 := spec_float.
Definition f0 : f64 := S754_zero false.

(** float64(n) for an integer n *)
Definition f_of_Z (n : Z) : f64 := binary_normalize 53 1024 n 0 false.
Definition fadd : f64 -> f64 -> f64 := SFadd 53 1024.
Definition fsub : f64 -> f64 -> f64 := SFsub 53 1024.
Definition fmul : f64 -> f64 -> f64 := SFmul 53 1024.
Definition fdiv : f64 -> f64 -> f64 := SFdiv 53 1024.
(** x <= y, x < y, x == y (false on NaN) *)
Definition fleb : f64 -> f64 -> bool := SFleb.
Definition fltb : f64 -> f64 -> bool := SFltb.
Definition feqb : f64 -> f64 -> bool := SFeqb.
(** math.Max on non-NaN values *)
Definition fmax (x y : f64) : f64 := if fltb x y then y else x.

(** Truncation towards zero (integer conversions int(f), uint64(f) inside their range).
    Non-finite values, whose conversion is implementation-specific in Go, give 0. *)
Definition ftrunc (f : f64) : Z :=
  match f with
  | S754_finite s m e =>
      let a := if 0 <=? e then Zpos m * 2 ^ e else Zpos m / 2 ^ (- e) in
      if s then - a else a
  | _ => 0
  end.
(** int(math.Ceil(f)) *)
Definition fceil (f : f64) : Z :=
  match f with
  | S754_finite s m e =>
      if 0 <=? e then (if s then - (Zpos m * 2 ^ e) else Zpos m * 2 ^ e)
      else if s then - (Zpos m / 2 ^ (- e)) else - ((- Zpos m) / 2 ^ (- e))
  | _ => 0
  end.
(** uint64(f) *)
Definition u64_of_f (f : f64) : Z := wrap (ftrunc f).
