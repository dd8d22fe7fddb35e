(** The sizes that lr_minibatch.go and lr_minibatch_toy.go compute in float64: math.Log2, math.Ceil and math.Pow.
    The bodies of math.Log2 and math.Pow are those of Go's standard library (recalled; not in /repo). *)
From Coq Require Import ZArith Bool List.
From Coq.Floats Require Import SpecFloat.
From Verif Require Import Go F64 Utils.
Local Open Scope Z_scope.

(** math.Frexp and math.Ldexp *)
Definition goFrexp : f64 -> f64 * Z := SFfrexp 53 1024.
Definition goLdexp : f64 -> Z -> f64 := SFldexp 53 1024.

(** math.Log2(x): [frac, exp := Frexp(x); if frac == 0.5 { return float64(exp - 1) }; return Log(frac)*(1/Ln2) + float64(exp)].
    [lg] stands for the product Log(frac)*(1/Ln2), whose accuracy is a hypothesis of the theorems. *)
Definition goLog2 (lg : f64 -> f64) (x : f64) : f64 :=
  let '(frac, exp) := goFrexp x in
  if feqb frac fhalf then f_of_Z (exp - 1) else fadd (lg frac) (f_of_Z exp).

(** The loop of math.Pow, [for i := int64(yi); i != 0; i >>= 1 { .. }]: repeated squaring on fraction and exponent *)
Fixpoint powLoop (fuel : nat) (i : Z) (x1 : f64) (xe : Z) (a1 : f64) (ae : Z) : f64 * Z :=
  match fuel with
  | O => (a1, ae)
  | S fuel =>
      if i =? 0 then (a1, ae)
      else if (xe <? - 4096) || (4096 <? xe) then (a1, ae + xe)
      else
        let '(b1, be) := if Z.odd i then (fmul a1 x1, ae + xe) else (a1, ae) in
        let sq := fmul x1 x1 in
        let '(z1, ze) := if fltb sq fhalf then (fadd sq sq, 2 * xe - 1) else (sq, 2 * xe) in
        powLoop fuel (i / 2) z1 ze b1 be
  end.
(** math.Pow(x, y) for a finite x > 0 and a finite y. [ex] stands for Exp(yf * Log(x)), the factor of a fractional
    exponent. The special cases for zeros, infinities, NaN and |y| >= 2^63 are left out: no caller in /repo has them. *)
Definition goPow (ex : f64 -> f64) (x y : f64) : f64 :=
  if feqb y f0 || feqb x (f_of_Z 1) then f_of_Z 1
  else if feqb y (f_of_Z 1) then x
  else if feqb y fhalf then SFsqrt 53 1024 x
  else if feqb y (fneg fhalf) then fdiv (f_of_Z 1) (SFsqrt 53 1024 x)
  else
    let yi := ffloor (fabs y) in
    let yf := fsub (fabs y) yi in
    let '(a1, yi) :=
      if feqb yf f0 then (f_of_Z 1, yi)
      else if fltb fhalf yf then (ex (fsub yf (f_of_Z 1)), fadd yi (f_of_Z 1)) else (ex yf, yi) in
    let '(x1, xe) := goFrexp x in
    let '(a1, ae) := powLoop 64 (i64_of_f yi) x1 xe a1 0 in
    let '(a1, ae) := if fltb y f0 then (fdiv (f_of_Z 1) a1, - ae) else (a1, ae) in
    goLdexp a1 ae.

(** int(math.Ceil(f)); a value outside the range of int64 gives -2^63, as on amd64 *)
Definition goCeil (f : f64) : Z :=
  match f with
  | S754_finite _ _ _ | S754_zero _ => let z := fceil f in if (- 2 ^ 63 <=? z) && (z <? 2 ^ 63) then z else - 2 ^ 63
  | _ => - 2 ^ 63
  end.

Section Sizes.
Context (lg ex : f64 -> f64).
(** lr/lr_minibatch.go:39, lr_minibatch_toy.go:41, lr.go:39, lr_toy.go:39: int(math.Pow(2, 14)); the other
    [int(math.Pow(2, float64(k)))] of the four programs *)
Definition fpow2 (k : Z) : Z := i64_of_f (goPow ex (f_of_Z 2) (f_of_Z k)).
(** lr/lr_minibatch.go:130, lr_minibatch_toy.go:158: logslotsPerData *)
Definition flogslotsPerData (numFeature : Z) : Z := goCeil (goLog2 lg (f_of_Z numFeature)).
(** lr/lr_minibatch.go:131, lr_minibatch_toy.go:159: slotsPerData *)
Definition fslotsPerData (numFeature : Z) : Z := fpow2 (flogslotsPerData numFeature).
(** lr/lr_minibatch.go:132, lr_minibatch_toy.go:160: numDataPerCt *)
Definition fnumDataPerCt (numSlots numFeature : Z) : Z :=
  i64_of_f (goPow ex (f_of_Z 2) (fsub (goLog2 lg (f_of_Z numSlots)) (f_of_Z (flogslotsPerData numFeature)))).
(** lr/lr_minibatch.go:133-136, lr_minibatch_toy.go:161-164: realnumDataPerCt *)
Definition frealNumDataPerCt (numSlots numFeature batchSize : Z) : Z :=
  let n := fnumDataPerCt numSlots numFeature in if batchSize <? n then batchSize else n.
(** lr/lr_minibatch.go:137, lr_minibatch_toy.go:165: numCtPerBatch *)
Definition fnumCtPerBatch (numSlots numFeature batchSize : Z) : Z :=
  goCeil (fdiv (f_of_Z batchSize) (f_of_Z (fnumDataPerCt numSlots numFeature))).
End Sizes.

(** math.Pow(d, 2) of lr_toy.go:140 and lr_minibatch_toy.go:144: the loop on a finite d that is not zero
    (math.Pow(+-0, 2) is +0, an infinity gives +Inf, NaN gives NaN) *)
Definition goSquare (d : f64) : f64 :=
  match d with
  | S754_zero _ => f0
  | S754_infinity _ => S754_infinity false
  | S754_nan => S754_nan
  | S754_finite _ _ _ =>
      let '(x1, xe) := goFrexp d in
      let '(a1, ae) := powLoop 64 2 x1 xe (f_of_Z 1) 0 in
      goLdexp a1 ae
  end.
