(** mkckks/utils.go:144-182 scaleUpVecExactBigFloat.  A big.Float is a binary float with its precision; its exponent range, that of int32,
    is modelled by the exponents below 2^31.  Rounding is to nearest even, the default mode. *)
From Coq Require Import String ZArith List Bool.
From Coq.Floats Require Import SpecFloat.
From Verif Require Import Go F64 Utils.
Import ListNotations.
Local Open Scope Z_scope.
Open Scope go_scope.

Record bigf := mkBig { bg_v : spec_float; bg_prec : Z }.
Definition bigEmax : Z := 2 ^ 31.
(** a non-zero mantissa and exponent rounded to p bits *)
Definition bigRound (p : Z) (s : bool) (m : positive) (e : Z) : spec_float := SpecFloat.binary_round p bigEmax s m e.
(** lattigo ring.NewFloat(x, prec): SetPrec, then SetFloat64, which takes 53 bits when the precision is 0 and panics on NaN *)
Definition effPrec (prec : Z) : Z := if prec =? 0 then 53 else prec.
Definition ringNewFloat (x : f64) (p : Z) : res spec_float :=
  match x with
  | S754_nan => Panic (PMsg "Float.SetFloat64(NaN)"%string)
  | S754_finite s m e => Ok (bigRound p s m e)
  | _ => Ok x
  end.
(** Mul into a receiver of precision p: the exact product is rounded once; 0 * Inf panics with ErrNaN *)
Definition bigMul (p : Z) (x y : spec_float) : res spec_float :=
  match x, y with
  | S754_finite s0 m0 e0, S754_finite s1 m1 e1 => Ok (bigRound p (xorb s0 s1) (m0 * m1) (e0 + e1))
  | _, _ => let z := SFmul p bigEmax x y in if is_nan z then Panic (PMsg "multiplication of zero with infinity"%string) else Ok z
  end.
(** Add and Sub of a finite y *)
Definition bigAdd (p : Z) (x y : spec_float) : spec_float := SFadd p bigEmax x y.
Definition bigSub (p : Z) (x y : spec_float) : spec_float := SFsub p bigEmax x y.
(** Float.Int(z): truncation; an infinity leaves z as it is *)
Definition bigInt (x : spec_float) (old : Z) : Z := match x with S754_infinity _ => old | _ => ftrunc x end.

(** the integer of one value; [old]: xInt, which the loop shares between the values *)
Definition bigUp1 (p : Z) (scaleFlo half v : spec_float) (old : Z) : res Z :=
  let* x := bigMul p scaleFlo v in
  Ok (bigInt (if fltb v f0 then bigSub p x half else bigAdd p x half) old).
(** tmp.Mod(xInt, Q), plus Q for a negative value; Uint64 *)
Definition bigWord (v : spec_float) (xInt q : Z) : Z := let t := xInt mod q in (if fltb v f0 then t + q else t) mod W.
(** utils.go:144-182 scaleUpVecExactBigFloat; coeffs after the call *)
Definition scaleUpVecExactBigFloat (values : list bigf) (scale : f64) (moduli : list Z) (coeffs : list (list Z)) : res (list (list Z)) :=
  let* v0 := idx values 0 in
  let p := effPrec (bg_prec v0) in
  let* scaleFlo := ringNewFloat scale p in
  let* half := ringNewFloat fhalf p in
  let* (coeffs, _) := foldM (fun '(coeffs, xInt) '(i, v) =>
      let* xInt := bigUp1 p scaleFlo half (bg_v v) xInt in
      let* coeffs := foldM (fun coeffs '(j, q) => set2 coeffs j i (bigWord (bg_v v) xInt q))
        (combine (seq 0 (List.length moduli)) moduli) coeffs in
      Ok (coeffs, xInt))
    (combine (seq 0 (List.length values)) values) (coeffs, 0) in
  Ok coeffs.
