(** mkckks/utils.go.  math/big: big.Int values are [Z]; moduli are positive (a zero modulus
    panics in Go).  scaleUpVecExactBigFloat is in UtilsBig.v. *)
From Coq Require Import String ZArith List Bool.
From Coq.Floats Require Import SpecFloat.
From Verif Require Import Go Lattigo F64.
Import ListNotations.
Local Open Scope Z_scope.
Open Scope go_scope.

Definition fneg : f64 -> f64 := SFopp.
Definition fabs : f64 -> f64 := SFabs.
Definition fhalf : f64 := fdiv (f_of_Z 1) (f_of_Z 2).
Definition is_nan (f : f64) : bool := match f with S754_nan => true | _ => false end.
(** big.NewFloat panics on NaN *)
Definition bigNewFloat (f : f64) : res f64 := if is_nan f then Panic (PMsg "NewFloat(NaN)"%string) else Ok f.
(** math.Floor *)
Definition ffloor (f : f64) : f64 :=
  match f with
  | S754_finite s m e =>
      if 0 <=? e then f else f_of_Z (if s then (- Zpos m) / 2 ^ (- e) else Zpos m / 2 ^ (- e))
  | _ => f
  end.
(** int64(f); a value outside the range of int64 (implementation-specific in Go) gives -2^63, as on amd64 *)
Definition i64_of_f (f : f64) : Z :=
  match f with
  | S754_finite _ _ _ | S754_zero _ => let z := ftrunc f in if (- 2 ^ 63 <=? z) && (z <? 2 ^ 63) then z else - 2 ^ 63
  | _ => - 2 ^ 63
  end.
(** uint64 and int64 reinterpretation *)
Definition i64 (x : Z) : Z := let y := x mod W in if y <? 2 ^ 63 then y else y - W.

(** utils.go:30-57 interfaceMod: the dynamic types of the argument *)
Inductive gint := GU64 (x : Z) | GI64 (x : Z) | GBig (x : Z) | GOther.
Definition interfaceMod (x : gint) (qi : Z) : res Z :=
  match x with
  | GU64 x => Ok (x mod qi)
  | GI64 x => if 0 <? x then Ok x
              else if x <? 0 then Ok (wrap (i64 (i64 qi + Z.rem x (i64 qi))))
              else Ok 0
  | GBig x => if x =? 0 then Ok 0 else Ok (x mod qi)
  | GOther => Panic (PMsg "constant must either be uint64, int64 or *big.Int")
  end.

(** utils.go:59-86.  The big.Float has precision 53, so that adding 0.5 rounds as float64 does;
    Int() of an infinity leaves the fresh big.Int at 0. *)
Definition scaleUpExact (value n : f64) (q : Z) : res Z :=
  let neg := fltb value f0 in
  let* x := bigNewFloat (if neg then fmul (fneg n) value else fmul n value) in
  let r := ftrunc (fadd x fhalf) mod q in
  Ok (if neg then wsub q r else r).

(** coeffs[j][i] = v *)
Definition set2 (coeffs : list (list Z)) (j i : nat) (v : Z) : res (list (list Z)) :=
  let* row := idx coeffs j in
  let* _ := idx row i in
  Ok (firstn j coeffs ++ (firstn i row ++ v :: skipn (i + 1) row) :: skipn (j + 1) coeffs).

(** utils.go:95-132: the residue written for one value and one modulus; 1.8446744073709552e+19 = 2^64 *)
Definition scaleUpVec1 (v n : f64) (q : Z) : res Z :=
  if fltb (f_of_Z W) (fmul n (fabs v)) then
    let neg := fltb v f0 in
    let* x := bigNewFloat (if neg then fmul (fneg n) v else fmul n v) in
    let t := ftrunc (fadd x fhalf) mod q in
    Ok (if neg then wsub q t else t)
  else if fltb v f0 then Ok (wsub q (u64_of_f (fadd (fmul (fneg n) v) fhalf) mod q))
  else Ok (u64_of_f (fadd (fmul n v) fhalf) mod q).
(** utils.go:88-142 *)
Definition scaleUpVecExact (values : list f64) (n : f64) (moduli : list Z) (coeffs : list (list Z)) : res (list (list Z)) :=
  let* coeffs := foldM (fun coeffs '(i, v) =>
      foldM (fun coeffs '(j, q) => let* r := scaleUpVec1 v n q in set2 coeffs j i r)
        (combine (seq 0 (List.length moduli)) moduli) coeffs)
    (combine (seq 0 (List.length values)) values) coeffs in
  let* row0 := idx coeffs 0 in
  foldM (fun coeffs i =>
      foldM (fun coeffs j => set2 coeffs i j 0) (seq (List.length values) (List.length row0 - List.length values)) coeffs)
    (seq 0 (List.length moduli)) coeffs.

(** utils.go:185-191: SetInt is exact, Float64 rounds to nearest even *)
Definition scaleDown (coeff : Z) (n : f64) : f64 := fdiv (f_of_Z coeff) n.

(** utils.go:193-202 genBigIntChain *)
Definition genBigIntChain (Q : list Z) : res (list Z) :=
  let* q0 := idx Q 0 in
  foldM (fun ch i =>
      let* q := idx Q i in let* p := idx ch (i - 1) in Ok (ch ++ [q * p])) (seq 1 (List.length Q - 1)) [q0].

(** utils.go:205-224 GenSwitchkeysRescalingParams *)
Definition GenSwitchkeysRescalingParams (Q P : list Z) : list Z :=
  let PBig := fold_left (fun acc pj => acc * pj) P 1 in
  map (fun q => MForm (ModExp (PBig mod q) (q - 2) q) q (BRedParams q)) Q.

Section Rev.
Context {A : Type}.
(** utils.go:235-238: for j >= bit { j -= bit; bit >>= 1 }.  [int] arithmetic does not overflow here;
    [None] when the fuel does not suffice *)
Fixpoint brLoop (fuel : nat) (j bit : Z) : option (Z * Z) :=
  match fuel with
  | O => None
  | S f => if bit <=? j then brLoop f (j - bit) (bit / 2) else Some (j, bit)
  end.
(** slice[i], slice[j] = slice[j], slice[i] *)
Definition swap (l : list A) (i j : nat) : res (list A) :=
  let* x := idx l i in let* y := idx l j in
  let l := firstn i l ++ y :: skipn (i + 1) l in
  Ok (firstn j l ++ x :: skipn (j + 1) l).
(** utils.go:226-290: the three functions differ only in the element type *)
Definition SliceBitReverse (fuel : nat) (slice : list A) (N : Z) : res (list A) :=
  let* (sl, _) := foldM (fun '(sl, j) i =>
      match brLoop fuel j (N / 2) with
      | None => Panic PDiverge
      | Some (j, bit) =>
          let j := j + bit in
          if Z.of_nat i <? j then let* sl := swap sl i (Z.to_nat j) in Ok (sl, j) else Ok (sl, j)
      end) (seq 1 (Z.to_nat N - 1)) (slice, 0) in
  Ok sl.
End Rev.
