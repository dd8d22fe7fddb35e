(** The logistic-regression programs on levels and scales alone: what the evaluator's calls do to them.  Executable. *)
From Coq Require Import ZArith Bool List.
From Coq.Floats Require Import SpecFloat.
From Verif Require Import Go F64 Spec LR SpecEv.
Import ListNotations.
Local Open Scope Z_scope.

(** ** one modulus per multiplication: levels alone *)
(** A ciphertext is its level.  MulRelinNew and MulPtxtNew take the lower level and drop one modulus (no modulus is left at level 0:
    the evaluator's Rescale reports an error there and the scale is not divided any more; counted as a failure here);
    mkckks/evaluator.go:54-104, 150-210, 395-481 and 483-540. *)
Definition levelOps : heops unit nat unit := {|
  o_mul := fun _ a b => slift (match Nat.min a b with O => Panic PIndex | S l => Ok l end);
  o_mulp := fun a _ => slift (match a with O => Panic PIndex | S l => Ok l end);
  o_add := fun a b => sret (Nat.min a b);
  o_rot := fun a _ => sret a;
  o_zero := slift (Panic PIndex)
|}.

(** ** levels and float64 scales *)
(** mkckks/evaluator.go:168-207 (Rescale): how many moduli are dropped from level [l] for a scale [scale] when the scale has to stay
    at least [half]; None when the moduli run out (index out of range) *)
Fixpoint rcount (Q : list Z) (half scale : f64) (l : nat) : option nat :=
  let s := fdiv scale (f_of_Z (modulus Q l)) in
  if fleb half s then match l with O => None | S l => option_map S (rcount Q half s l) end else Some O.
(** no division when Rescale reports an error (which the multiplications ignore) *)
Definition rsteps (Q : list Z) (l : nat) (scale thr : f64) : option nat :=
  if fleb thr f0 || feqb scale f0 || Nat.eqb l 0 then Some O else rcount Q (fdiv thr (f_of_Z 2)) scale l.
(** positive scales whose quotients are below 2^52 *)
Definition posb (s : f64) : bool := match s with S754_finite false m e => bounded 53 1024 m e | _ => false end.
Definition cmpb (s s' : f64) : bool :=
  posb s && posb s' && fltb (fdiv s' s) (f_of_Z (2 ^ 52)) && fltb (fdiv s s') (f_of_Z (2 ^ 52)).
(** A ciphertext is its level and scale, a plaintext its scale; the state lists how many moduli each multiplication has dropped, the
    last first.  AddNew is only counted as a success for comparable scales.  [top], [thr]: level and scale of a fresh ciphertext. *)
Definition scaleOps (Q : list Z) (top : nat) (thr : f64) : heops (list nat) (nat * f64) f64 :=
  let mul l sc : SM (list nat) (nat * f64) := fun log =>
    match rsteps Q l sc thr with None => Panic PIndex | Some n => Ok ((l - n, scale_after Q l sc n)%nat, n :: log) end in {|
  o_mul := fun _ a b => mul (Nat.min (fst a) (fst b)) (fmul (snd a) (snd b));
  o_mulp := fun a p => mul (fst a) (fmul (snd a) p);
  o_add := fun a b log => if cmpb (snd a) (snd b) then Ok ((Nat.min (fst a) (fst b), if fltb (snd b) (snd a) then snd a else snd b), log) else Panic PIndex;
  o_rot := fun a _ => sret a;
  o_zero := sret (top, thr)
|}.
(** constants of scale [thr]: the programs encode and encrypt everything at the parameters' scale and maximum level *)
Definition scaleConst {ct pt} (top : nat) (thr : f64) (K : lrconst ct pt) : lrconst (nat * f64) f64 := mapConst (fun _ => (top, thr)) (fun _ => thr) K.
(** the constants on levels alone *)
Definition levelConst {ct pt} (top : nat) (K : lrconst ct pt) : lrconst nat unit := mapConst (fun _ => top) (fun _ => tt) K.
