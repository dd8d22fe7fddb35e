(** Specification vocabulary for the CKKS evaluator.  Definitions only. *)
From Coq Require Import String ZArith List.
From Coq.Floats Require Import SpecFloat.
From Verif Require Import Spec Go Arith NegRing BasisExt NTT RingOps Maps Params Elements KeySwitch KeySets F64 F64Proofs EncDec Utils Evaluator Repr SpecCt SpecEnc.
Import ListNotations.
Local Open Scope Z_scope.

(** ** rescaling *)
(** the recorded scale after i divisions by the moduli q_l, q_(l-1), ... *)
Fixpoint scale_after (Q : list Z) (l : nat) (scale : f64) (i : nat) : f64 :=
  match i with O => scale | S i => fdiv (scale_after Q l scale i) (f_of_Z (modulus Q (l - i))) end.
(** n divisions keep the scale at least [half], one more does not, and n moduli can be dropped *)
Definition rescale_count (Q : list Z) (l : nat) (scale half : f64) (n : nat) : Prop :=
  (n <= l)%nat /\ (forall i, (1 <= i <= n)%nat -> fleb half (scale_after Q l scale i) = true) /\
  fleb half (scale_after Q l scale (n + 1)) = false.
(** the product of the n moduli q_(l-n+1) ... q_l *)
Definition dropped (Q : list Z) (l n : nat) : Z := product (firstn n (skipn (l + 1 - n) Q)).
(** B is A divided by the top n moduli with remainder w: whatever integer polynomial M has the residues A modulo q_0 .. q_l, M - w is
    D times an integer polynomial with the residues B modulo q_0 .. q_(l-n) *)
Definition divided (pp : params) (l n : nat) (A : nat -> zpoly) (w : zpoly) (B : nat -> zpoly) : Prop :=
  forall M : zpoly, (forall j, (j <= l)%nat -> peq (pa_N pp) (modulus (pa_Q pp) j) (A j) M) ->
  exists M' : zpoly, (forall i, (i < pa_N pp)%nat -> dropped (pa_Q pp) l n * M' i = M i - w i) /\
    forall j, (j <= l - n)%nat -> peq (pa_N pp) (modulus (pa_Q pp) j) (B j) M'.
(** cout is cin divided by the n top moduli and rounded: the remainders are at most D/2, component by component *)
Definition rescaled (pp : params) (l n : nat) (cin cout : ciphertext) : Prop :=
  ct_ok pp (l - n) cout /\ (forall id, In id (mkeys cout) <-> In id (mkeys cin)) /\
  exists R : string -> zpoly, forall id, In id (mkeys cin) -> pnorm_le (pa_N pp) (R id) (dropped (pa_Q pp) l n / 2) /\
    divided pp l n (limb cin id) (R id) (limb cout id).
(** the same ciphertext: Go maps have no order *)
Definition same_ct (a b : ciphertext) : Prop := NoDup (mkeys a) /\ NoDup (mkeys b) /\ forall id, sget a id = sget b id.
(** how often Rescale divides: not at all when it reports an error (threshold or scale not positive, level 0), otherwise as
    often as [rescale_count] says for half the threshold *)
Definition rescale_err (l : nat) (scale thr : f64) : Prop := fleb thr f0 = true \/ feqb scale f0 = true \/ l = O.
Definition rescale_steps (Q : list Z) (l : nat) (scale thr : f64) (n : nat) : Prop :=
  rescale_err l scale thr /\ n = O \/ ~ rescale_err l scale thr /\ rescale_count Q l scale (fdiv thr (f_of_Z 2)) n.
(** an evaluator as NewEvaluator and every later call leave it: only shapes are constrained *)
Record ev_ok (pp : params) (st : evst) : Prop := {
  eo_nd : NoDup (mkeys (ev_ct st)); eo_0 : In "0"%string (mkeys (ev_ct st));
  eo_ct : forall id p, sget (ev_ct st) id = Some p -> plen p = QCount pp;
  eo_q : plen (ev_q st) = QCount pp; eo_k : pool_ok pp (ev_k st) }.
(** bound on the rounding error of a rescaling by D of a ciphertext of k parties with secrets of size Bs *)
Definition rescale_noise (N : nat) (k Bs D : Z) : Z := D / 2 + k * (Z.of_nat N * (Bs * (D / 2))).
Definition secrets_le (pp : params) (s : string -> zpoly) (Bs : Z) (ct : ciphertext) : Prop := forall id, party ct id -> pnorm_le (pa_N pp) (s id) Bs.
(** every component is the zero polynomial of level l *)
Definition all_zero (pp : params) (l : nat) (ct : ciphertext) : Prop := forall id p, sget ct id = Some p -> p = newPoly (pa_N pp) (l + 1).
(** the evaluator of a parameter set: the tables of its parameters and its default scale *)
Definition same_keys {A B} (a : smap A) (b : smap B) : Prop := forall id, In id (mkeys a) <-> In id (mkeys b).

(** ** constants *)
(** the integer a float constant c is turned into at scale s: s*|c| rounded to the nearest integer (in float64), with c's sign *)
Definition scaled_const (c s : f64) : Z :=
  let a := ftrunc (fadd (fmul s (fabs c)) fhalf) in if fltb c f0 then - a else a.
(** a float64 that is neither infinite nor NaN *)
Definition finite (c : f64) : Prop :=
  match c with S754_zero _ => True | S754_finite _ m e => bounded 53 1024 m e = true | _ => False end.
(** the float64 c is (exactly) an integer of int64 *)
Definition integral (c : f64) : Prop := exists n : Z, - 2 ^ 63 <= n < 2 ^ 63 /\ fval c (Rdefinitions.IZR n).
(** the scale a constant is encoded at: 1 when all its parts are integers, otherwise the last modulus *)
Definition encoded_at (q : Z) (parts : list f64) (s : f64) : Prop :=
  (Forall integral parts -> s = f_of_Z 1) /\ (~ Forall integral parts -> s = f_of_Z q).
(** a ciphertext of level l1 that MultByConst can write the result into *)
Definition const_receiver (pp : params) (ct out : ciphertext) (l1 : nat) : Prop :=
  (l1 < QCount pp)%nat /\ ct_ok pp l1 out /\ forall id, In id (mkeys out) <-> In id (mkeys ct).
(** cout holds k times cin modulo every modulus up to level l *)
Definition times_const (pp : params) (l : nat) (k : Z) (cin cout : ciphertext) : Prop :=
  forall id j, In id (mkeys cin) -> (j <= l)%nat -> peq (pa_N pp) (modulus (pa_Q pp) j) (limb cout id j) (pscale k (limb cin id j)).
(** the lower half of the coefficients times a, the upper half times b *)
Definition half_scaled (N : nat) (a b : Z) (A : zpoly) : zpoly := fun i => if (i <? N / 2)%nat then a * A i else b * A i.
(** a square root of -1 modulo q_j: psi^(N/2), psi the 2N-th root of unity of the parameters *)
Definition root4 (pp : params) (j : nat) : Z := modulus (pa_psiQ pp) j ^ (Z.of_nat (pa_N pp) / 2).
(** a + b X^(N/2): the ring element a complex constant a + bi stands for *)
Definition cplx (N : nat) (a b : Z) : zpoly := fun i => (if (i =? 0)%nat then a else 0) + (if (i =? N / 2)%nat then b else 0).

(** ** addition and subtraction *)
(** the integer an operand of scale s is multiplied by when the other operand has scale s': the float64 quotient s'/s, rounded
    down, and at least 1 *)
Definition align_factor (s s' : f64) : Z := Z.max 1 (ftrunc (fdiv s' s)).
(** positive scales whose quotient is below 2^52 *)
Definition comparable (s s' : f64) : Prop :=
  (exists r, fval s r /\ Rdefinitions.Rlt (Rdefinitions.IZR 0) r) /\ (exists r, fval s' r /\ Rdefinitions.Rlt (Rdefinitions.IZR 0) r) /\
  fltb (fdiv s' s) (f_of_Z (2 ^ 52)) = true /\ fltb (fdiv s s') (f_of_Z (2 ^ 52)) = true.
(** cout holds g (k0 * c0) (k1 * c1), parties the union; a component missing from an operand counts as zero *)
Definition combination (pp : params) (l : nat) (g : zpoly -> zpoly -> zpoly) (k0 k1 : Z) (c0 c1 cout : ciphertext) : Prop :=
  ct_ok pp l cout /\ (forall id, In id (mkeys cout) <-> In id (mkeys c0) \/ In id (mkeys c1)) /\
  forall s j, (j <= l)%nat -> peq (pa_N pp) (modulus (pa_Q pp) j) (phase (pa_N pp) s cout j)
    (g (pscale k0 (phase (pa_N pp) s c0 j)) (pscale k1 (phase (pa_N pp) s c1 j))).

(** ** multiplication *)
(** the hoisting pool of a key set has a place for every party of ct *)
Definition hoist_ready (pp : params) (pool : hoisted) (ct : ciphertext) : Prop := forall id, party ct id -> exists s, sget pool id = Some s /\ swk_ok pp s.
(** what a multiplication of op0 and op1 (common level l, secrets bounded by Bs, key errors by Be, digits by Dm) returns after n
    divisions: phase(op0) * phase(op1) + w divided by the dropped moduli with remainder w', where P*w and w' are bounded *)
Definition mul_result (pp : params) (s : string -> zpoly) (Bs Be Dm : Z) (op0 op1 : ciphertext) (l n : nat) (sc : f64) (out : ckct) : Prop :=
  let D := dropped (pa_Q pp) l n in exists w w',
    ct_ok pp (l - n) (c_ct out) /\ reduced pp (l - n) (c_ct out) /\ (forall id, In id (mkeys (c_ct out)) <-> In id (mkeys op0) \/ In id (mkeys op1)) /\
    c_scale out = scale_after (pa_Q pp) l sc n /\
    pnorm_le (pa_N pp) (pscale (bigP pp) w) (mul_noise_bound (pa_N pp) (nparties op0) (nparties op1) (Z.of_nat (Beta pp l)) Bs Be Dm (bigP pp)) /\
    pnorm_le (pa_N pp) w' (rescale_noise (pa_N pp) (nparties (c_ct out)) Bs D) /\
    divided pp l n (fun j => padd (pmul (pa_N pp) (phase (pa_N pp) s op0 j) (phase (pa_N pp) s op1 j)) w) w' (phase (pa_N pp) s (c_ct out)).
