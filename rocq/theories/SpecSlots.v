(** The values a plaintext polynomial encodes: evaluation at roots of X^N + 1.  Definitions only. *)
From Coq Require Import ZArith List Reals Ring_theory InitialRing.
From Verif Require Import NegRing.
Local Open Scope Z_scope.

(** in any commutative ring *)
Section Ring.
Context {R : Type} (rO rI : R) (radd rmul rsub : R -> R -> R) (ropp : R -> R).
Fixpoint rpow (x : R) (n : nat) : R := match n with O => rI | S n => rmul x (rpow x n) end.
Fixpoint rsum (n : nat) (f : nat -> R) : R := match n with O => rO | S n => radd (rsum n f) (f n) end.
(** the image of an integer *)
Definition rofZ : Z -> R := gen_phiZ rO rI radd rmul ropp.
(** a_0 + a_1 z + ... + a_(N-1) z^(N-1) *)
Definition reval (N : nat) (a : zpoly) (z : R) : R := rsum N (fun i => rmul (rofZ (a i)) (rpow z i)).
End Ring.

(** complex numbers as pairs of reals *)
Local Open Scope R_scope.
Definition C2 : Type := (R * R)%type.
Definition c0 : C2 := (0, 0).
Definition c1 : C2 := (1, 0).
Definition cadd (x y : C2) : C2 := (fst x + fst y, snd x + snd y).
Definition cmul (x y : C2) : C2 := (fst x * fst y - snd x * snd y, fst x * snd y + snd x * fst y).
Definition copp (x : C2) : C2 := (- fst x, - snd x).
Definition csub (x y : C2) : C2 := cadd x (copp y).
Definition cconj (x : C2) : C2 := (fst x, - snd x).
(** exp(i pi e / N): the 2N-th roots of unity; a root of X^N + 1 for odd e *)
Definition croot (N : nat) (e : Z) : C2 := (cos (PI * IZR e / INR N), sin (PI * IZR e / INR N)).
(** slot j of a plaintext polynomial (before the division by the scale): its value at the root of exponent 5^j *)
Definition slot (N : nat) (a : zpoly) (j : Z) : C2 := reval c0 c1 cadd cmul copp N a (croot N (5 ^ j)).
