(** The specification ring Z[X]/(X^N+1): a polynomial is its coefficient function, read
    below N.  Congruence modulo M is [peq N M]; [peq N 0] is equality of coefficients. *)
From Coq Require Import ZArith List.
From Verif Require Import Arith.
Local Open Scope Z_scope.

Definition zpoly := nat -> Z.

Definition peq (N : nat) (M : Z) (a b : zpoly) : Prop :=
  forall i, (i < N)%nat -> cong M (a i) (b i).

Definition pzero : zpoly := fun _ => 0.
Definition pconst (c : Z) : zpoly := fun i => match i with O => c | S _ => 0 end.
Definition pone : zpoly := pconst 1.
Definition padd (a b : zpoly) : zpoly := fun i => a i + b i.
Definition psub (a b : zpoly) : zpoly := fun i => a i - b i.
Definition popp (a : zpoly) : zpoly := fun i => - a i.
Definition pscale (c : Z) (a : zpoly) : zpoly := fun i => c * a i.

(** antiperiodic extension: the coefficient of X^z in a, for any integer z, using X^N = -1 *)
Definition ext (N : nat) (a : zpoly) (z : Z) : Z :=
  let c := a (Z.to_nat (z mod Z.of_nat N)) in
  if Z.even (z / Z.of_nat N) then c else - c.

(** negacyclic product *)
Definition pmul (N : nat) (a b : zpoly) : zpoly :=
  fun k => sumn N (fun i => a i * ext N b (Z.of_nat k - Z.of_nat i)).

(** finite sum of polynomials *)
Definition psum (n : nat) (f : nat -> zpoly) : zpoly := fun i => sumn n (fun t => f t i).

(** the automorphism X -> X^g, given by an inverse g' of g modulo 2N:
    the coefficient of X^k in a(X^g) is the (extended) coefficient of X^(g'k) in a *)
Definition sigma_inv (N : nat) (g' : Z) (a : zpoly) : zpoly :=
  fun k => ext N a (g' * Z.of_nat k).

(** every coefficient is at most B in absolute value *)
Definition pnorm_le (N : nat) (a : zpoly) (B : Z) : Prop :=
  forall i, (i < N)%nat -> Z.abs (a i) <= B.

(** value of a at the integer z *)
Definition peval (N : nat) (a : zpoly) (z : Z) : Z :=
  sumn N (fun i => a i * z ^ Z.of_nat i).

(** finite sum over a list *)
Fixpoint psumL {A} (f : A -> zpoly) (l : list A) : zpoly :=
  match l with
  | nil => pzero
  | cons a l => padd (f a) (psumL f l)
  end.
