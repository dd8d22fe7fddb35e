(** Scalar primitives of lattigo v2.3.0 (package ring, modular_reduction.go and
    utils.go) that /repo calls.  lattigo is a dependency whose text is not in /repo;
    these definitions transcribe it from memory and belong to the trusted base. *)
From Coq Require Import ZArith List.
From Verif Require Import Go.
Import ListNotations.
Local Open Scope Z_scope.

(** ring.MRedParams: q^-1 mod 2^64 by 63 squarings. *)
Fixpoint mred_loop (n : nat) (qInv q : Z) : Z :=
  match n with
  | O => qInv
  | S n => mred_loop n (wmul qInv q) (wmul q q)
  end.
Definition MRedParams (q : Z) : Z := mred_loop 63 1 q.

(** ring.BRedParams: floor(2^128/q) as (hi, lo). *)
Definition BRedParams (q : Z) : Z * Z :=
  let b := (2 ^ 128) / q in (b / W, b mod W).

(** ring.MRed: x*y*2^-64 mod q. *)
Definition MRed (x y q qInv : Z) : Z :=
  let ahi := mulhi x y in
  let alo := mullo x y in
  let H := mulhi (wmul alo qInv) q in
  let r := wadd (wsub ahi H) q in
  if q <=? r then wsub r q else r.

(** ring.CRed *)
Definition CRed (a q : Z) : Z := if q <=? a then wsub a q else a.

(** ring.MForm: a*2^64 mod q. *)
Definition MForm (a q : Z) (u : Z * Z) : Z :=
  let mhi := mulhi a (snd u) in
  let r := wmul (wsub 0 (wadd (wmul a (fst u)) mhi)) q in
  if q <=? r then wsub r q else r.

(** ring.InvMForm: a*2^-64 mod q. *)
Definition InvMForm (a q qInv : Z) : Z :=
  let q0 := wmul a qInv in
  let H := mulhi q0 q in
  let r := wsub q H in
  if q <=? r then wsub r q else r.

(** ring.BRed: x*y mod q by Barrett reduction. *)
Definition BRed (x y q : Z) (u : Z * Z) : Z :=
  let ahi := mulhi x y in
  let alo := mullo x y in
  let lhi := mulhi alo (snd u) in
  let mhi := mulhi alo (fst u) in
  let mlo := mullo alo (fst u) in
  let '(s0, carry) := add64 mlo lhi in
  let s1 := wadd mhi carry in
  let mhi := mulhi ahi (snd u) in
  let mlo := mullo ahi (snd u) in
  let '(_, carry) := add64 mlo s0 in
  let lhi := wadd mhi carry in
  let s0 := wadd (wadd (wmul ahi (fst u)) s1) lhi in
  let r := wsub alo (wmul s0 q) in
  if q <=? r then wsub r q else r.

(** ring.BRedAdd: x mod q by Barrett reduction. *)
Definition BRedAdd (x q : Z) (u : Z * Z) : Z :=
  let s0 := mulhi x (fst u) in
  let r := wsub x (wmul s0 q) in
  if q <=? r then wsub r q else r.

(** ring.ModExp: result = 1; for i := e; i > 0; i >>= 1 { if i&1 { result = BRed(result,x) }; x = BRed(x,x) } *)
Fixpoint modexp_loop (e : positive) (x result p : Z) (u : Z * Z) : Z :=
  match e with
  | xH => BRed result x p u
  | xO e => modexp_loop e (BRed x x p u) result p u
  | xI e => modexp_loop e (BRed x x p u) (BRed result x p u) p u
  end.
Definition ModExp (x e p : Z) : Z :=
  match e with
  | Zpos e => modexp_loop e x 1 p (BRedParams p)
  | _ => 1
  end.

(** ring.ModexpMontgomery: result = MForm(1); while e>0 { if e&1 result = MRed(result,x); x = MRed(x,x); e>>=1 } *)
Fixpoint modexp_mont (e : positive) (x result q qInv : Z) : Z :=
  match e with
  | xH => MRed result x q qInv
  | xO e => modexp_mont e (MRed x x q qInv) result q qInv
  | xI e => modexp_mont e (MRed x x q qInv) (MRed result x q qInv) q qInv
  end.
Definition ModexpMontgomery (x e q qInv : Z) (u : Z * Z) : Z :=
  match e with
  | Zpos e => modexp_mont e x (MForm 1 q u) q qInv
  | _ => MForm 1 q u
  end.
