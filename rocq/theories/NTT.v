(** The number-theoretic transform of lattigo v2.3.0 (package ring, ntt.go, automorphism.go).
    lattigo's text is not in /repo.  Its butterfly network is modelled by the linear map it
    computes: output slot i of NTT is the value of the input polynomial at
    psi^(2*bitrev(i)+1), reduced modulo q; InvNTT is the inverse sum.  (lattigo's networks accept
    unreduced words; the exact input range accepted by its lazy butterflies is trusted.) *)
From Coq Require Import ZArith List.
From Verif Require Import Go Lattigo Arith.
Import ListNotations.
Local Open Scope Z_scope.

(** utils.BitReverse64(i, b) *)
Fixpoint brv (b : nat) (i : Z) : Z :=
  match b with
  | O => 0
  | S b => (i mod 2) * 2 ^ Z.of_nat b + brv b (i / 2)
  end.

(** exponent of the point of slot i *)
Definition slot_exp (logN : nat) (i : nat) : Z := 2 * brv logN (Z.of_nat i) + 1.
(** 2^logN as nat *)
Definition deg (logN : nat) : nat := Nat.pow 2 logN.

(** ring.NTT on one limb: result reduced modulo q *)
Definition NTT (logN : nat) (q psi : Z) (l : list Z) : list Z :=
  map (fun i => (sumn (deg logN) (fun k =>
         nth k l 0 * psi ^ (slot_exp logN i * Z.of_nat k))) mod q)
      (seq 0 (deg logN)).

(** ring.InvNTT on one limb: result reduced modulo q.
    N^-1 is ModExp(N, q-2, q), as in ring.genNTTParams. *)
Definition InvNTT (logN : nat) (q psi : Z) (l : list Z) : list Z :=
  let n := Z.of_nat (deg logN) in
  map (fun k => (ModExp n (q - 2) q * sumn (deg logN) (fun i =>
         nth i l 0 * psi ^ ((2 * n - slot_exp logN i) * Z.of_nat k))) mod q)
      (seq 0 (deg logN)).

(** ring.InvNTTLazy: some representative in [0,2q) of the InvNTT result; which one is an
    arbitrary function [lz] of the modulus, the input limb and the position. *)
Definition lazyf := Z -> list Z -> nat -> bool.
Definition InvNTTLazy (lz : lazyf) (logN : nat) (q psi : Z) (l : list Z) : list Z :=
  map (fun '(k, x) => if lz q l k then x + q else x)
      (combine (seq 0 (deg logN)) (InvNTT logN q psi l)).

(** ring.PermuteNTTIndex(galEl, N): index[i] = bitrev(((galEl*(2*bitrev(i)+1) & (2N-1)) - 1) >> 1) *)
Definition PermuteNTTIndex (logN : nat) (galEl : Z) : list Z :=
  map (fun i =>
      brv logN (((galEl * slot_exp logN i) mod (2 * Z.of_nat (deg logN)) - 1) / 2))
    (seq 0 (deg logN)).
(** ring.PermuteNTTWithIndexLvl on one limb: out[i] = in[index[i]] *)
Definition permute_ntt (index : list Z) (l : list Z) : res (list Z) :=
  mapM (fun z => idxZ l z) index.
