(** mkrlwe/params.go: parameters, gadget shape and common reference strings. *)
From Coq Require Import ZArith List String Bool.
From Verif Require Import Go Lattigo F64 BasisExt NTT RingOps Maps.
Import ListNotations.
Local Open Scope Z_scope.

(** keys.go:23-25 SwitchingKey: a vector of polynomials over QP *)
Definition swk := list qp.

(** params.go:8-12 with the fields of rlwe.Parameters that are used: the ring degree 2^logN,
    the prime chains Q and P and the roots of unity of their NTT tables.
    Simplification: gamma is a nat (a negative gamma is not modelled). *)
Record params := mkParams {
  pa_logN : nat;
  pa_Q : list Z; pa_P : list Z;
  pa_psiQ : list Z; pa_psiP : list Z;
  pa_gamma : nat;
  pa_CRS : gmap Z swk }.

Definition pa_N (pp : params) : nat := deg (pa_logN pp).
Definition QCount (pp : params) : nat := List.length (pa_Q pp).
Definition PCount (pp : params) : nat := List.length (pa_P pp).
Definition ringQ (pp : params) : ringd := mkRing (pa_logN pp) (pa_Q pp) (pa_psiQ pp).
Definition ringP (pp : params) : ringd := mkRing (pa_logN pp) (pa_P pp) (pa_psiP pp).
Definition levelP (pp : params) : nat := PCount pp - 1.
Definition maxLevel (pp : params) : nat := QCount pp - 1.
(** RingQP().NewPoly() *)
Definition newQP (pp : params) : qp := mkQP (ringPoly (ringQ pp)) (ringPoly (ringP pp)).

(** params.go:63-65; the Go division panics on gamma = 0, which NewParameters has already done *)
Definition Alpha (pp : params) : nat := PCount pp / pa_gamma pp.
(** params.go:67-71; the conversion to int of a negative or infinite ceiling does not arise for alpha > 0 *)
Definition Beta (pp : params) (levelQ : nat) : nat :=
  Z.to_nat (ceil_div_f (Z.of_nat levelQ + 1) (Z.of_nat (Alpha pp))).
(** params.go:73-75 *)
Definition Gamma (pp : params) : Z := Z.of_nat (pa_gamma pp).

(** RingQP operations on both parts at the given levels *)
Definition MFormQP (pp : params) := qp1 (MFormLvl (ringQ pp)) (MFormLvl (ringP pp)).
Definition InvMFormQP (pp : params) := qp1 (InvMFormLvl (ringQ pp)) (InvMFormLvl (ringP pp)).
Definition NTTQP (pp : params) := qp1 (NTTLvl (ringQ pp)) (NTTLvl (ringP pp)).
Definition SubQP (pp : params) := qp2 (SubLvl (ringQ pp)) (SubLvl (ringP pp)).
Definition MulQP (pp : params) := qp2 (MulCoeffsMontgomeryLvl (ringQ pp)) (MulCoeffsMontgomeryLvl (ringP pp)).
Definition MulAddQP (pp : params) := qp2 (MulCoeffsMontgomeryAndAddLvl (ringQ pp)) (MulCoeffsMontgomeryAndAddLvl (ringP pp)).
Definition MulSubQP (pp : params) := qp2 (MulCoeffsMontgomeryAndSubLvl (ringQ pp)) (MulCoeffsMontgomeryAndSubLvl (ringP pp)).

(** Uniform samplers: the sampled polynomials are an explicit argument, [sample idx i] being the
    one read for row i of CRS[idx]. *)
Definition sampler := Z -> nat -> qp.

(** params.go:37-45 the default CRS indices *)
Definition crsIndices (logN : nat) : list Z :=
  [0; -1; -2; -3; -4] ++ map (fun i => 2 ^ Z.of_nat i) (seq 0 (logN - 1)).

(** the rows of one CRS: params.go:48-58, 89-98.  Read overwrites a new polynomial. *)
Definition genCRS (pp : params) (beta : nat) (smp : nat -> qp) : res swk :=
  mapM (fun i => MFormQP pp (maxLevel pp) (levelP pp) (smp i) (smp i)) (seq 0 beta).

(** params.go:16-61 *)
Definition NewParameters (logN : nat) (Q P psiQ psiP : list Z) (gamma : nat) (smp : sampler) : res params :=
  if Nat.eqb gamma 0 then Panic (PMsg "integer divide by zero") else
  let pp := mkParams logN Q P psiQ psiP gamma [] in
  (* alpha = 0: beta = int(+Inf), make panics *)
  if Nat.eqb (Alpha pp) 0 then Panic (PMsg "makeslice: len out of range") else
  let beta := Z.to_nat (ceil_div_f (Z.of_nat (List.length Q)) (Z.of_nat (Alpha pp))) in
  let* crs := foldM (fun m ix =>
      let* v := genCRS pp beta (smp ix) in Ok (zset m ix v)) (crsIndices logN) [] in
  Ok (mkParams logN Q P psiQ psiP gamma crs).

(** params.go:77-99 *)
Definition AddCRS (pp : params) (ix : Z) (smp : sampler) : res params :=
  let* v := genCRS pp (Beta pp (maxLevel pp)) (smp ix) in
  Ok (mkParams (pa_logN pp) (pa_Q pp) (pa_P pp) (pa_psiQ pp) (pa_psiP pp) (pa_gamma pp)
        (zset (pa_CRS pp) ix v)).

(** params.CRS[ix], dereferenced *)
Definition getCRS (pp : params) (ix : Z) : res swk := mptr Z.eqb (pa_CRS pp) ix.

(** keys.go:245-255 NewSwitchingKey *)
Definition NewSwitchingKey (pp : params) : swk := repeat (newQP pp) (Beta pp (maxLevel pp)).
