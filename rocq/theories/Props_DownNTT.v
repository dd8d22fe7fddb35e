(** C70: ModDownQPtoQNTT divides by P in the NTT domain (mkrlwe/basis_extension.go:234-288). *)
From Coq Require Import ZArith List Bool.
From Verif Require Import Go Lattigo Arith F64 BasisExt NTT RingOps RingOpsProofs Params NegRing Repr Shipped DownNTT SpecDown DownNTTThms.
Import ListNotations.
Local Open Scope Z_scope.

(** On values of an integer polynomial X at the NTT points of q_0..q_levelQ (words below 2q) and p_0..p_levelP, for all lazy reductions: the receiver gets the
    reduced values of D = floor(X / P), keeps its flag and its upper limbs; the P part of the operand is left in the coefficient domain, with its flag
    unchanged; and D is exactly what ModDownQPtoQ gives on the coefficients of the same polynomial. *)
Theorem C70_moddown_ntt : forall pp, params_ok pp -> forall lzi lzn levelQ levelP p1Q p1P p2Q X,
  (levelQ < QCount pp)%nat -> (levelP < PCount pp)%nat ->
  nrep2 (ringQ pp) (levelQ + 1) (p_co p1Q) X -> nrep (ringP pp) (levelP + 1) (p_co p1P) X -> shp (pa_N pp) (p_co p1P) -> (levelQ < plen p2Q)%nat ->
  exists y out D, ModDownQPtoQNTT lzi lzn (ringQ pp) (ringP pp) (NewFastBasisExtender (pa_Q pp) (pa_P pp)) levelQ levelP p1Q p1P p2Q = Ok (y, out) /\
    wrote (levelQ + 1) p2Q out /\ nrep (ringQ pp) (levelQ + 1) (p_co out) D /\ floored (pa_N pp) (prodZ (firstn (levelP + 1) (pa_P pp))) X D /\
    wrote (levelP + 1) p1P y /\ prep (ringP pp) (fun p => 2 * p) (levelP + 1) (p_co y) X /\
    forall pQ, prep (ringQ pp) (fun q => 2 * q) (levelQ + 1) pQ X ->
      exists out', ModDownQPtoQ (NewFastBasisExtender (pa_Q pp) (pa_P pp)) levelQ levelP pQ (p_co y) = Ok out' /\ prep (ringQ pp) (fun q => q) (levelQ + 1) out' D.
Proof. exact moddown_ntt. Qed.
Print Assumptions C70_moddown_ntt.

(** ** case: degree 8, all words lazy, in place; the quotients by 257 * 337 = 86609, read back through the inverse transform, and the P part in the
    coefficient domain (257 and 337 above the residues) *)
Definition caseX : list Z := [12345678901; 86609; 86608; 0; 259827; 5; 999999999; 86610].
Definition caseNTT (r : ringd) : poly := mkPoly true (map (fun '(q, psi) => NTT (r_logN r) q psi caseX) (combine (r_mods r) (r_psi r))).
Definition caseOut : res (poly * poly) :=
  ModDownQPtoQNTT (fun _ _ _ => true) (fun _ _ k => Nat.even k) (ringQ (toy 2)) (ringP (toy 2)) (NewFastBasisExtender toyQ toyP) 3 1 (caseNTT (ringQ (toy 2))) (caseNTT (ringP (toy 2))) (caseNTT (ringQ (toy 2))).
Example C70_case : params_ok (toy 2) /\ match caseOut with
  | Ok (y, out) => map (fun '(l, (q, psi)) => InvNTT 3 q psi l) (combine (p_co out) (combine toyQ (r_psi (ringQ (toy 2))))) = map (fun q => map (fun x => (x / 86609) mod q) caseX) toyQ /\
      p_co y = map (fun p => map (fun x => x mod p + p) caseX) toyP /\ p_ntt y = true
  | Panic _ => False end.
Proof. split; [exact toy2_ok|]. vm_compute. repeat split. Qed.
