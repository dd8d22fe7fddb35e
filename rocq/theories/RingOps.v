(** ring.Poly and the leveled ring operations of lattigo v2.3.0 used by /repo (package ring,
    poly.go, operations.go, automorphism.go; recalled, not in /repo).
    A leveled operation overwrites limbs 0..level of its receiver and keeps the others. *)
From Coq Require Import ZArith List Bool.
From Verif Require Import Go Lattigo NTT.
Import ListNotations.
Local Open Scope Z_scope.

(** ring.Poly{Coeffs, IsNTT} *)
Record poly := mkPoly { p_ntt : bool; p_co : list (list Z) }.
(** ring.Ring: N = 2^logN, Modulus, and per modulus the 2N-th root of unity of its NTT tables *)
Record ringd := mkRing { r_logN : nat; r_mods : list Z; r_psi : list Z }.
Definition r_N (r : ringd) : nat := deg (r_logN r).

(** ring.NewPoly(N, nbModuli) *)
Definition newPoly (N nb : nat) : poly := mkPoly false (repeat (repeat 0 N) nb).
(** Ring.NewPoly *)
Definition ringPoly (r : ringd) : poly := newPoly (r_N r) (length (r_mods r)).
(** Poly.Level() + 1 *)
Definition plen (p : poly) : nat := length (p_co p).

(** write limbs 0..level of dst *)
Definition write (level : nat) (ls : list (list Z)) (dst : poly) : res poly :=
  if (plen dst <=? level)%nat then Panic PIndex
  else Ok (mkPoly (p_ntt dst) (ls ++ skipn (level + 1) (p_co dst))).

Definition lvl1 (r : ringd) (f : Z -> Z -> list Z -> list Z) (level : nat) (a dst : poly) : res poly :=
  let* ls := mapM (fun j =>
      let* q := idx (r_mods r) j in let* psi := idx (r_psi r) j in
      let* x := idx (p_co a) j in Ok (f q psi x)) (seq 0 (level + 1)) in
  write level ls dst.
Definition lvl2 (r : ringd) (f : Z -> list Z -> list Z -> list Z) (level : nat) (a b dst : poly) : res poly :=
  let* ls := mapM (fun j =>
      let* q := idx (r_mods r) j in
      let* x := idx (p_co a) j in let* y := idx (p_co b) j in Ok (f q x y)) (seq 0 (level + 1)) in
  write level ls dst.
Definition lvl3 (r : ringd) (f : Z -> list Z -> list Z -> list Z -> list Z) (level : nat) (a b dst : poly) : res poly :=
  let* ls := mapM (fun j =>
      let* q := idx (r_mods r) j in
      let* x := idx (p_co a) j in let* y := idx (p_co b) j in let* z := idx (p_co dst) j in Ok (f q x y z))
      (seq 0 (level + 1)) in
  write level ls dst.

(** pointwise on limbs *)
Definition pw2 (g : Z -> Z -> Z) (x y : list Z) : list Z := map (fun '(a, b) => g a b) (combine x y).
Definition pw3 (g : Z -> Z -> Z -> Z) (x y z : list Z) : list Z :=
  map (fun '(a, (b, c)) => g a b c) (combine x (combine y z)).

Definition NTTLvl (r : ringd) := lvl1 r (NTT (r_logN r)).
Definition InvNTTLvl (r : ringd) := lvl1 r (InvNTT (r_logN r)).
Definition InvNTTLazyLvl (lz : lazyf) (r : ringd) := lvl1 r (InvNTTLazy lz (r_logN r)).
Definition MFormLvl (r : ringd) := lvl1 r (fun q _ => map (fun x => MForm x q (BRedParams q))).
Definition InvMFormLvl (r : ringd) := lvl1 r (fun q _ => map (fun x => InvMForm x q (MRedParams q))).
(** Ring.ReduceLvl *)
Definition ReduceLvl (r : ringd) := lvl1 r (fun q _ => map (fun x => BRedAdd x q (BRedParams q))).
(** Ring.NegLvl: q - x, not reduced *)
Definition NegLvl (r : ringd) := lvl1 r (fun q _ => map (fun x => wsub q x)).
(** Ring.MulScalarBigintLvl *)
Definition MulScalarBigintLvl (r : ringd) (level : nat) (a : poly) (scalar : Z) (dst : poly) :=
  lvl1 r (fun q _ => map (fun x => MRed x (MForm (scalar mod q) q (BRedParams q)) q (MRedParams q))) level a dst.
(** ring.CopyValuesLvl *)
Definition CopyValuesLvl (r : ringd) := lvl1 r (fun _ _ x => x).
Definition AddLvl (r : ringd) := lvl2 r (fun q => pw2 (fun x y => CRed (wadd x y) q)).
Definition SubLvl (r : ringd) := lvl2 r (fun q => pw2 (fun x y => CRed (wsub (wadd x q) y) q)).
Definition MulCoeffsMontgomeryLvl (r : ringd) := lvl2 r (fun q => pw2 (fun x y => MRed x y q (MRedParams q))).
Definition MulCoeffsMontgomeryAndAddLvl (r : ringd) :=
  lvl3 r (fun q => pw3 (fun x y z => CRed (wadd z (MRed x y q (MRedParams q))) q)).
Definition MulCoeffsMontgomeryAndSubLvl (r : ringd) :=
  lvl3 r (fun q => pw3 (fun x y z => CRed (wadd z (wsub q (MRed x y q (MRedParams q)))) q)).

(** Poly.Zero *)
Definition pZero (p : poly) : poly := mkPoly (p_ntt p) (map (fun l => repeat 0 (length l)) (p_co p)).
(** Poly.Copy: copies the common limbs and the flag *)
Definition pCopy (dst src : poly) : poly :=
  let n := Nat.min (plen dst) (plen src) in
  mkPoly (p_ntt src) (firstn n (p_co src) ++ skipn n (p_co dst)).
(** p.Coeffs = p.Coeffs[:n] (Go allows n up to the capacity; modelled up to the length) *)
Definition pTrunc (n : nat) (p : poly) : res poly :=
  if (n <=? plen p)%nat then Ok (mkPoly (p_ntt p) (firstn n (p_co p))) else Panic PIndex.
Definition setNTT (b : bool) (p : poly) : poly := mkPoly b (p_co p).

(** l[k] = v *)
Definition upd (l : list Z) (k : nat) (v : Z) : list Z := firstn k l ++ v :: skipn (k + 1) l.
(** one limb of ring.Permute and of the loop in keyswitch.go:266-296:
    out[(i*gen) & (N-1)] = x[i] or q - x[i] according to bit logN of i*gen *)
Definition permute_limb (logN : nat) (gen q : Z) (x old : list Z) : list Z :=
  let n := Z.of_nat (deg logN) in
  fold_left (fun out i =>
      let raw := wmul (Z.of_nat i) gen in
      let v := nth i x 0 in
      upd out (Z.to_nat (raw mod n)) (if (raw / n) mod 2 =? 0 then v else wsub q v))
    (seq 0 (deg logN)) old.
(** Ring.Permute works on every modulus of the ring, whatever the level of its arguments *)
Definition Permute (r : ringd) (pin : poly) (gen : Z) (pout : poly) : res poly :=
  lvl3 r (fun q x _ old => permute_limb (r_logN r) gen q x old) (length (r_mods r) - 1) pin pin pout.
(** keyswitch.go:266-296 permutes limbs 0..level of ct into the pool polynomial *)
Definition permuteLvl (r : ringd) (level : nat) (pin : poly) (gen : Z) (pout : poly) : res poly :=
  lvl3 r (fun q x _ old => permute_limb (r_logN r) gen q x old) level pin pin pout.
(** ring.PermuteNTTWithIndexLvl *)
Definition PermuteNTTWithIndexLvl (level : nat) (pin : poly) (index : list Z) (pout : poly) : res poly :=
  let* ls := mapM (fun j => let* x := idx (p_co pin) j in permute_ntt index x) (seq 0 (level + 1)) in
  write level ls pout.

(** rlwe.PolyQP and RingQP: every operation acts on both parts *)
Record qp := mkQP { qQ : poly; qP : poly }.
Definition qp1 (fQ fP : nat -> poly -> poly -> res poly) (levelQ levelP : nat) (a dst : qp) : res qp :=
  let* x := fQ levelQ (qQ a) (qQ dst) in let* y := fP levelP (qP a) (qP dst) in Ok (mkQP x y).
Definition qp2 (fQ fP : nat -> poly -> poly -> poly -> res poly) (levelQ levelP : nat) (a b dst : qp) : res qp :=
  let* x := fQ levelQ (qQ a) (qQ b) (qQ dst) in let* y := fP levelP (qP a) (qP b) (qP dst) in Ok (mkQP x y).
Definition qpZero (a : qp) : qp := mkQP (pZero (qQ a)) (pZero (qP a)).

(** rlwe.Parameters.GaloisElementForColumnRotationBy: 5^(k mod 2N) mod 2N *)
Definition galColumn (logN : nat) (k : Z) : Z :=
  let twoN := 2 * Z.of_nat (deg logN) in Z.pow 5 (k mod twoN) mod twoN.
(** rlwe.Parameters.InverseGaloisElement: g^(2N-1) mod 2N *)
Definition galInverse (logN : nat) (g : Z) : Z :=
  let twoN := 2 * Z.of_nat (deg logN) in Z.pow g (twoN - 1) mod twoN.
(** rlwe.Parameters.GaloisElementForRowRotation *)
Definition galRow (logN : nat) : Z := 2 * Z.of_nat (deg logN) - 1.
