(** basis_extension.go:239-288 ModDownQPtoQNTT. *)
From Coq Require Import ZArith List Bool.
From Verif Require Import Go Lattigo Arith BasisExt NTT RingOps Params.
Import ListNotations.
Local Open Scope Z_scope.
Open Scope go_scope.

(** lattigo ring.NTTLazy (recalled): some representative in [0,2q) of the NTT result; which one is an arbitrary function of the modulus, the input limb
    and the position, as for InvNTTLazy (NTT.v) *)
Definition NTTLazy (lz : lazyf) (logN : nat) (q psi : Z) (l : list Z) : list Z :=
  map (fun '(k, x) => if lz q l k then x + q else x) (combine (seq 0 (deg logN)) (NTT logN q psi l)).

(** basis_extension.go:239-288: the P part is transformed in place (247), extended to Q into the scratch polynomial (251), whose limbs are transformed
    (267), and subtracted from the Q part, times 1/P (254-284).  The result is the P part after the call and the receiver.  The receiver may be the Q part
    itself: a word is read before the word of the same position is written.  Eight words at a time: see Unsafe.v. *)
Definition ModDownQPtoQNTT (lzi lzn : lazyf) (rQ rP : ringd) (b : extender) (levelQ levelP : nat) (p1Q p1P p2Q : poly) : res (poly * poly) :=
  let* p1P := InvNTTLazyLvl lzi rP levelP p1P p1P in
  let* pool := ModUpPtoQ b levelP levelQ (p_co p1P) in
  let* row := idx (modDownPtoQ b) levelP in
  let* out := mapM (fun i =>
      let* qi := idx (r_mods rQ) i in
      let* p1tmp := idx (p_co p1Q) i in
      let* p3tmp := idx pool i in
      let* inv := idx row i in
      let* psi := idx (r_psi rQ) i in
      let p3tmp := NTTLazy lzn (r_logN rQ) qi psi p3tmp in
      Ok (map (fun '(x, y) => moddown_word x y qi inv) (combine p1tmp p3tmp))) (seq 0 (levelQ + 1)) in
  let* p2Q := write levelQ out p2Q in
  Ok (p1P, p2Q).
