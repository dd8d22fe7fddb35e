(** mkrlwe/basis_extension.go: FastBasisExtender as an object with its own scratch polynomials, ShallowCopy, and goroutines that call the ModDown functions of
    extenders.  The words of the scratch polynomials are the shared memory, as in Words.v; the arguments of a call are its own. *)
From Coq Require Import String ZArith List Bool Arith.
From Verif Require Import Go Lattigo Arith BasisExt NTT RingOps Params Words DownNTT.
Import ListNotations.
Local Open Scope nat_scope.
Open Scope go_scope.

(** basis_extension.go:12-22: the tables, which nobody writes after the constructor, and the number of the pair polypoolQ, polypoolP in memory *)
Record xobj := mkXo { xo_tab : extender; xo_pool : nat }.
(** programs over extender variables; a variable may be nil *)
Inductive xinstr := XNew (Q P : list Z) | XNil | XCopy (k : nat).
(** the variables, and the number of the next pair of polynomials *)
Definition xstate : Type := list (option xobj) * nat.
Definition stepX (s : xstate) (i : xinstr) : res xstate :=
  let (vs, n) := s in
  match i with
  (* basis_extension.go:57-82 NewFastBasisExtender: new scratch polynomials (78-79) *)
  | XNew Q P => Ok (vs ++ [Some (mkXo (NewFastBasisExtender Q P) n)], S n)
  | XNil => Ok (vs ++ [None], n)
  (* basis_extension.go:157-172 ShallowCopy: nil for nil, otherwise the receiver's tables and new scratch polynomials (169-170) *)
  | XCopy k => let* v := idx vs k in
      match v with None => Ok (vs ++ [None], n) | Some x => Ok (vs ++ [Some (mkXo (xo_tab x) n)], S n) end
  end.
Definition runX (I : list xinstr) : res xstate := foldM stepX I ([], 0).

(** ** the calls *)
Definition limbs : Type := list (list Z).
(** the words of polypoolQ ([P] = false) or polypoolP of pair n *)
Definition xcells (n : nat) (P : bool) (up : limbs) : list (cell * Z) := polyCells false EmptyString n P (mkPoly false up).
Definition xview (n : nat) (P : bool) (up : limbs) (m : memory) : limbs := p_co (viewPoly false EmptyString n P (mkPoly false up) m).
Definition cell_k (c : cell) : nat := let '(_, _, _, _, _, k) := c in k.
(** basis_extension.go:337-357 modUpExact stores eight coefficients of each limb before the next eight coefficients *)
Definition byEight (l : list (cell * Z)) : list (cell * Z) :=
  List.concat (map (fun b => filter (fun e => Nat.eqb (cell_k (fst e) / 8) b) l) (seq 0 (S (list_max (map (fun e => cell_k (fst e)) l))))).
Section Prog.
Context {A : Type}.
Definition storePool (n : nat) (P : bool) (up : limbs) (k : wprog A) : wprog A := storeAll (byEight (xcells n P up)) k.
(** limb after limb *)
Definition loadPool (n : nat) (P : bool) (up : limbs) (k : limbs -> wprog A) : wprog A :=
  loadAll (map fst (xcells n P up)) (fun _ => 0%Z) (fun m => k (xview n P up m)).
Definition overwritePool (n : nat) (P : bool) (up : limbs) (k : wprog A) : wprog A := storeAll (xcells n P up) k.
End Prog.

(** a call: levels and operands; for the NTT version also the rings, the choices of the lazy transforms and the receiver *)
Inductive xcall :=
| CDownQ (levelQ levelP : nat) (p1Q p1P : limbs)
| CDownP (levelQ levelP : nat) (p1Q p1P : limbs)
| CDownNTT (lzi lzn : lazyf) (rQ rP : ringd) (levelQ levelP : nat) (p1Q p1P p2Q : poly).
Definition xres : Type := res (list limbs).
Definition orPanic {X} (r : res X) (k : X -> wprog xres) : wprog xres := match r with Panic e => WDone (Panic e) | Ok x => k x end.
(** NTTLazy of every limb of the scratch polynomial; a limb without a modulus or root stays (the call panics) *)
Definition nttLimbs (lzn : lazyf) (rQ : ringd) (up : limbs) : limbs :=
  mapi (fun i row => match nth_error (r_mods rQ) i, nth_error (r_psi rQ) i with Some q, Some psi => NTTLazy lzn (r_logN rQ) q psi row | _, _ => row end) 0 up.
(** the last loop of ModDownQPtoQNTT, with the transformed scratch limbs *)
Definition downFinish (rQ : ringd) (b : extender) (levelQ levelP : nat) (p1Q y p2Q : poly) (up : limbs) : xres :=
  let* row := idx (modDownPtoQ b) levelP in
  let* out := mapM (fun i =>
      let* qi := idx (r_mods rQ) i in
      let* p1tmp := idx (p_co p1Q) i in
      let* p3tmp := idx up i in
      let* inv := idx row i in
      let* psi := idx (r_psi rQ) i in
      Ok (map (fun '(x, y) => moddown_word x y qi inv) (combine p1tmp p3tmp))) (seq 0 (levelQ + 1)) in
  let* p2Q := write levelQ out p2Q in
  Ok [p_co y; p_co p2Q].
(** basis_extension.go:192-232, 294-334 and 239-288.  The scratch polynomial is stored by modUpExact and loaded by the last loop.  Simplification: in the NTT
    version each word is loaded once and stored once by the transform, and the transforms of all limbs come before the last loop (in Go limb i is transformed and
    used before limb i + 1). *)
Definition callProg (x : xobj) (c : xcall) : wprog xres :=
  let b := xo_tab x in let n := xo_pool x in
  match c with
  | CDownQ levelQ levelP p1Q p1P =>
      orPanic (ModUpPtoQ b levelP levelQ p1P) (fun up => storePool n false up (loadPool n false up (fun up =>
        WDone (let* row := idx (modDownPtoQ b) levelP in let* out := moddown_limbs levelQ (ext_Q b) row p1Q up in Ok [out]))))
  | CDownP levelQ levelP p1Q p1P =>
      orPanic (ModUpQtoP b levelQ levelP p1Q) (fun up => storePool n true up (loadPool n true up (fun up =>
        WDone (let* row := idx (modDownQtoP b) levelP in let* out := moddown_limbs levelP (ext_P b) row p1P up in Ok [out]))))
  | CDownNTT lzi lzn rQ rP levelQ levelP p1Q p1P p2Q =>
      orPanic (InvNTTLazyLvl lzi rP levelP p1P p1P) (fun y => orPanic (ModUpPtoQ b levelP levelQ (p_co y)) (fun up =>
        storePool n false up (loadPool n false up (fun up1 => let up2 := nttLimbs lzn rQ up1 in
          overwritePool n false up2 (loadPool n false up2 (fun up3 => WDone (downFinish rQ b levelQ levelP p1Q y p2Q up3)))))))
  end.
(** T goroutines; i calls c i on extender x i *)
Definition xgoroutines (T : nat) (x : nat -> xobj) (c : nat -> xcall) (i : nat) : wprog xres :=
  if i <? T then callProg (x i) (c i) else WDone (Ok []).
