(** mkckks/evaluator.go:98-112 with Go slices: a slice is a window on an array, and [s[:n]] may reach past the length of s up to its capacity.
    Elements.v and Evaluator.v take the list of limbs of a polynomial as a value and let [p.Coeffs[:n]] panic when n exceeds the length; here the limbs past the
    length are kept and the number of levels is any int64. *)
From Coq Require Import ZArith List String Bool.
From Verif Require Import Go Lattigo Arith F64 RingOps Maps Params Elements Evaluator Loops.
Import ListNotations.
Local Open Scope Z_scope.
Open Scope go_scope.

(** a [][]uint64: the rows of the array from the first element of the slice on (as many as its capacity), and the length *)
Record rows := mkRows { s_arr : list (list Z); s_len : nat }.
Definition s_cap (s : rows) : nat := List.length (s_arr s).
Definition s_view (s : rows) : list (list Z) := firstn (s_len s) (s_arr s).
(** s[:n] panics unless 0 <= n <= cap(s) *)
Definition reslice (s : rows) (n : Z) : res rows :=
  if (0 <=? n) && (n <=? Z.of_nat (s_cap s)) then Ok (mkRows (s_arr s) (Z.to_nat n)) else Panic PIndex.

(** ring.Poly (recalled) and elements.go:17-19 with slices.  Simplification: no two components share an array; nothing here writes to a limb. *)
Record spoly := mkSpoly { sp_ntt : bool; sp_co : rows }.
Definition sct := smap spoly.
Definition pview (p : spoly) : poly := mkPoly (sp_ntt p) (s_view (sp_co p)).
Definition ctview (ct : sct) : ciphertext := map (fun '(k, p) => (k, pview p)) ct.
(** elements.go:60-62: Level() is len(Value["0"].Coeffs) - 1, which may be -1 *)
Definition sLevel (ct : sct) : res Z := let* p := sptr ct "0"%string in Ok (Z.of_nat (s_len (sp_co p)) - 1).
(** elements.go:70-81 and ring.Poly.CopyNew (recalled): the copy is made with make([][]uint64, len(p.Coeffs)), so its capacity is its length *)
Definition sCopyNew (ct : sct) : res sct :=
  let* _ := sptr ct "0"%string in
  Ok (map (fun '(k, p) => (k, mkSpoly (sp_ntt p) (mkRows (s_view (sp_co p)) (List.length (s_view (sp_co p)))))) ct).
(** evaluator.go:106-112 DropLevel; level+1-levels is computed on int64 *)
Definition DropLevelS (o : order) (ct : sct) (levels : Z) : res sct :=
  let* level := sLevel ct in
  foldM (fun c id => let* p := sptr c id in let* s := reslice (sp_co p) (isub (iadd level 1) levels) in Ok (sset c id (mkSpoly (sp_ntt p) s)))
    (o 0%nat (mkeys ct)) ct.
(** evaluator.go:98-102 DropLevelNew *)
Definition DropLevelNewS (o : order) (ct : sct) (levels : Z) : res sct :=
  let* c := sCopyNew ct in DropLevelS o c levels.
