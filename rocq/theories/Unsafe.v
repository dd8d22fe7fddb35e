(** The loops over eight words at a time: mkrlwe/basis_extension.go and mkckks/evaluator.go MultByConst, on one memory of 64-bit words.
    The cast of unsafe.Pointer(&s[x]) to a pointer to [8]uint64 checks that x is an index of s and nothing else: the eight words from &s[x] on are read and
    written wherever they are.  The tables of the rings and of the extender (never written here) stay lists. *)
From Coq Require Import ZArith List String Bool.
From Verif Require Import Go Lattigo F64 BasisExt NTT RingOps Maps Params KeySwitch EncDec Utils Evaluator SpecMem.
Import ListNotations.
Local Open Scope Z_scope.
Open Scope go_scope.

Definition store (m : memory) (a v : Z) : memory := fun b => if b =? a then v else m b.
(** &s[x] *)
Definition addr (s : warray) (x : nat) : res Z := if (x <? a_len s)%nat then Ok (a_base s + Z.of_nat x) else Panic PIndex.
(** the values of the variable of "for x := a; x < b; x = x + 8" *)
Definition steps8 (a b : nat) : list nat := map (fun t => (a + 8 * t)%nat) (seq 0 ((b - a + 7) / 8)).
Definition lanes : list nat := seq 0 8.
Definition lane (a : Z) (l : nat) : Z := a + Z.of_nat l.
(** t[i] = v on a local array *)
Definition put {A} (t : list A) (i : nat) (v : A) : res (list A) := if (i <? List.length t)%nat then Ok (firstn i t ++ v :: skipn (i + 1) t) else Panic PIndex.

(** basis_extension.go:537-579 reconstructRNS ([cp] = None, [off] = 0), and 473-517 in DecomposeAndSplit, which also copies the words
    into the arrays [cp] (line 487).  [ys] are the arrays y0 ... y7 and keep what earlier calls have left in them; the result is the new
    memory, the y arrays and v. *)
Definition reconM (m : memory) (off k x : nat) (p : list warray) (cp : option (list warray)) (ys : list (list Z)) (Q QbMont : list Z)
  : res (memory * list (list Z) * list Z) :=
  let* (m, ys, vi) := foldM (fun '(m, ys, vi) i =>
      let* qq := idx QbMont i in
      let* qi := idx Q (off + i) in
      let* s := idx p (off + i) in
      let* px := addr s x in
      let* m := (match cp with
                 | None => Ok m
                 | Some d => let* t := idx d (off + i) in let* py := addr t x in
                     Ok (fold_left (fun m' l => store m' (lane py l) (m (lane px l))) lanes m)
                 end) in
      let* ys := mapM (fun l => let* y := idx ys l in put y i (MRed (m (lane px l)) qq qi (MRedParams qi))) lanes in
      let* vi := mapM (fun l => let* y := idx ys l in let* w := idx y i in let* v := idx vi l in Ok (fadd v (fdiv (f_of_Z w) (f_of_Z qi)))) lanes in
      Ok (m, ys, vi)) (seq 0 k) (m, ys, repeat f0 8) in
  Ok (m, ys, map u64_of_f vi).

(** basis_extension.go:582-646 multSum; [a] is the address of res[0] *)
Definition multSumM (m : memory) (a : Z) (v : list Z) (ys : list (list Z)) (k : nat) (pj : Z) (vtab tab : list Z) : res memory :=
  let* rs := foldM (fun rs i => mapM (fun l => let* y := idx ys l in let* r := idx rs l in acc_step y tab r i) lanes) (seq 0 k) (repeat (0, 0) 8) in
  foldM (fun m l =>
      let* r := idx rs l in
      let* vl := idx v l in
      let hhi := mulhi (wmul (snd r) (MRedParams pj)) pj in
      let* vt := idxZ vtab vl in
      Ok (store m (lane a l) (wadd (wadd (wsub (fst r) hhi) pj) vt))) lanes m.
(** the loops of multSum calls over the arrays of [p2]; entry u0 + j of the tables belongs to array j *)
Definition multSumsM (m : memory) (x : nat) (p2 : list warray) (js : list nat) (u0 : nat) (v : list Z) (ys : list (list Z)) (k : nat) (P : list Z) (pr : modupParams) : res memory :=
  foldM (fun m j =>
      let* s := idx p2 j in
      let* a := addr s x in
      let* pj := idx P j in
      let* vt := idx (vtimesqmodp pr) (u0 + j) in
      let* tb := idx (qoverqimodp pr) (u0 + j) in
      multSumM m a v ys k pj vt tb) js m.
Definition y0 : list (list Z) := repeat (repeat 0 32) 8.

(** basis_extension.go:337-357 modUpExact *)
Definition modUpExactM (m : memory) (p1 p2 : list warray) (Q P : list Z) (pr : modupParams) : res memory :=
  let* s0 := idx p1 0 in
  let* (m, _) := foldM (fun '(m, ys) x =>
      let* (m, ys, v) := reconM m 0 (List.length p1) x p1 None ys Q (qoverqiinvqi pr) in
      let* m := multSumsM m x p2 (seq 0 (List.length p2)) 0 v ys (List.length p1) P pr in
      Ok (m, ys)) (steps8 0 (a_len s0)) (m, y0) in
  Ok m.
(** basis_extension.go:177-179, 184-186 *)
Definition ModUpQtoPM (b : extender) (levelQ levelP : nat) (m : memory) (polQ polP : list warray) : res memory :=
  let* p1 := slice (levelQ + 1) polQ in
  let* p2 := slice (levelP + 1) polP in
  let* pr := idx (paramsQtoP b) levelQ in
  modUpExactM m p1 p2 (ext_Q b) (ext_P b) pr.
Definition ModUpPtoQM (b : extender) (levelP levelQ : nat) (m : memory) (polP polQ : list warray) : res memory :=
  let* p1 := slice (levelP + 1) polP in
  let* p2 := slice (levelQ + 1) polQ in
  let* pr := idx (paramsPtoQ b) levelP in
  modUpExactM m p1 p2 (ext_P b) (ext_Q b) pr.

(** basis_extension.go:203-229, 305-331: N is the degree of the ring, not a length of the arrays *)
Definition moddownLimbsM (m : memory) (N lvl : nat) (mods row : list Z) (p1 pool p2 : list warray) : res memory :=
  foldM (fun m i =>
      let* q := idx mods i in
      let* xs := idx p1 i in
      let* zs := idx p2 i in
      let* ys := idx pool i in
      let* inv := idx row i in
      foldM (fun m j =>
          let* x := addr xs j in
          let* y := addr ys j in
          let* z := addr zs j in
          Ok (fold_left (fun m l => store m (lane z l) (moddown_word (m (lane x l)) (m (lane y l)) q inv)) lanes m)) (steps8 0 N) m)
    (seq 0 (lvl + 1)) m.
(** basis_extension.go:192-232; [pool] is polypoolQ *)
Definition ModDownQPtoQM (b : extender) (N levelQ levelP : nat) (m : memory) (pool p1Q p1P p2Q : list warray) : res memory :=
  let* m := ModUpPtoQM b levelP levelQ m p1P pool in
  let* row := idx (modDownPtoQ b) levelP in
  moddownLimbsM m N levelQ (ext_Q b) row p1Q pool p2Q.
(** basis_extension.go:294-334; [pool] is polypoolP *)
Definition ModDownQPtoPM (b : extender) (N levelQ levelP : nat) (m : memory) (pool p1Q p1P p2P : list warray) : res memory :=
  let* m := ModUpQtoPM b levelQ levelP m p1Q pool in
  let* row := idx (modDownQtoP b) levelP in
  moddownLimbsM m N levelP (ext_P b) row p1P pool p2P.

(** copy(dst, src) *)
Definition copyM (m : memory) (dst src : warray) : memory :=
  fun b => if (a_base dst <=? b) && (b <? a_base dst + Z.of_nat (Nat.min (a_len dst) (a_len src))) then m (a_base src + (b - a_base dst)) else m b.
Definition copyAllM (m : memory) (dsts : list warray) (n : nat) (srcs : list warray) (start : nat) : res memory :=
  foldM (fun m j => let* d := idx dsts j in let* s := idx srcs start in Ok (copyM m d s)) (seq 0 n) m.
(** basis_extension.go:428-535 DecomposeAndSplit *)
Definition DecomposeAndSplitM (d : decomposer) (levelQ levelP alpha beta : nat) (gamma : Z) (m : memory) (p0Q p1Q p1P : list warray) : res memory :=
  if Nat.eqb alpha 0 then Panic (PMsg "integer divide by zero") else
  let start := (beta * alpha)%nat in
  let dl := decompLvl (Z.of_nat levelQ) (Z.of_nat alpha) (Z.of_nat beta) in
  if dl =? -1 then
    let* m := copyAllM m p1Q (levelQ + 1) p0Q start in
    copyAllM m p1P (levelP + 1) p0Q start
  else
    let* t1 := idxZ (dec_params d) (gamma * Z.of_nat alpha - 2) in
    let* t2 := idx t1 beta in
    let* pr := idxZ t2 dl in
    let k := Z.to_nat (dl + 2) in
    let* s0 := idx p0Q 0 in
    let* (m, _) := foldM (fun '(m, ys) x =>
        let* (m, ys, v) := reconM m start k x p0Q (Some p1Q) ys (dec_Q d) (qoverqiinvqi pr) in
        let* m := multSumsM m x p1Q (seq 0 start) 0 v ys k (dec_Q d) pr in
        let* m := multSumsM m x p1Q (seq start (levelQ + 1 - start)) 0 v ys k (dec_Q d) pr in
        let* m := multSumsM m x p1P (seq 0 (levelP + 1)) (List.length (dec_Q d)) v ys k (dec_P d) pr in
        Ok (m, ys)) (steps8 0 (a_len s0)) (m, y0) in
    Ok m.

(** mkckks/evaluator.go:156-169 or 180-193: the blocks j = a, a + 8, ... < b of one limb *)
Definition mulBlocksM (m : memory) (a b : nat) (q c : Z) (xs zs : warray) : res memory :=
  foldM (fun m j =>
      let* x := addr xs j in
      let* z := addr zs j in
      Ok (fold_left (fun m l => store m (lane z l) (MRed (m (lane x l)) c q (MRedParams q))) lanes m)) (steps8 a b) m.
(** mkckks/evaluator.go:152-170 or 177-194: one half of limb i of all components; the components of a ciphertext are lists of arrays *)
Definition mulHalfM (ids : list string) (q c : Z) (i a b : nat) (ct0 ctOut : smap (list warray)) (m : memory) : res memory :=
  foldM (fun m u =>
      let* p0 := sptr ct0 u in let* p0tmp := idx p0 i in
      let* p1 := sptr ctOut u in let* p1tmp := idx p1 i in
      mulBlocksM m a b q c p0tmp p1tmp) ids m.
(** mkckks/evaluator.go:117-198 MultByConst, the words; the label is Scale * scale as in [MultByConst] *)
Definition MultByConstM (ce : ckenv) (o : order) (ct0 : smap (list warray)) (c : gconst) (ctOut : smap (list warray)) (m : memory) : res memory :=
  let lvl (ct : smap (list warray)) := let* p := sptr ct "0"%string in match List.length p with O => Panic PIndex | S l => Ok l end in
  let* l0 := lvl ct0 in
  let* l1 := lvl ctOut in
  let level := Nat.min l0 l1 in
  let* (cReal, cImag, scale) := getConstAndScale ce level c in
  let pp := e_pp (ce_env ce) in
  foldM (fun m i =>
      let* q := idx (pa_Q pp) i in let* psi := idx (pa_psiQ pp) i in
      let* (lo, hi) := multConsts ce cReal cImag scale q psi in
      let* m := mulHalfM (o (2 * i)%nat (mkeys ct0)) q lo i 0 (pa_N pp / 2) ct0 ctOut m in
      mulHalfM (o (2 * i + 1)%nat (mkeys ct0)) q hi i (pa_N pp / 2) (pa_N pp) ct0 ctOut m) (seq 0 (level + 1)) m.
