(** mkrlwe/basis_extension.go, word by word.

    A polynomial in RNS form is a list of limbs, a limb is a list of N words.
    The Go loops process 8 coefficients per step through unsafe pointers; every lane is
    independent, so the model processes one coefficient at a time (N is a multiple of 8). *)
From Coq Require Import ZArith List String Bool.
From Verif Require Import Go Lattigo F64.
Import ListNotations.
Local Open Scope Z_scope.

(** basis_extension.go:24-32, struct modupParams *)
Record modupParams := mkModup {
  qoverqiinvqi : list Z;
  qoverqimodp : list (list Z);
  vtimesqmodp : list (list Z) }.

(** basis_extension.go:34-54 genModDownParams(ringQ, ringP).  The result is indexed [j][i]. *)
Definition genModDown_cell (pj qi : Z) (prev : option Z) : Z :=
  let p := MForm (ModExp pj (wsub qi 2) qi) qi (BRedParams qi) in
  match prev with
  | None => p
  | Some pr => MRed p pr qi (MRedParams qi)
  end.
Fixpoint genModDown_rows (Q P : list Z) (prev : option (list Z)) : list (list Z) :=
  match P with
  | [] => []
  | pj :: P =>
      let row := map (fun '(i, qi) =>
                   genModDown_cell pj qi (match prev with None => None | Some r => Some (nth i r 0) end))
                   (combine (seq 0 (List.length Q)) Q) in
      row :: genModDown_rows Q P (Some row)
  end.
Definition genModDownParams (Q P : list Z) : list (list Z) := genModDown_rows Q P None.

(** basis_extension.go:110-116: product of the other moduli modulo qi, Montgomery form,
    and 123-128: the same modulo pj starting from the plain 1. *)
Definition mont_prod_except (Q : list Z) (i : nat) (start m : Z) : Z :=
  fold_left (fun acc '(j, qj) =>
      if Nat.eqb j i then acc
      else MRed acc (MForm qj m (BRedParams m)) m (MRedParams m))
    (combine (seq 0 (List.length Q)) Q) start.

(** basis_extension.go:140-143 *)
Definition mont_prod_all (Q : list Z) (m : Z) : Z :=
  fold_left (fun acc qi => MRed acc (MForm qi m (BRedParams m)) m (MRedParams m)) Q 1.

(** basis_extension.go:145-149: [0, v, 2v, ...] with CRed after every addition. *)
Fixpoint vtimes (n : nat) (v p last : Z) : list Z :=
  match n with
  | O => [last]
  | S n => last :: vtimes n v p (CRed (wadd last v) p)
  end.

(** basis_extension.go:83-153 basisextenderparameters *)
Definition basisextenderparameters (Q P : list Z) : modupParams :=
  mkModup
    (map (fun '(i, qi) =>
        let qiStar := mont_prod_except Q i (MForm 1 qi (BRedParams qi)) qi in
        ModexpMontgomery qiStar (wsub qi 2) qi (MRedParams qi) (BRedParams qi))
      (combine (seq 0 (List.length Q)) Q))
    (map (fun pj =>
        map (fun i => MForm (mont_prod_except Q i 1 pj) pj (BRedParams pj))
          (seq 0 (List.length Q))) P)
    (map (fun pj => vtimes (List.length Q) (wsub pj (mont_prod_all Q pj)) pj 0) P).

(** basis_extension.go:537-579 reconstructRNS on one coefficient; [off] is 0 there and
    lvlQStart in the copy of the same loop inside DecomposeAndSplit (476-507).
    The y arrays have 32 entries. ring.MredParams[i] is MRedParams(Modulus[i]). *)
Definition recon_step (off : nat) (col Q QbMont : list Z) (st : list Z * f64) (i : nat)
  : res (list Z * f64) :=
  let* qq := idx QbMont i in
  let* qi := idx Q (off + i) in
  let* px := idx col (off + i) in
  let y := MRed px qq qi (MRedParams qi) in
  if (32 <=? i)%nat then Panic PIndex else
  Ok ((fst st ++ [y])%list, fadd (snd st) (fdiv (f_of_Z y) (f_of_Z qi))).
Definition recon (off : nat) (k : nat) (col Q QbMont : list Z) : res (list Z * Z) :=
  let* st := foldM (recon_step off col Q QbMont) (seq 0 k) ([], f0) in
  Ok (fst st, u64_of_f (snd st)).

(** basis_extension.go:588-592: 128-bit accumulation *)
Definition acc_step (ys tab : list Z) (st : Z * Z) (i : nat) : res (Z * Z) :=
  let* y := idx ys i in
  let* t := idx tab i in
  let '(rlo, c) := add64 (snd st) (mullo y t) in
  Ok (wadd (fst st) (wadd (mulhi y t) c), rlo).

(** basis_extension.go:582-646 multSum on one lane *)
Definition multSum (k : nat) (ys : list Z) (v pj : Z) (vtab tab : list Z) : res Z :=
  let* st := foldM (acc_step ys tab) (seq 0 k) (0, 0) in
  let hhi := mulhi (wmul (snd st) (MRedParams pj)) pj in
  let* vt := idxZ vtab v in
  Ok (wadd (wadd (wsub (fst st) hhi) pj) vt).

(** the x-th coefficient of every limb *)
Definition column (p : list (list Z)) (x : nat) : list Z := map (fun l => nth x l 0) p.
(** from coefficient-major to limb-major, [n] limbs *)
Definition limbs_of (n : nat) (cols : list (list Z)) : list (list Z) :=
  map (fun j => map (fun c => nth j c 0) cols) (seq 0 n).
(** number of coefficients, len(p[0]) *)
Definition ncoef (p : list (list Z)) : nat := List.length (nth 0 p []).

(** basis_extension.go:352-355: one coefficient of modUpExact *)
Definition modUpExact_coef (col Q P : list Z) (n2 : nat) (pr : modupParams) : res (list Z) :=
  let k := List.length col in
  let* (ys, v) := recon 0 k col Q (qoverqiinvqi pr) in
  mapM (fun j =>
      let* pj := idx P j in
      let* vt := idx (vtimesqmodp pr) j in
      let* tb := idx (qoverqimodp pr) j in
      multSum k ys v pj vt tb) (seq 0 n2).

(** basis_extension.go:337-357 modUpExact; [n2] = len(p2) *)
Definition modUpExact (p1 : list (list Z)) (n2 : nat) (Q P : list Z) (pr : modupParams)
  : res (list (list Z)) :=
  let* cols := mapM (fun x => modUpExact_coef (column p1 x) Q P n2 pr) (seq 0 (ncoef p1)) in
  Ok (limbs_of n2 cols).

(** s[:n] *)
Definition slice {A} (n : nat) (l : list A) : res (list A) :=
  if (n <=? List.length l)%nat then Ok (firstn n l) else Panic PIndex.

(** basis_extension.go:12-22,57-81 FastBasisExtender (scratch polynomials omitted: they are
    fully overwritten before being read) *)
Record extender := mkExt {
  ext_Q : list Z; ext_P : list Z;
  paramsQtoP : list modupParams;
  paramsPtoQ : list modupParams;
  modDownPtoQ : list (list Z);
  modDownQtoP : list (list Z) }.
Definition NewFastBasisExtender (Q P : list Z) : extender :=
  mkExt Q P
    (map (fun i => basisextenderparameters (firstn (i + 1) Q) P) (seq 0 (List.length Q)))
    (map (fun i => basisextenderparameters (firstn (i + 1) P) Q) (seq 0 (List.length P)))
    (genModDownParams Q P)
    (genModDownParams P Q).

(** basis_extension.go:177-179 *)
Definition ModUpQtoP (b : extender) (levelQ levelP : nat) (polQ : list (list Z)) : res (list (list Z)) :=
  let* p1 := slice (levelQ + 1) polQ in
  let* pr := idx (paramsQtoP b) levelQ in
  modUpExact p1 (levelP + 1) (ext_Q b) (ext_P b) pr.
(** basis_extension.go:184-186 *)
Definition ModUpPtoQ (b : extender) (levelP levelQ : nat) (polP : list (list Z)) : res (list (list Z)) :=
  let* p1 := slice (levelP + 1) polP in
  let* pr := idx (paramsPtoQ b) levelP in
  modUpExact p1 (levelQ + 1) (ext_P b) (ext_Q b) pr.

(** basis_extension.go:220: z = MRed(y + twoqi - x, qi - modDown, qi, ..) *)
Definition moddown_word (x y q inv : Z) : Z :=
  MRed (wsub (wadd y (wmul q 2)) x) (wsub q inv) q (MRedParams q).

(** loop 203-229 / 305-331 over limbs and coefficients *)
Definition moddown_limbs (lvl : nat) (mods : list Z) (row : list Z) (p1 up : list (list Z))
  : res (list (list Z)) :=
  mapM (fun i =>
      let* q := idx mods i in
      let* inv := idx row i in
      let* xs := idx p1 i in
      let* ys := idx up i in
      Ok (map (fun '(x, y) => moddown_word x y q inv) (combine xs ys)))
    (seq 0 (lvl + 1)).

(** basis_extension.go:192-232 ModDownQPtoQ.  239-288 ModDownQPtoQNTT is the same function
    conjugated by the NTT, with lazily reduced inputs: DownNTT.v. *)
Definition ModDownQPtoQ (b : extender) (levelQ levelP : nat) (p1Q p1P : list (list Z))
  : res (list (list Z)) :=
  let* up := ModUpPtoQ b levelP levelQ p1P in
  let* row := idx (modDownPtoQ b) levelP in
  moddown_limbs levelQ (ext_Q b) row p1Q up.

(** basis_extension.go:294-334 ModDownQPtoP; note the row index levelP (line 312) *)
Definition ModDownQPtoP (b : extender) (levelQ levelP : nat) (p1Q p1P : list (list Z))
  : res (list (list Z)) :=
  let* up := ModUpQtoP b levelQ levelP p1Q in
  let* row := idx (modDownQtoP b) levelP in
  moddown_limbs levelP (ext_P b) row p1P up.

(** int(math.Ceil(float64(a) / float64(b))) as in basis_extension.go:382-383, params.go Beta *)
Definition ceil_div_f (a b : Z) : Z := fceil (fdiv (f_of_Z a) (f_of_Z b)).

(** basis_extension.go:362-424 Decomposer / NewDecomposer *)
Record decomposer := mkDec {
  dec_Q : list Z; dec_P : list Z;
  dec_params : list (list (list modupParams)) }.

(** body of the loop over lvlP, lines 380-420, for the prefix P of length lvlP+2 *)
Definition dec_level (Q P : list Z) (gamma : Z) : list (list modupParams) :=
  let alpha := Z.to_nat (ceil_div_f (Z.of_nat (List.length P)) gamma) in
  let beta := Z.to_nat (ceil_div_f (Z.of_nat (List.length Q)) (Z.of_nat alpha)) in
  map (fun i =>
      let xalpha :=
        if negb (Nat.eqb (List.length Q mod alpha) 0) && Nat.eqb i (beta - 1)
        then (List.length Q mod alpha)%nat else alpha in
      map (fun j => basisextenderparameters (firstn (j + 2) (skipn (i * alpha) Q)) (Q ++ P))
        (seq 0 (xalpha - 1)))
    (seq 0 beta).
Definition NewDecomposer (Q P : list Z) (gamma : Z) : decomposer :=
  mkDec Q P (map (fun lvlP => dec_level Q (firstn (lvlP + 2) P) gamma)
               (seq 0 (List.length P - 1))).

(** basis_extension.go:428-535 DecomposeAndSplit.  Output limbs 0..levelQ and 0..levelP.
    The copy at line 487 is overwritten by the loop at 525-527 and is omitted. *)
Definition decompLvl (levelQ alpha beta : Z) : Z :=
  if levelQ >? alpha * (beta + 1) - 1 then alpha - 2 else (levelQ mod alpha) - 1.
Definition DecomposeAndSplit (d : decomposer) (levelQ levelP alpha beta : nat) (gamma : Z)
    (p0Q : list (list Z)) : res (list (list Z) * list (list Z)) :=
  if Nat.eqb alpha 0 then Panic (PMsg "integer divide by zero") else
  let start := (beta * alpha)%nat in
  let dl := decompLvl (Z.of_nat levelQ) (Z.of_nat alpha) (Z.of_nat beta) in
  if dl =? -1 then
    let* l := idx p0Q start in
    Ok (repeat l (levelQ + 1), repeat l (levelP + 1))
  else
    let* t1 := idxZ (dec_params d) (gamma * Z.of_nat alpha - 2) in
    let* t2 := idx t1 beta in
    let* pr := idxZ t2 dl in
    let k := Z.to_nat (dl + 2) in
    let* cols := mapM (fun x =>
        let* (ys, v) := recon start k (column p0Q x) (dec_Q d) (qoverqiinvqi pr) in
        let* cq := mapM (fun j =>
            let* q := idx (dec_Q d) j in
            let* vt := idx (vtimesqmodp pr) j in
            let* tb := idx (qoverqimodp pr) j in
            multSum k ys v q vt tb) (seq 0 (levelQ + 1)) in
        let* cp := mapM (fun j =>
            let* p := idx (dec_P d) j in
            let* vt := idx (vtimesqmodp pr) (List.length (dec_Q d) + j) in
            let* tb := idx (qoverqimodp pr) (List.length (dec_Q d) + j) in
            multSum k ys v p vt tb) (seq 0 (levelP + 1)) in
        Ok (cq, cp)) (seq 0 (ncoef p0Q)) in
    Ok (limbs_of (levelQ + 1) (map fst cols), limbs_of (levelP + 1) (map snd cols)).
