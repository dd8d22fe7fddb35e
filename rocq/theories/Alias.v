(** Calls whose receiver is one of their operands: mkckks/evaluator.go MultByConst and Rescale, mkrlwe/keyswitch.go Rotate, Conjugate and MulAndRelin,
    mkrlwe/keyswitch_hoisted.go RotateHoisted and MulAndRelinHoisted.  An operand is [Some ct], an object distinct from the
    receiver, or [None], the receiver itself; it is read when the code reads it, so that reads of [None] see what the call has already written. *)
From Coq Require Import ZArith List String Bool.
From Verif Require Import Go Lattigo F64 BasisExt NTT RingOps Maps Params Elements KeySwitch KeySets KeyGen EncDec Utils Evaluator.
Import ListNotations.
Local Open Scope Z_scope.
Open Scope go_scope.

(** the operand, when the receiver holds [cur] *)
Definition rd {A} (src : option A) (cur : A) : A := match src with Some a => a | None => cur end.
(** z[j] = v *)
Definition putWord (z : list Z) (j : nat) (v : Z) : res (list Z) := if (j <? List.length z)%nat then Ok (upd z j v) else Panic PIndex.
(** p.Coeffs[i] = z, in the model the words of one limb of ct.Value[u] *)
Definition putLimb (ct : ciphertext) (u : string) (i : nat) (f : list Z -> res (list Z)) : res ciphertext :=
  ctUpd ct u (fun p => let* z := idx (p_co p) i in let* z := f z in Ok (setLimb p i z)).

Section MultConst.
Context (ce : ckenv).
Notation pp := (e_pp (ce_env ce)).
(** mkckks/evaluator.go:153-169 or 178-193: the words j of one limb; x and z may be the same array.  Simplification: one word at a time
    instead of blocks of eight (N/2 is a multiple of 8) *)
Definition mulWords (q c : Z) (js : list nat) (x : option (list Z)) (z : list Z) : res (list Z) :=
  foldM (fun z j => let* w := idx (rd x z) j in putWord z j (MRed w c q (MRedParams q))) js z.
(** mkckks/evaluator.go:152-170 or 177-194: one half of limb i of all components *)
Definition mulHalf (ids : list string) (q c : Z) (i : nat) (js : list nat) (src : option ciphertext) (out : ciphertext) : res ciphertext :=
  foldM (fun out u =>
      let* x := (match src with None => Ok None | Some ct0 => let* a := sptr ct0 u in let* x := idx (p_co a) i in Ok (Some x) end) in
      putLimb out u i (mulWords q c js x)) ids out.
(** mkckks/evaluator.go:117-198 MultByConst, the loops in the order of the code; the range loops of limb i visit the components in the
    orders [o (2i)] and [o (2i+1)] *)
Definition MultByConstAt (o : order) (src : option ckct) (c : gconst) (ctOut : ckct) : res ckct :=
  let ct0 := rd src ctOut in
  let* l0 := ctLevel (c_ct ct0) in
  let* l1 := ctLevel (c_ct ctOut) in
  let level := Nat.min l0 l1 in
  let* (cReal, cImag, scale) := getConstAndScale ce level c in
  let keys := mkeys (c_ct ct0) in
  let* out := foldM (fun out i =>
      let* q := idx (pa_Q pp) i in let* psi := idx (pa_psiQ pp) i in
      let* (lo, hi) := multConsts ce cReal cImag scale q psi in
      let* out := mulHalf (o (2 * i)%nat keys) q lo i (seq 0 (pa_N pp / 2)) (option_map c_ct src) out in
      mulHalf (o (2 * i + 1)%nat keys) q hi i (seq (pa_N pp / 2) (pa_N pp / 2)) (option_map c_ct src) out) (seq 0 (level + 1)) (c_ct ctOut) in
  Ok (mkCk out (fmul (c_scale ct0) scale)).
(** mkckks/evaluator.go:359-398 Rescale *)
Definition RescaleAt (o : order) (src : option ckct) (minScale : f64) (ctOut : ckct) (st : evst) : res (option rerr * ckct * evst) :=
  let ctIn := rd src ctOut in
  if fleb minScale f0 then Ok (Some EMinScale, ctOut, st) else
  if feqb (c_scale ctIn) f0 then Ok (Some EScale0, ctOut, st) else
  let* level := ctLevel (c_ct ctIn) in
  if Nat.eqb level 0 then Ok (Some ELevel0, ctOut, st) else
  let* (scale, nb) := rescaleLoop ce level (c_scale ctIn) (fdiv minScale (f_of_Z 2)) in
  if Nat.eqb nb 0 then Ok (None, mkCk (c_ct ctOut) scale, st) else
  let* (out, q) := foldM (fun '(out, q) i =>
      let* a := sptr (rd (option_map c_ct src) out) i in
      let* p := sptr out i in
      let* (q, p) := DivRoundByLastModulusManyLvl (ringQ pp) level nb a q p in
      let* p := pTrunc (level + 1 - nb) p in
      Ok (sset out i p, q)) (o 0%nat (mkeys (c_ct ctOut))) (c_ct ctOut, ev_q st) in
  Ok (None, mkCk out scale, set_q q st).
End MultConst.

Section KS.
Context (env : kenv).
Notation pp := (e_pp env).
Notation rQ := (ringQ pp).
(** mkrlwe/keyswitch.go:234-298 Rotate ([h] = None), mkrlwe/keyswitch_hoisted.go:183-247 RotateHoisted.  In ExternalProduct(level, ctIn.Value[id], a,
    ctOut.Value[id]) the output is written after the input has been read. *)
Definition RotateAt (o : order) (src : option ciphertext) (rotidx : Z) (h : option hoisted) (rks : rotset)
    (ctOut : ciphertext) (k : kpool) : res (ciphertext * kpool) :=
  let* level := ctLevel ctOut in
  let* ids := ctIDSet o (rd src ctOut) in
  let* li := ctLevel (rd src ctOut) in
  if (li <? level)%nat then Panic (PMsg "Cannot Rotate: ctIn and ctOut have different levels") else
  let rotidx := normNeg (pa_logN pp) rotidx in
  let a := zget (pa_CRS pp) rotidx in
  let* c0 := sptr (rd src ctOut) "0"%string in
  let* ct := ctUpd ctOut "0"%string (fun p => Ok (pCopy p c0)) in
  let* (ct, k) := foldM (fun '(ct, k) id =>
      let* rk := GetRotationKey rks id rotidx in
      let* (q0, k) := extOp env level h (rd src ct) id (rk_val rk) (k_q0 k) k in
      let k := set_q0 q0 k in
      let* ct := ctUpd ct "0"%string (fun p => AddLvl rQ level p q0 p) in
      let* av := (match a with Some v => Ok v | None => Panic PNil end) in
      let* p := sptr ct id in
      let* (p, k) := extOp env level h (rd src ct) id av p k in
      Ok (sset ct id p, k)) (o 1%nat (mkeys ids)) (ct, k) in
  let gal := galColumn (pa_logN pp) rotidx in
  foldM (fun '(ct, k) id => permuteComp env level gal ct id k) (o 2%nat (mkeys (rd src ct))) (ct, k).

(** lattigo Ring.Permute (recalled) with polIn = polOut: out[(i*gen) & (N-1)] is written from the current out[i] *)
Definition permute_self (logN : nat) (gen q : Z) (x : list Z) : list Z :=
  let n := Z.of_nat (deg logN) in
  fold_left (fun out i =>
      let raw := wmul (Z.of_nat i) gen in
      let v := nth i out 0 in
      upd out (Z.to_nat (raw mod n)) (if (raw / n) mod 2 =? 0 then v else wsub q v))
    (seq 0 (deg logN)) x.
Definition PermuteSelf (r : ringd) (p : poly) (gen : Z) : res poly :=
  lvl3 r (fun q x _ _ => permute_self (r_logN r) gen q x) (List.length (r_mods r) - 1) p p p.
(** mkrlwe/keyswitch.go:302-332 Conjugate *)
Definition ConjugateAt (o : order) (src : option ciphertext) (cks : conjset) (ctOut : ciphertext) (k : kpool) : res (ciphertext * kpool) :=
  let* level := ctLevel ctOut in
  let* ids := ctIDSet o (rd src ctOut) in
  let* li := ctLevel (rd src ctOut) in
  if (li <? level)%nat then Panic (PMsg "Cannot Conjugate: ctIn and ctOut have different levels") else
  let gal := galRow (pa_logN pp) in
  let* ct := foldM (fun ct id =>
      match src with
      | Some ctIn => let* a := sptr ctIn id in ctUpd ct id (fun p => Permute rQ a gal p)
      | None => ctUpd ct id (fun p => PermuteSelf rQ p gal)
      end) (o 1%nat (mkeys (rd src ctOut))) ctOut in
  let* (ct, k) := foldM (fun '(ct, k) id =>
      let* ck := GetConjugationKey cks id in
      let* p := sptr ct id in
      let* (q0, k) := ExternalProduct env level p (cj_val ck) (k_q0 k) k in
      let* ct := ctUpd ct "0"%string (fun p => AddLvl rQ level p q0 p) in
      Ok (ct, set_q0 q0 k)) (o 2%nat (mkeys ids)) (ct, k) in
  let a := zget (pa_CRS pp) (-2)%Z in
  foldM (fun '(ct, k) id =>
      let* p := sptr ct id in
      let* av := (match a with Some v => Ok v | None => Panic PNil end) in
      let* (q0, k) := ExternalProduct env level p av (k_q0 k) k in
      let* ct := ctUpd ct id (fun p => Ok (pCopy p q0)) in
      Ok (ct, set_q0 q0 k)) (o 3%nat (mkeys ids)) (ct, k).

(** mkrlwe/keyswitch_hoisted.go:119-144 *)
Definition tensorAt (o : order) (level : nat) (ids0 ids1 : idset) (s0 s1 : option ciphertext) (ct : ciphertext) (k : kpool) : res (ciphertext * kpool) :=
  let* a0 := sptr (rd s0 ct) "0"%string in
  let* q0 := NTTLvl rQ level a0 (k_q0 k) in
  let* b0 := sptr (rd s1 ct) "0"%string in
  let* q1 := NTTLvl rQ level b0 (k_q1 k) in
  let* q0 := MFormLvl rQ level q0 q0 in
  let* ct := ctUpd ct "0"%string (fun p => MulCoeffsMontgomeryLvl rQ level q0 q1 p) in
  let* q1 := MFormLvl rQ level q1 q1 in
  let* (ct, q2) := foldM (fun '(ct, q2) id =>
      let* a := sptr (rd s0 ct) id in
      let* q2 := NTTLvl rQ level a q2 in
      let* ct := ctUpd ct id (fun p => MulCoeffsMontgomeryLvl rQ level q1 q2 p) in
      Ok (ct, q2)) (o 2%nat (mkeys ids0)) (ct, k_q2 k) in
  let* (ct, q2) := foldM (fun '(ct, q2) id =>
      let* b := sptr (rd s1 ct) id in
      let* q2 := NTTLvl rQ level b q2 in
      let* ct := ctUpd ct id (fun p =>
          if idHas ids0 id then MulCoeffsMontgomeryAndAddLvl rQ level q0 q2 p
          else MulCoeffsMontgomeryLvl rQ level q0 q2 p) in
      Ok (ct, q2)) (o 3%nat (mkeys ids1)) (ct, q2) in
  let* ct := foldM (fun ct id => ctUpd ct id (fun p => InvNTTLvl rQ level p p)) (o 4%nat (mkeys ct)) ct in
  Ok (ct, set_q0 q0 (set_q1 q1 (set_q2 q2 k))).
(** mkrlwe/keyswitch_hoisted.go:44-179 MulAndRelinHoisted *)
Definition MulAndRelinAt (o : order) (s0 s1 : option ciphertext) (h0 h1 : option hoisted) (rlks : rlkset)
    (ctOut : ciphertext) (k : kpool) : res (ciphertext * kpool) :=
  let* level := ctLevel ctOut in
  let* l0 := ctLevel (rd s0 ctOut) in
  if (l0 <? level)%nat then Panic (PMsg "Cannot MulAndRelin: op0 and op1 have different levels") else
  let* ids0 := ctIDSet o (rd s0 ctOut) in
  let* ids1 := ctIDSet o (rd s1 ctOut) in
  let* x := zeroRows (Beta pp level) (k_s1 k) in
  let* y := zeroRows (Beta pp level) (k_s2 k) in
  let* (x, k) := genVec env (o 0%nat (mkeys ids0)) level h0 (rd s0 ctOut) rlks rl_d x k in
  let* (y, k) := genVec env (o 1%nat (mkeys ids1)) level h1 (rd s1 ctOut) rlks rl_b y k in
  let* (ct, k) := tensorAt o level ids0 ids1 s0 s1 ctOut k in
  let* (ct, k) := foldM (fun '(ct, k) id =>
      let* (q0, k) := extOp env level h1 (rd s1 ct) id x (k_q0 k) k in
      let* ct := ctUpd ct id (fun p => AddLvl rQ level p q0 p) in
      Ok (ct, set_q0 q0 k)) (o 5%nat (mkeys ids1)) (ct, k) in
  let* u := getCRS pp (-1)%Z in
  let* (ct, k) := foldM (fun '(ct, k) id =>
      let* rl := sptr rlks id in
      let* (q0, k) := extOp env level h0 (rd s0 ct) id y (k_q0 k) k in
      let k := set_q0 q0 k in
      let* (s3, k) := Decompose env level q0 (k_s3 k) k in
      let k := set_s3 s3 k in
      let* (q1, k) := ExternalProductHoisted env level s3 (rl_v rl) (k_q1 k) k in
      let k := set_q1 q1 k in
      let* ct := ctUpd ct "0"%string (fun p => AddLvl rQ level p q1 p) in
      let* (q2, k) := ExternalProductHoisted env level s3 u (k_q2 k) k in
      let k := set_q2 q2 k in
      let* ct := ctUpd ct id (fun p => AddLvl rQ level p q2 p) in
      Ok (ct, k)) (o 6%nat (mkeys ids0)) (ct, k) in
  Ok (ct, set_s1 x (set_s2 y k)).
(** mkrlwe/keyswitch.go:122-230 MulAndRelin *)
Definition MulAndRelinPlainAt (o : order) (s0 s1 : option ciphertext) (rlks : rlkset)
    (ctOut : ciphertext) (k : kpool) : res (ciphertext * kpool) :=
  let* level := ctLevel ctOut in
  let* l0 := ctLevel (rd s0 ctOut) in
  if (l0 <? level)%nat then Panic (PMsg "Cannot MulAndRelin: op0 and op1 have different levels") else
  let* ids0 := ctIDSet o (rd s0 ctOut) in
  let* ids1 := ctIDSet o (rd s1 ctOut) in
  let* x := zeroRows (Beta pp level) (k_s1 k) in
  let* y := zeroRows (Beta pp level) (k_s2 k) in
  let* (x, k) := genVec env (o 0%nat (mkeys ids0)) level None (rd s0 ctOut) rlks rl_d x k in
  let* (y, k) := genVec env (o 1%nat (mkeys ids1)) level None (rd s1 ctOut) rlks rl_b y k in
  let* (ct, k) := tensorAt o level ids0 ids1 s0 s1 ctOut k in
  let* (ct, k) := foldM (fun '(ct, k) id =>
      let* p := sptr (rd s1 ct) id in
      let* (q0, k) := ExternalProduct env level p x (k_q0 k) k in
      let* ct := ctUpd ct id (fun p => AddLvl rQ level p q0 p) in
      Ok (ct, set_q0 q0 k)) (o 5%nat (mkeys ids1)) (ct, k) in
  let* u := getCRS pp (-1)%Z in
  let* (ct, k) := foldM (fun '(ct, k) id =>
      let* rl := sptr rlks id in
      let* p := sptr (rd s0 ct) id in
      let* (q0, k) := ExternalProduct env level p y (k_q0 k) k in
      let k := set_q0 q0 k in
      let* (q1, k) := ExternalProduct env level q0 (rl_v rl) (k_q1 k) k in
      let k := set_q1 q1 k in
      let* ct := ctUpd ct "0"%string (fun p => AddLvl rQ level p q1 p) in
      let* (q2, k) := ExternalProduct env level q0 u (k_q2 k) k in
      let k := set_q2 q2 k in
      let* ct := ctUpd ct id (fun p => AddLvl rQ level p q2 p) in
      Ok (ct, k)) (o 6%nat (mkeys ids0)) (ct, k) in
  Ok (ct, set_s1 x (set_s2 y k)).
End KS.
