(** mkckks/evaluator.go.  Ciphertexts are values; scratch state is threaded.  The exported methods that
    return a new ciphertext never alias it with an operand, so of evaluateInPlace only the branch for a
    receiver distinct from both operands is modelled here; AliasAdd.v has all of it. *)
From Coq Require Import ZArith List String Bool.
From Verif Require Import Go Lattigo Arith F64 BasisExt NTT RingOps Maps Params Elements KeySwitch KeySets EncDec Utils.
Import ListNotations.
Local Open Scope Z_scope.
Open Scope go_scope.

(** lattigo Ring.DivRoundByLastModulusLvl (recalled), by the value it computes: limb i becomes
    (x_i + h - ((x_level + h) mod p)) / p modulo q_i, with p the last modulus and h = (p-1)/2.  Whether
    lattigo also overwrites the last limb of its operand is the subject of Clobber.v. *)
Definition divRound1 (h p : Z) (xl : list Z) (q : Z) (xi : list Z) : list Z :=
  pw2 (fun x y => ((x + h - (y + h) mod p) * ModExp p (q - 2) q) mod q) xi xl.
Definition DivRoundByLastModulusLvl (r : ringd) (level : nat) (a dst : poly) : res poly :=
  let* p := idx (r_mods r) level in
  let* xl := idx (p_co a) level in
  match level with
  | O => Ok dst
  | S l => let* ls := mapM (fun i => let* q := idx (r_mods r) i in let* xi := idx (p_co a) i in
             Ok (divRound1 ((p - 1) / 2) p xl q xi)) (seq 0 level) in
           write l ls dst
  end.
(** lattigo Ring.DivRoundByLastModulusManyLvl (recalled) *)
Fixpoint divRoundLoop (r : ringd) (level n : nat) (pool dst : poly) : res (poly * poly) :=
  match n with
  | O => Ok (pool, dst)
  | S O => let* dst := DivRoundByLastModulusLvl r level pool dst in Ok (pool, dst)
  | S n => let* pool := DivRoundByLastModulusLvl r level pool pool in divRoundLoop r (level - 1) n pool dst
  end.
Definition DivRoundByLastModulusManyLvl (r : ringd) (level nb : nat) (a pool dst : poly) : res (poly * poly) :=
  match nb with
  | O => let* dst := CopyValuesLvl r level a dst in Ok (pool, dst)
  | S O => let* dst := DivRoundByLastModulusLvl r level a dst in Ok (pool, dst)
  | S n => let* pool := DivRoundByLastModulusLvl r level a pool in divRoundLoop r (level - 1) n pool dst
  end.

(** the dynamic type of a constant, evaluator.go:44-91 *)
Inductive gconst := KComplex (re im : f64) | KFloat (c : f64) | KUint64 (z : Z) | KInt64 (z : Z) | KInt (z : Z) | KOther.

(** evaluator.go:13-18, immutable part and mutable part *)
Record ckenv := mkCke { ce_env : kenv; ce_scale : f64 }.
Record evst := mkEv { ev_ct : ciphertext; ev_q : poly; ev_k : kpool }.
Definition set_ct (c : ciphertext) (st : evst) := mkEv c (ev_q st) (ev_k st).
Definition set_q (p : poly) (st : evst) := mkEv (ev_ct st) p (ev_k st).
Definition set_k (k : kpool) (st : evst) := mkEv (ev_ct st) (ev_q st) k.

(** evaluator.go:23-38 NewEvaluator, for parameters with at least one special prime *)
Definition NewEvaluator (o : order) (lz : lazyf) (cp : ckparams) : ckenv * evst :=
  let '(e, k) := NewKeySwitcher lz (cp_pp cp) in
  (mkCke e (cp_scale cp),
   mkEv (NewCiphertext o (cp_pp cp) NewIDSet (maxLevel (cp_pp cp))) (setNTT true (ringPoly (ringQ (cp_pp cp)))) k).

(** utils.MaxFloat64 (lattigo, recalled) *)
Definition MaxFloat64 (a b : f64) : f64 := if fltb b a then a else b.

Section Ev.
Context (ce : ckenv).
Notation env := (ce_env ce).
Notation pp := (e_pp env).
Notation rQ := (ringQ pp).
Notation cp := (mkCkp pp (ce_scale ce)).

(** evaluator.go:49-56: does a part of the constant have a fractional part *)
Definition needsScale (c : f64) : bool :=
  negb (feqb c f0) && negb (feqb (fsub c (f_of_Z (i64_of_f c))) f0).
(** evaluator.go:40-94 getConstAndScale *)
Definition getConstAndScale (level : nat) (c : gconst) : res (f64 * f64 * f64) :=
  let* q := idx (pa_Q pp) level in
  let one := f_of_Z 1 in
  match c with
  | KComplex re im =>
      let s := if needsScale re then f_of_Z q else one in
      Ok (re, im, if needsScale im then f_of_Z q else s)
  | KFloat c => Ok (c, f0, if needsScale c then f_of_Z q else one)
  | KUint64 z | KInt64 z | KInt z => Ok (f_of_Z z, f0, one)
  | KOther => Ok (f0, f0, one)
  end.

(** evaluator.go:106-112 DropLevel.  [levels] >= 0 *)
Definition DropLevel (o : order) (ct : ckct) (levels : nat) : res ckct :=
  let* level := ctLevel (c_ct ct) in
  if (level + 1 <? levels)%nat then Panic PIndex else
  let* c := foldM (fun c id => ctUpd c id (pTrunc (level + 1 - levels))) (o 0%nat (mkeys (c_ct ct))) (c_ct ct) in
  Ok (mkCk c (c_scale ct)).
(** evaluator.go:98-102 DropLevelNew *)
Definition DropLevelNew (o : order) (ct : ckct) (levels : nat) : res ckct :=
  let* c := ckCopyNew ct in DropLevel o c levels.

(** evaluator.go:131-195, one modulus: the two Montgomery constants for the lower and the upper half.
    NttPsi[i][1] is the Montgomery form of psi^(N/2). *)
Definition multConsts (cReal cImag scale : f64) (q psi : Z) : res (Z * Z) :=
  let* sr := if negb (feqb cReal f0) then scaleUpExact cReal scale q else Ok 0 in
  if negb (feqb cImag f0) then
    let* si := scaleUpExact cImag scale q in
    let i4 := MForm (psi ^ (Z.of_nat (pa_N pp) / 2) mod q) q (BRedParams q) in
    let si := MRed si i4 q (MRedParams q) in
    Ok (MForm (CRed (wadd sr si) q) q (BRedParams q),
        MForm (CRed (wadd sr (wsub q si)) q) q (BRedParams q))
  else
    let c := MForm sr q (BRedParams q) in Ok (c, c).
(** evaluator.go:152-194 on one limb.  N/2 is a multiple of 8, the block size of the unrolled loops *)
Definition mulHalves (q lo hi : Z) (x : list Z) : list Z :=
  map (fun v => MRed v lo q (MRedParams q)) (firstn (pa_N pp / 2) x) ++
  map (fun v => MRed v hi q (MRedParams q)) (skipn (pa_N pp / 2) x).
(** evaluator.go:117-198 MultByConst; the loops over the limbs and over the components are exchanged *)
Definition MultByConst (o : order) (ct0 : ckct) (c : gconst) (ctOut : ckct) : res ckct :=
  let* l0 := ctLevel (c_ct ct0) in
  let* l1 := ctLevel (c_ct ctOut) in
  let level := Nat.min l0 l1 in
  let* (cReal, cImag, scale) := getConstAndScale level c in
  let* out := foldM (fun out u =>
      let* a := sptr (c_ct ct0) u in
      ctUpd out u (fun p =>
        let* ls := mapM (fun i =>
            let* q := idx (pa_Q pp) i in let* psi := idx (pa_psiQ pp) i in
            let* (lo, hi) := multConsts cReal cImag scale q psi in
            let* x := idx (p_co a) i in
            Ok (mulHalves q lo hi x)) (seq 0 (level + 1)) in
        write level ls p)) (o 0%nat (mkeys (c_ct ct0))) (c_ct ctOut) in
  Ok (mkCk out (fmul (c_scale ct0) scale)).

(** evaluator.go:306-313 newCiphertextBinary *)
Definition newCiphertextBinary (o : order) (op0 op1 : ckct) : res ckct :=
  let* l0 := ctLevel (c_ct op0) in
  let* l1 := ctLevel (c_ct op1) in
  let* i0 := ctIDSet o (c_ct op0) in
  let* i1 := ctIDSet o (c_ct op1) in
  let* ids := idUnion o i0 i1 in
  Ok (ckNewCiphertext o cp ids (Nat.min l0 l1) (MaxFloat64 (c_scale op0) (c_scale op1))).

(** "a > b && math.Floor(a/b) > 1" *)
Definition ratioAbove (a b : f64) : bool := fltb b a && fltb (f_of_Z 1) (ffloor (fdiv a b)).
(** evaluator.go:200-304 evaluateInPlace, receiver distinct from both operands (lines 269-291) *)
Definition evaluateInPlace (f : nat -> poly -> poly -> poly -> res poly) (o : order) (c0 c1 ctOut : ckct) (st : evst) : res (ckct * evst) :=
  let* ids0 := ctIDSet o (c_ct c0) in
  let* ids1 := ctIDSet o (c_ct c1) in
  let* ids := idUnion o ids0 ids1 in
  let* pool := PadCiphertext o (ev_ct st) ids in
  let st := set_ct pool st in
  let* l0 := ctLevel (c_ct c0) in
  let* l1 := ctLevel (c_ct c1) in
  let* lo := ctLevel (c_ct ctOut) in
  let level := Nat.min (Nat.min l0 l1) lo in
  let* ctOut := if (level <? lo)%nat then DropLevel o ctOut (lo - Nat.min l0 l1) else Ok ctOut in
  let* (tmp0, tmp1, st) :=
    if ratioAbove (c_scale c1) (c_scale c0) then
      let* t := MultByConst o c0 (KFloat (ffloor (fdiv (c_scale c1) (c_scale c0)))) (mkCk (ev_ct st) (c_scale ctOut)) in
      Ok (c_ct t, c_ct c1, set_ct (c_ct t) st)
    else if ratioAbove (c_scale c0) (c_scale c1) then
      let* t := MultByConst o c1 (KFloat (ffloor (fdiv (c_scale c0) (c_scale c1)))) (mkCk (ev_ct st) (c_scale ctOut)) in
      Ok (c_ct c0, c_ct t, set_ct (c_ct t) st)
    else Ok (c_ct c0, c_ct c1, st) in
  let* a0 := sptr tmp0 "0"%string in
  let* b0 := sptr tmp1 "0"%string in
  let* out := ctUpd (c_ct ctOut) "0"%string (fun p => f level a0 b0 p) in
  let* oids := ctIDSet o out in
  let* out := foldM (fun out id =>
      if negb (idHas ids0 id) then let* b := sptr tmp1 id in ctUpd out id (fun p => CopyValuesLvl rQ level b p)
      else if negb (idHas ids1 id) then let* a := sptr tmp0 id in ctUpd out id (fun p => CopyValuesLvl rQ level a p)
      else let* a := sptr tmp0 id in let* b := sptr tmp1 id in ctUpd out id (fun p => f level a b p))
    (o 2%nat (mkeys oids)) out in
  Ok (mkCk out (c_scale ctOut), st).

(** evaluator.go:316-326 AddNew *)
Definition AddNew (o : order) (op0 op1 : ckct) (st : evst) : res (ckct * evst) :=
  let* ctOut := newCiphertextBinary o op0 op1 in
  evaluateInPlace (AddLvl rQ) o op0 op1 ctOut st.
(** evaluator.go:329-351 SubNew *)
Definition SubNew (o : order) (op0 op1 : ckct) (st : evst) : res (ckct * evst) :=
  let* ctOut := newCiphertextBinary o op0 op1 in
  let* (ctOut, st) := evaluateInPlace (SubLvl rQ) o op0 op1 ctOut st in
  let* l0 := ctLevel (c_ct op0) in
  let* l1 := ctLevel (c_ct op1) in
  let* lo := ctLevel (c_ct ctOut) in
  let level := Nat.min (Nat.min l0 l1) lo in
  let* ids0 := ctIDSet o (c_ct op0) in
  let* oids := ctIDSet o (c_ct ctOut) in
  let* out := foldM (fun out id =>
      if negb (idHas ids0 id) then ctUpd out id (fun p => NegLvl rQ level p p) else Ok out)
    (o 3%nat (mkeys oids)) (c_ct ctOut) in
  Ok (mkCk out (c_scale ctOut), st).

(** evaluator.go:375-383: the scale and the number of divisions.  The loop reads Modulus[level - n]
    before testing level - n >= 0, so that it panics after dividing by Modulus[0]. *)
Fixpoint rescaleLoop (l : nat) (scale half : f64) : res (f64 * nat) :=
  let* q := idx (pa_Q pp) l in
  let s := fdiv scale (f_of_Z q) in
  if fleb half s then
    match l with
    | O => Panic PIndex
    | S l => let* (s', n) := rescaleLoop l s half in Ok (s', S n)
    end
  else Ok (scale, O).
(** the error values of evaluator.go:363-373 *)
Inductive rerr := EMinScale | EScale0 | ELevel0.
(** evaluator.go:359-398 Rescale.  When no division is made, "ctOut = ctIn.CopyNew()" assigns the
    local variable only. *)
Definition Rescale (o : order) (ctIn : ckct) (minScale : f64) (ctOut : ckct) (st : evst) : res (option rerr * ckct * evst) :=
  if fleb minScale f0 then Ok (Some EMinScale, ctOut, st) else
  if feqb (c_scale ctIn) f0 then Ok (Some EScale0, ctOut, st) else
  let* level := ctLevel (c_ct ctIn) in
  if Nat.eqb level 0 then Ok (Some ELevel0, ctOut, st) else
  let* (scale, nb) := rescaleLoop level (c_scale ctIn) (fdiv minScale (f_of_Z 2)) in
  if Nat.eqb nb 0 then Ok (None, mkCk (c_ct ctOut) scale, st) else
  let* (out, q) := foldM (fun '(out, q) i =>
      let* a := sptr (c_ct ctIn) i in
      let* p := sptr out i in
      let* (q, p) := DivRoundByLastModulusManyLvl rQ level nb a q p in
      let* p := pTrunc (level + 1 - nb) p in
      Ok (sset out i p, q)) (o 0%nat (mkeys (c_ct ctOut))) (c_ct ctOut, ev_q st) in
  Ok (None, mkCk out scale, set_q q st).
(** evaluator.go:406-411 RescaleNew *)
Definition RescaleNew (o : order) (ct0 : ckct) (threshold : f64) (st : evst) : res (option rerr * ckct * evst) :=
  let* ids := ctIDSet o (c_ct ct0) in
  let* l := ctLevel (c_ct ct0) in
  Rescale o ct0 threshold (ckNewCiphertext o cp ids l (c_scale ct0)) st.

(** evaluator.go:570-581 mulRelinHoisted; the error of Rescale is dropped *)
Definition mulRelinHoisted (o : order) (op0 op1 : ckct) (h0 h1 : option hoisted) (rlks : rlkset) (ctOut : ckct) (st : evst) : res (ckct * evst) :=
  let* l0 := ctLevel (c_ct op0) in
  let* l1 := ctLevel (c_ct op1) in
  let* lo := ctLevel (c_ct ctOut) in
  let level := Nat.min (Nat.min l0 l1) lo in
  let* ctOut := if (level <? lo)%nat then DropLevel o ctOut (lo - level) else Ok ctOut in
  let* (c, k) := MulAndRelinHoisted env o (c_ct op0) (c_ct op1) h0 h1 rlks (c_ct ctOut) (ev_k st) in
  let ct := mkCk c (fmul (c_scale op0) (c_scale op1)) in
  let* (_, ct, st) := Rescale o ct (ce_scale ce) ct (set_k k st) in
  Ok (ct, st).
(** evaluator.go:558-564 MulRelinHoistedNew *)
Definition MulRelinHoistedNew (o : order) (op0 op1 : ckct) (h0 h1 : option hoisted) (rlks : rlkset) (st : evst) : res (ckct * evst) :=
  let* ctOut := newCiphertextBinary o op0 op1 in
  mulRelinHoisted o op0 op1 h0 h1 rlks (mkCk (c_ct ctOut) f0) st.
(** evaluator.go:422-424, 432-438: decompose every component into a pool of the key set *)
Definition hoistInto (o : list string) (op : ckct) (pool : hoisted) (st : evst) : res (hoisted * evst) :=
  foldM (fun '(pool, st) id =>
      let* l := ctLevel (c_ct op) in
      let* a := sptr (c_ct op) id in
      let* ad := sptr pool id in
      let* (ad, k) := Decompose env l a ad (ev_k st) in
      Ok (sset pool id ad, set_k k st)) o (pool, st).
(** evaluator.go:416-443 MulRelinNew; [same] says that both operands are the same object *)
Definition MulRelinNew (o : order) (same : bool) (op0 op1 : ckct) (rs : rlkpool) (st : evst) : res (ckct * rlkpool * evst) :=
  if same then
    let* ids := ctIDSet o (c_ct op0) in
    let* (h0, st) := hoistInto (o 1%nat (mkeys ids)) op0 (rs_h0 rs) st in
    let* (ct, st) := MulRelinHoistedNew o op0 op1 (Some h0) (Some h0) (rs_keys rs) st in
    Ok (ct, mkRlkSet (rs_keys rs) h0 (rs_h1 rs), st)
  else
    let* ids0 := ctIDSet o (c_ct op0) in
    let* ids1 := ctIDSet o (c_ct op1) in
    let* (h0, st) := hoistInto (o 1%nat (mkeys ids0)) op0 (rs_h0 rs) st in
    let* (h1, st) := hoistInto (o 2%nat (mkeys ids1)) op1 (rs_h1 rs) st in
    let* (ct, st) := MulRelinHoistedNew o op0 op1 (Some h0) (Some h1) (rs_keys rs) st in
    Ok (ct, mkRlkSet (rs_keys rs) h0 h1, st).

(** evaluator.go:465-481 MulPtxtNew; the plaintext is a polynomial in coefficient form and a scale *)
Definition MulPtxtNew (o : order) (ct : ckct) (pt : poly) (ptScale : f64) (st : evst) : res (ckct * evst) :=
  let* ids := ctIDSet o (c_ct ct) in
  let* level := ctLevel (c_ct ct) in
  let ctOut := ckNewCiphertext o cp ids level (fmul (c_scale ct) ptScale) in
  let* q := NTTLvl rQ level pt (ev_q st) in
  let* q := MFormLvl rQ level q q in
  let* out := foldM (fun out id =>
      let* a := sptr (c_ct ct) id in
      ctUpd out id (fun p =>
        let* p := NTTLvl rQ level a p in
        let* p := MulCoeffsMontgomeryLvl rQ level p q p in
        InvNTTLvl rQ level p p)) (o 1%nat (mkeys (c_ct ct))) (c_ct ctOut) in
  let ct := mkCk out (c_scale ctOut) in
  let* (_, ct, st) := Rescale o ct (ce_scale ce) ct (set_q q st) in
  Ok (ct, st).

(** evaluator.go:543-553 HoistedForm *)
Definition HoistedForm (o : order) (ct : ckct) (st : evst) : res (hoisted * evst) :=
  let* ids := ctIDSet o (c_ct ct) in
  foldM (fun '(h, st) id =>
      let* l := ctLevel (c_ct ct) in
      let* a := sptr (c_ct ct) id in
      let* (s, k) := Decompose env l a (NewSwitchingKey pp) (ev_k st) in
      Ok (sset h id s, set_k k st)) (o 1%nat (mkeys ids)) ([], st).

(** evaluator.go:495-502, 595-602: the two normalisation loops leave the residue of the index modulo N/2 *)
Definition normRot (rotidx : Z) : Z := rotidx mod (Z.of_nat (pa_N pp) / 2).
(** evaluator.go:516-523: [p] is what is left of the index, [k] the current power of two *)
Fixpoint rotBits (o : order) (p : positive) (k : Z) (rks : rotset) (tmp out : ciphertext) (kp : kpool) : res (ciphertext * kpool) :=
  match p with
  | xO p => rotBits o p (2 * k) rks tmp out kp
  | xI p => let* (out, kp) := Rotate env o tmp k rks out kp in
            let* tmp := ctCopy o tmp out in
            rotBits o p (2 * k) rks tmp out kp
  | xH => let* (out, kp) := Rotate env o tmp k rks out kp in
          let* _ := ctCopy o tmp out in Ok (out, kp)
  end.
(** evaluator.go:485-525 RotateNew *)
Definition RotateNew (o : order) (ct0 : ckct) (rotidx : Z) (rks : rotset) (st : evst) : res (ckct * evst) :=
  let* ids := ctIDSet o (c_ct ct0) in
  let* l := ctLevel (c_ct ct0) in
  let ctOut := NewCiphertext o pp ids l in
  let r := normRot rotidx in
  match r with
  | Zpos p =>
      if mhas Z.eqb (pa_CRS pp) r then
        let* (c, k) := Rotate env o (c_ct ct0) r rks ctOut (ev_k st) in Ok (mkCk c (c_scale ct0), set_k k st)
      else
        let* tmp := ckCopyNew ct0 in
        let* (c, k) := rotBits o p 1 rks (c_ct tmp) ctOut (ev_k st) in Ok (mkCk c (c_scale ct0), set_k k st)
  | _ => let* c := ctCopy o ctOut (c_ct ct0) in Ok (mkCk c (c_scale ct0), st)
  end.
(** evaluator.go:585-617 RotateHoistedNew *)
Definition RotateHoistedNew (o : order) (ct0 : ckct) (rotidx : Z) (h : hoisted) (rks : rotset) (st : evst) : res (ckct * evst) :=
  let* ids := ctIDSet o (c_ct ct0) in
  let* l := ctLevel (c_ct ct0) in
  let ctOut := NewCiphertext o pp ids l in
  let r := normRot rotidx in
  if r =? 0 then let* c := ctCopy o ctOut (c_ct ct0) in Ok (mkCk c (c_scale ct0), st)
  else if mhas Z.eqb (pa_CRS pp) r then
    let* (c, k) := RotateHoisted env o (c_ct ct0) r h rks ctOut (ev_k st) in Ok (mkCk c (c_scale ct0), set_k k st)
  else Panic (PMsg "Hoisted rotation only works for precomputed rotation keys").
(** evaluator.go:530-540 ConjugateNew *)
Definition ConjugateNew (o : order) (ct0 : ckct) (cks : conjset) (st : evst) : res (ckct * evst) :=
  let* ids := ctIDSet o (c_ct ct0) in
  let* l := ctLevel (c_ct ct0) in
  let* (c, k) := Conjugate env o (c_ct ct0) cks (NewCiphertext o pp ids l) (ev_k st) in
  Ok (mkCk c (c_scale ct0), set_k k st).
End Ev.
