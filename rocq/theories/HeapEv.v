(** The methods of mkckks/evaluator.go and of mkrlwe's KeySwitcher as programs on ciphertext objects.
    A method is a program over the operations of Heap.v: it holds pointers to ciphertexts, reads and overwrites their components, asks for the keys of a map,
    allocates maps and stores new polynomials.  Nothing is copied unless the code copies it: a write through one pointer is seen through every other
    pointer to the same words.  Every program follows the loops of the Go method, and of the value model, function by function.
    Objects: the caller's ciphertexts, the results, the temporaries and ctxtPool of the evaluator.  Values: scratch polynomials of the evaluator and of the
    KeySwitcher, keys, hoisted forms and plaintexts; no method stores a pointer to one of them in a ciphertext, nor a pointer to a component in one of them. *)
From Coq Require Import ZArith List String Bool.
From Verif Require Import Go Lattigo Arith F64 BasisExt NTT RingOps Maps Params Elements KeySwitch KeySets KeyGen EncDec Utils Evaluator Alias Circuit Heap.
Import ListNotations.
Open Scope go_scope.

(** ** programs *)
Inductive prog (A : Type) : Type :=
| Ret (a : A)
| Throw (e : panic)
| Read (c : addr) (id : string) (k : poly -> prog A)              (* the polynomial el.Value[id] *)
| Write (c : addr) (id : string) (p : poly) (k : prog A)          (* overwrite the words, flag and length of the polynomial el.Value[id] *)
| Keys (c : addr) (k : list string -> prog A)                     (* the keys of el.Value *)
| Alloc (k : addr -> prog A)                                      (* a new element with an empty map *)
| Put (c : addr) (id : string) (p : poly) (k : prog A).           (* el.Value[id] = a new polynomial with the given contents *)
Arguments Ret {A} a.
Arguments Throw {A} e.
Arguments Read {A} c id k.
Arguments Write {A} c id p k.
Arguments Keys {A} c k.
Arguments Alloc {A} k.
Arguments Put {A} c id p k.
Fixpoint bindP {A B} (P : prog A) (Q : A -> prog B) : prog B :=
  match P with
  | Ret a => Q a
  | Throw e => Throw e
  | Read c id k => Read c id (fun p => bindP (k p) Q)
  | Write c id p k => Write c id p (bindP k Q)
  | Keys c k => Keys c (fun ks => bindP (k ks) Q)
  | Alloc k => Alloc (fun c => bindP (k c) Q)
  | Put c id p k => Put c id p (bindP k Q)
  end.
Notation "'let+' x ':=' m 'in' k" := (bindP m (fun x => k))
  (at level 200, x pattern at level 0, m at level 100, k at level 200) : go_scope.
Fixpoint foldP {A S} (f : S -> A -> prog S) (l : list A) (s : S) : prog S :=
  match l with [] => Ret s | a :: l => let+ s := f s a in foldP f l s end.
(** a computation without memory *)
Definition lift {A} (m : res A) : prog A := match m with Ok a => Ret a | Panic e => Throw e end.

(** on the heap *)
Fixpoint runOnHeap {A} (P : prog A) (h : heap) : res (A * heap) :=
  match P with
  | Ret a => Ok (a, h)
  | Throw e => Panic e
  | Read c id k => let* p := loadComp h c id in runOnHeap (k p) h
  | Write c id p k => let* m := deref (h_maps h) c in let* a := sptr m id in let* h := storePoly a p h in runOnHeap k h
  | Keys c k => let* m := deref (h_maps h) c in runOnHeap (k (mkeys m)) h
  | Alloc k => let (c, h) := allocMap h in runOnHeap (k c) h
  | Put c id p k => let (a, h) := allocPoly p h in let* h := setComp c id a h in runOnHeap k h
  end.

(** ** mkrlwe/elements.go *)
Definition sptrP (c : addr) (id : string) : prog poly := Read c id Ret.
(** el.Value[id] is overwritten in place *)
Definition updP (c : addr) (id : string) (f : poly -> res poly) : prog unit :=
  let+ p := sptrP c id in let+ p := lift (f p) in Write c id p (Ret tt).
Definition keysP (c : addr) : prog (list string) := Keys c Ret.
(** elements.go:47-57 IDSet *)
Definition idsetP (o : order) (c : addr) : prog idset :=
  let+ ks := keysP c in lift (foldM (fun s id => if String.eqb id "0" then Ok s else idAdd s id) (o 0%nat ks) NewIDSet).
(** elements.go:60-62 Level *)
Definition levelP (c : addr) : prog nat :=
  let+ p := sptrP c "0"%string in match plen p with O => Throw PIndex | S l => Ret l end.
(** elements.go:22-33 NewCiphertext *)
Definition newP (o : order) (pp : params) (ids : idset) (level : nat) : prog addr :=
  Alloc (fun c => Put c "0"%string (newPoly (pa_N pp) (level + 1))
    (let+ _ := foldP (fun _ id => Put c id (newPoly (pa_N pp) (level + 1)) (Ret tt)) (o 0%nat (mkeys ids)) tt in Ret c)).
(** elements.go:70-81 CopyNew.  The first copy of component "0" is overwritten by the loop and dropped here; the visiting order only decides at which
    addresses the copies lie, here it is the order of the map. *)
Definition copyNewP (c : addr) : prog addr :=
  let+ _ := sptrP c "0"%string in
  Alloc (fun c' => let+ ks := keysP c in
    let+ _ := foldP (fun _ id => let+ p := sptrP c id in Put c' id p (Ret tt)) ks tt in Ret c').
(** elements.go:84-88 Copy *)
Definition ctCopyP (o : order) (el ct : addr) : prog unit :=
  let+ ks := keysP ct in
  foldP (fun _ id => let+ src := sptrP ct id in let+ dst := sptrP el id in Write el id (pCopy dst src) (Ret tt)) (o 0%nat ks) tt.
(** elements.go:91-105 PadCiphertext *)
Definition padP (o : order) (el : addr) (ids : idset) : prog unit :=
  let+ c0 := sptrP el "0"%string in
  let+ old := idsetP o el in
  let+ l0 := lift (idx (p_co c0) 0) in
  let+ level := levelP el in
  foldP (fun _ id => if idHas old id then Ret tt else Put el id (setNTT (p_ntt c0) (newPoly (List.length l0) (level + 1))) (Ret tt)) (o 1%nat (mkeys ids)) tt.

(** ** mkrlwe/keyswitch.go and mkrlwe/keyswitch_hoisted.go *)
Section KS.
Context (env : kenv).
Notation pp := (e_pp env).
Notation rQ := (ringQ pp).
(** as [getDigits] *)
Definition getDigitsP (level : nat) (h : option hoisted) (op : addr) (id : string) (k : kpool) : prog (swk * kpool) :=
  match h with
  | None => let+ p := sptrP op id in let+ (s3, k) := lift (Decompose env level p (k_s3 k) k) in Ret (s3, set_s3 s3 k)
  | Some h => let+ s := lift (sptr h id) in Ret (s, k)
  end.
(** as [extOp] *)
Definition extOpP (level : nat) (h : option hoisted) (op : addr) (id : string) (bg : swk) (c : poly) (k : kpool) : prog (poly * kpool) :=
  match h with
  | None => let+ p := sptrP op id in lift (ExternalProduct env level p bg c k)
  | Some h => let+ s := lift (sptr h id) in lift (ExternalProductHoisted env level s bg c k)
  end.
(** as [genVec]: keyswitch_hoisted.go:69-96, 98-117 *)
Definition genVecP (o : list string) (level : nat) (h : option hoisted) (op : addr) (rlks : rlkset)
    (sel : rlkey -> swk) (x : swk) (k : kpool) : prog (swk * kpool) :=
  let+ (x, k) := foldP (fun '(x, k) id =>
      let+ (dig, k) := getDigitsP level h op id k in
      let+ rl := lift (sptr rlks id) in
      let+ x := lift (accRows env level (sel rl) dig x) in
      Ret (x, k)) o (x, k) in
  let+ x := lift (mformRows env level x) in
  Ret (x, k).
(** as [tensor]: keyswitch_hoisted.go:119-144 *)
Definition tensorP (o : order) (level : nat) (ids0 ids1 : idset) (op0 op1 ct : addr) (k : kpool) : prog kpool :=
  let+ a0 := sptrP op0 "0"%string in
  let+ q0 := lift (NTTLvl rQ level a0 (k_q0 k)) in
  let+ b0 := sptrP op1 "0"%string in
  let+ q1 := lift (NTTLvl rQ level b0 (k_q1 k)) in
  let+ q0 := lift (MFormLvl rQ level q0 q0) in
  let+ _ := updP ct "0"%string (fun p => MulCoeffsMontgomeryLvl rQ level q0 q1 p) in
  let+ q1 := lift (MFormLvl rQ level q1 q1) in
  let+ q2 := foldP (fun q2 id =>
      let+ a := sptrP op0 id in
      let+ q2 := lift (NTTLvl rQ level a q2) in
      let+ _ := updP ct id (fun p => MulCoeffsMontgomeryLvl rQ level q1 q2 p) in
      Ret q2) (o 2%nat (mkeys ids0)) (k_q2 k) in
  let+ q2 := foldP (fun q2 id =>
      let+ b := sptrP op1 id in
      let+ q2 := lift (NTTLvl rQ level b q2) in
      let+ _ := updP ct id (fun p =>
          if idHas ids0 id then MulCoeffsMontgomeryAndAddLvl rQ level q0 q2 p
          else MulCoeffsMontgomeryLvl rQ level q0 q2 p) in
      Ret q2) (o 3%nat (mkeys ids1)) q2 in
  let+ ks := keysP ct in
  let+ _ := foldP (fun _ id => updP ct id (fun p => InvNTTLvl rQ level p p)) (o 4%nat ks) tt in
  Ret (set_q0 q0 (set_q1 q1 (set_q2 q2 k))).
(** keyswitch_hoisted.go:44-179 MulAndRelinHoisted *)
Definition MulAndRelinHoistedP (o : order) (op0 op1 : addr) (h0 h1 : option hoisted) (rlks : rlkset) (ctOut : addr) (k : kpool) : prog kpool :=
  let+ level := levelP ctOut in
  let+ l0 := levelP op0 in
  if (l0 <? level)%nat then Throw (PMsg "Cannot MulAndRelin: op0 and op1 have different levels") else
  let+ ids0 := idsetP o op0 in
  let+ ids1 := idsetP o op1 in
  let+ x := lift (zeroRows (Beta pp level) (k_s1 k)) in
  let+ y := lift (zeroRows (Beta pp level) (k_s2 k)) in
  let+ (x, k) := genVecP (o 0%nat (mkeys ids0)) level h0 op0 rlks rl_d x k in
  let+ (y, k) := genVecP (o 1%nat (mkeys ids1)) level h1 op1 rlks rl_b y k in
  let+ k := tensorP o level ids0 ids1 op0 op1 ctOut k in
  let+ k := foldP (fun k id =>
      let+ (q0, k) := extOpP level h1 op1 id x (k_q0 k) k in
      let+ _ := updP ctOut id (fun p => AddLvl rQ level p q0 p) in
      Ret (set_q0 q0 k)) (o 5%nat (mkeys ids1)) k in
  let+ u := lift (getCRS pp (-1)%Z) in
  let+ k := foldP (fun k id =>
      let+ rl := lift (sptr rlks id) in
      let+ (q0, k) := extOpP level h0 op0 id y (k_q0 k) k in
      let k := set_q0 q0 k in
      let+ (s3, k) := lift (Decompose env level q0 (k_s3 k) k) in
      let k := set_s3 s3 k in
      let+ (q1, k) := lift (ExternalProductHoisted env level s3 (rl_v rl) (k_q1 k) k) in
      let k := set_q1 q1 k in
      let+ _ := updP ctOut "0"%string (fun p => AddLvl rQ level p q1 p) in
      let+ (q2, k) := lift (ExternalProductHoisted env level s3 u (k_q2 k) k) in
      let k := set_q2 q2 k in
      let+ _ := updP ctOut id (fun p => AddLvl rQ level p q2 p) in
      Ret k) (o 6%nat (mkeys ids0)) k in
  Ret (set_s1 x (set_s2 y k)).
(** keyswitch.go:266-296 *)
Definition permuteCompP (level : nat) (gal : Z) (ct : addr) (id : string) (k : kpool) : prog kpool :=
  let+ p := sptrP ct id in
  let+ q0 := lift (permuteLvl rQ level p gal (k_q0 k)) in
  let+ _ := updP ct id (fun p => Ok (pCopy p q0)) in
  Ret (set_q0 q0 k).
(** keyswitch.go:234-298 Rotate ([h] = None) and keyswitch_hoisted.go:183-247 RotateHoisted *)
Definition RotateGenP (o : order) (ctIn : addr) (rotidx : Z) (h : option hoisted) (rks : rotset) (ctOut : addr) (k : kpool) : prog kpool :=
  let+ level := levelP ctOut in
  let+ ids := idsetP o ctIn in
  let+ li := levelP ctIn in
  if (li <? level)%nat then Throw (PMsg "Cannot Rotate: ctIn and ctOut have different levels") else
  let rotidx := normNeg (pa_logN pp) rotidx in
  let a := zget (pa_CRS pp) rotidx in
  let+ c0 := sptrP ctIn "0"%string in
  let+ _ := updP ctOut "0"%string (fun p => Ok (pCopy p c0)) in
  let+ k := foldP (fun k id =>
      let+ rk := lift (GetRotationKey rks id rotidx) in
      let+ (q0, k) := extOpP level h ctIn id (rk_val rk) (k_q0 k) k in
      let k := set_q0 q0 k in
      let+ _ := updP ctOut "0"%string (fun p => AddLvl rQ level p q0 p) in
      let+ av := lift (match a with Some v => Ok v | None => Panic PNil end) in
      let+ p := sptrP ctOut id in
      let+ (p, k) := extOpP level h ctIn id av p k in
      Write ctOut id p (Ret k)) (o 1%nat (mkeys ids)) k in
  let gal := galColumn (pa_logN pp) rotidx in
  let+ ks := keysP ctIn in
  foldP (fun k id => permuteCompP level gal ctOut id k) (o 2%nat ks) k.
(** keyswitch.go:302-332 Conjugate, for a receiver distinct from the operand (ring.Permute on the same array is modelled in Alias.v) *)
Definition ConjugateP (o : order) (ctIn : addr) (cks : conjset) (ctOut : addr) (k : kpool) : prog kpool :=
  let+ level := levelP ctOut in
  let+ ids := idsetP o ctIn in
  let+ li := levelP ctIn in
  if (li <? level)%nat then Throw (PMsg "Cannot Conjugate: ctIn and ctOut have different levels") else
  let gal := galRow (pa_logN pp) in
  let+ ks := keysP ctIn in
  let+ _ := foldP (fun _ id => let+ a := sptrP ctIn id in updP ctOut id (fun p => Permute rQ a gal p)) (o 1%nat ks) tt in
  let+ k := foldP (fun k id =>
      let+ ck := lift (GetConjugationKey cks id) in
      let+ p := sptrP ctOut id in
      let+ (q0, k) := lift (ExternalProduct env level p (cj_val ck) (k_q0 k) k) in
      let+ _ := updP ctOut "0"%string (fun p => AddLvl rQ level p q0 p) in
      Ret (set_q0 q0 k)) (o 2%nat (mkeys ids)) k in
  let a := zget (pa_CRS pp) (-2)%Z in
  foldP (fun k id =>
      let+ p := sptrP ctOut id in
      let+ av := lift (match a with Some v => Ok v | None => Panic PNil end) in
      let+ (q0, k) := lift (ExternalProduct env level p av (k_q0 k) k) in
      let+ _ := updP ctOut id (fun p => Ok (pCopy p q0)) in
      Ret (set_q0 q0 k)) (o 3%nat (mkeys ids)) k.
End KS.

(** ** mkckks/evaluator.go *)
(** a *mkckks.Ciphertext: the element and the scale.  A change of the scale is returned to the holder of the pointer. *)
Record hct := mkHct { hc : addr; hs : f64 }.
(** the evaluator: the object ctxtPool, and as in [evst] the other scratch state *)
Record hev := mkHev { he_ct : addr; he_q : poly; he_k : kpool }.
Definition hset_q (q : poly) (st : hev) := mkHev (he_ct st) q (he_k st).
Definition hset_k (k : kpool) (st : hev) := mkHev (he_ct st) (he_q st) k.

Section Ev.
Context (ce : ckenv).
Notation env := (ce_env ce).
Notation pp := (e_pp env).
Notation rQ := (ringQ pp).
(** mkckks/elements.go:30-33 CopyNew *)
Definition ckCopyNewP (ct : hct) : prog hct := let+ c := copyNewP (hc ct) in Ret (mkHct c (hs ct)).
(** evaluator.go:106-112 DropLevel *)
Definition DropLevelP (o : order) (ct : hct) (levels : nat) : prog hct :=
  let+ level := levelP (hc ct) in
  if (level + 1 <? levels)%nat then Throw PIndex else
  let+ ks := keysP (hc ct) in
  let+ _ := foldP (fun _ id => updP (hc ct) id (pTrunc (level + 1 - levels))) (o 0%nat ks) tt in
  Ret ct.
(** evaluator.go:98-102 DropLevelNew *)
Definition DropLevelNewP (o : order) (ct : hct) (levels : nat) : prog hct :=
  let+ c := ckCopyNewP ct in DropLevelP o c levels.
(** evaluator.go:117-198 MultByConst, for a receiver distinct from the operand; loops exchanged as in [MultByConst] *)
Definition MultByConstP (o : order) (ct0 : hct) (c : gconst) (ctOut : hct) : prog hct :=
  let+ l0 := levelP (hc ct0) in
  let+ l1 := levelP (hc ctOut) in
  let level := Nat.min l0 l1 in
  let+ (cReal, cImag, scale) := lift (getConstAndScale ce level c) in
  let+ ks := keysP (hc ct0) in
  let+ _ := foldP (fun _ u =>
      let+ a := sptrP (hc ct0) u in
      updP (hc ctOut) u (fun p =>
        let* ls := mapM (fun i =>
            let* q := idx (pa_Q pp) i in let* psi := idx (pa_psiQ pp) i in
            let* (lo, hi) := multConsts ce cReal cImag scale q psi in
            let* x := idx (p_co a) i in
            Ok (mulHalves ce q lo hi x)) (seq 0 (level + 1)) in
        write level ls p)) (o 0%nat ks) tt in
  Ret (mkHct (hc ctOut) (fmul (hs ct0) scale)).
(** the same with the operand as receiver, the loops in the order of the code as in [MultByConstAt] *)
Definition mulHalfP (ids : list string) (q c : Z) (i : nat) (js : list nat) (out : addr) : prog unit :=
  foldP (fun _ u => updP out u (fun p => let* z := idx (p_co p) i in let* z := mulWords q c js None z in Ok (setLimb p i z))) ids tt.
Definition MultByConstInP (o : order) (c : gconst) (ct : hct) : prog hct :=
  let+ l0 := levelP (hc ct) in
  let+ l1 := levelP (hc ct) in
  let level := Nat.min l0 l1 in
  let+ (cReal, cImag, scale) := lift (getConstAndScale ce level c) in
  let+ keys := keysP (hc ct) in
  let+ _ := foldP (fun _ i =>
      let+ q := lift (idx (pa_Q pp) i) in let+ psi := lift (idx (pa_psiQ pp) i) in
      let+ (lo, hi) := lift (multConsts ce cReal cImag scale q psi) in
      let+ _ := mulHalfP (o (2 * i)%nat keys) q lo i (seq 0 (pa_N pp / 2)) (hc ct) in
      mulHalfP (o (2 * i + 1)%nat keys) q hi i (seq (pa_N pp / 2) (pa_N pp / 2)) (hc ct)) (seq 0 (level + 1)) tt in
  Ret (mkHct (hc ct) (fmul (hs ct) scale)).

(** evaluator.go:306-313 newCiphertextBinary *)
Definition newBinaryP (o : order) (op0 op1 : hct) : prog hct :=
  let+ l0 := levelP (hc op0) in
  let+ l1 := levelP (hc op1) in
  let+ i0 := idsetP o (hc op0) in
  let+ i1 := idsetP o (hc op1) in
  let+ ids := lift (idUnion o i0 i1) in
  let+ c := newP o pp ids (Nat.min l0 l1) in
  Ret (mkHct c (MaxFloat64 (hs op0) (hs op1))).
(** evaluator.go:200-304 evaluateInPlace, receiver distinct from both operands *)
Definition evaluateInPlaceP (f : nat -> poly -> poly -> poly -> res poly) (o : order) (c0 c1 ctOut : hct) (st : hev) : prog hct :=
  let+ ids0 := idsetP o (hc c0) in
  let+ ids1 := idsetP o (hc c1) in
  let+ ids := lift (idUnion o ids0 ids1) in
  let+ _ := padP o (he_ct st) ids in
  let+ l0 := levelP (hc c0) in
  let+ l1 := levelP (hc c1) in
  let+ lo := levelP (hc ctOut) in
  let level := Nat.min (Nat.min l0 l1) lo in
  let+ ctOut := if (level <? lo)%nat then DropLevelP o ctOut (lo - Nat.min l0 l1) else Ret ctOut in
  let+ (tmp0, tmp1) :=
    if ratioAbove (hs c1) (hs c0) then
      let+ t := MultByConstP o c0 (KFloat (ffloor (fdiv (hs c1) (hs c0)))) (mkHct (he_ct st) (hs ctOut)) in Ret (hc t, hc c1)
    else if ratioAbove (hs c0) (hs c1) then
      let+ t := MultByConstP o c1 (KFloat (ffloor (fdiv (hs c0) (hs c1)))) (mkHct (he_ct st) (hs ctOut)) in Ret (hc c0, hc t)
    else Ret (hc c0, hc c1) in
  let+ a0 := sptrP tmp0 "0"%string in
  let+ b0 := sptrP tmp1 "0"%string in
  let+ _ := updP (hc ctOut) "0"%string (fun p => f level a0 b0 p) in
  let+ oids := idsetP o (hc ctOut) in
  let+ _ := foldP (fun _ id =>
      if negb (idHas ids0 id) then let+ b := sptrP tmp1 id in updP (hc ctOut) id (fun p => CopyValuesLvl rQ level b p)
      else if negb (idHas ids1 id) then let+ a := sptrP tmp0 id in updP (hc ctOut) id (fun p => CopyValuesLvl rQ level a p)
      else let+ a := sptrP tmp0 id in let+ b := sptrP tmp1 id in updP (hc ctOut) id (fun p => f level a b p))
    (o 2%nat (mkeys oids)) tt in
  Ret ctOut.
(** evaluator.go:316-326 AddNew *)
Definition AddNewP (o : order) (op0 op1 : hct) (st : hev) : prog hct :=
  let+ ctOut := newBinaryP o op0 op1 in evaluateInPlaceP (AddLvl rQ) o op0 op1 ctOut st.
(** evaluator.go:329-351 SubNew *)
Definition SubNewP (o : order) (op0 op1 : hct) (st : hev) : prog hct :=
  let+ ctOut := newBinaryP o op0 op1 in
  let+ ctOut := evaluateInPlaceP (SubLvl rQ) o op0 op1 ctOut st in
  let+ l0 := levelP (hc op0) in
  let+ l1 := levelP (hc op1) in
  let+ lo := levelP (hc ctOut) in
  let level := Nat.min (Nat.min l0 l1) lo in
  let+ ids0 := idsetP o (hc op0) in
  let+ oids := idsetP o (hc ctOut) in
  let+ _ := foldP (fun _ id => if negb (idHas ids0 id) then updP (hc ctOut) id (fun p => NegLvl rQ level p p) else Ret tt)
    (o 3%nat (mkeys oids)) tt in
  Ret ctOut.

(** evaluator.go:359-398 Rescale; ctIn and ctOut may be the same object *)
Definition RescaleP (o : order) (ctIn : hct) (minScale : f64) (ctOut : hct) (st : hev) : prog (option rerr * hct * hev) :=
  if fleb minScale f0 then Ret (Some EMinScale, ctOut, st) else
  if feqb (hs ctIn) f0 then Ret (Some EScale0, ctOut, st) else
  let+ level := levelP (hc ctIn) in
  if Nat.eqb level 0 then Ret (Some ELevel0, ctOut, st) else
  let+ (scale, nb) := lift (rescaleLoop ce level (hs ctIn) (fdiv minScale (f_of_Z 2))) in
  if Nat.eqb nb 0 then Ret (None, mkHct (hc ctOut) scale, st) else
  let+ ks := keysP (hc ctOut) in
  let+ q := foldP (fun q i =>
      let+ a := sptrP (hc ctIn) i in
      let+ p := sptrP (hc ctOut) i in
      let+ (q, p) := lift (DivRoundByLastModulusManyLvl rQ level nb a q p) in
      let+ p := lift (pTrunc (level + 1 - nb) p) in
      Write (hc ctOut) i p (Ret q)) (o 0%nat ks) (he_q st) in
  Ret (None, mkHct (hc ctOut) scale, hset_q q st).
(** evaluator.go:406-411 RescaleNew *)
Definition RescaleNewP (o : order) (ct0 : hct) (threshold : f64) (st : hev) : prog (option rerr * hct * hev) :=
  let+ ids := idsetP o (hc ct0) in
  let+ l := levelP (hc ct0) in
  let+ c := newP o pp ids l in
  RescaleP o ct0 threshold (mkHct c (hs ct0)) st.

(** evaluator.go:570-581 mulRelinHoisted *)
Definition mulRelinHoistedP (o : order) (op0 op1 : hct) (h0 h1 : option hoisted) (rlks : rlkset) (ctOut : hct) (st : hev) : prog (hct * hev) :=
  let+ l0 := levelP (hc op0) in
  let+ l1 := levelP (hc op1) in
  let+ lo := levelP (hc ctOut) in
  let level := Nat.min (Nat.min l0 l1) lo in
  let+ ctOut := if (level <? lo)%nat then DropLevelP o ctOut (lo - level) else Ret ctOut in
  let+ k := MulAndRelinHoistedP env o (hc op0) (hc op1) h0 h1 rlks (hc ctOut) (he_k st) in
  let ct := mkHct (hc ctOut) (fmul (hs op0) (hs op1)) in
  let+ (_, ct, st) := RescaleP o ct (ce_scale ce) ct (hset_k k st) in
  Ret (ct, st).
(** evaluator.go:558-564 MulRelinHoistedNew *)
Definition MulRelinHoistedNewP (o : order) (op0 op1 : hct) (h0 h1 : option hoisted) (rlks : rlkset) (st : hev) : prog (hct * hev) :=
  let+ ctOut := newBinaryP o op0 op1 in
  mulRelinHoistedP o op0 op1 h0 h1 rlks (mkHct (hc ctOut) f0) st.
(** evaluator.go:422-424, 432-438 *)
Definition hoistIntoP (o : list string) (op : hct) (pool : hoisted) (st : hev) : prog (hoisted * hev) :=
  foldP (fun '(pool, st) id =>
      let+ l := levelP (hc op) in
      let+ a := sptrP (hc op) id in
      let+ ad := lift (sptr pool id) in
      let+ (ad, k) := lift (Decompose env l a ad (he_k st)) in
      Ret (sset pool id ad, hset_k k st)) o (pool, st).
(** evaluator.go:416-443 MulRelinNew; "op0 == op1" compares the pointers *)
Definition MulRelinNewP (o : order) (op0 op1 : hct) (rs : rlkpool) (st : hev) : prog (hct * rlkpool * hev) :=
  if Nat.eqb (hc op0) (hc op1) then
    let+ ids := idsetP o (hc op0) in
    let+ (h0, st) := hoistIntoP (o 1%nat (mkeys ids)) op0 (rs_h0 rs) st in
    let+ (ct, st) := MulRelinHoistedNewP o op0 op1 (Some h0) (Some h0) (rs_keys rs) st in
    Ret (ct, mkRlkSet (rs_keys rs) h0 (rs_h1 rs), st)
  else
    let+ ids0 := idsetP o (hc op0) in
    let+ ids1 := idsetP o (hc op1) in
    let+ (h0, st) := hoistIntoP (o 1%nat (mkeys ids0)) op0 (rs_h0 rs) st in
    let+ (h1, st) := hoistIntoP (o 2%nat (mkeys ids1)) op1 (rs_h1 rs) st in
    let+ (ct, st) := MulRelinHoistedNewP o op0 op1 (Some h0) (Some h1) (rs_keys rs) st in
    Ret (ct, mkRlkSet (rs_keys rs) h0 h1, st).
(** evaluator.go:465-481 MulPtxtNew *)
Definition MulPtxtNewP (o : order) (ct : hct) (pt : poly) (ptScale : f64) (st : hev) : prog (hct * hev) :=
  let+ ids := idsetP o (hc ct) in
  let+ level := levelP (hc ct) in
  let+ c := newP o pp ids level in
  let+ q := lift (NTTLvl rQ level pt (he_q st)) in
  let+ q := lift (MFormLvl rQ level q q) in
  let+ ks := keysP (hc ct) in
  let+ _ := foldP (fun _ id =>
      let+ a := sptrP (hc ct) id in
      updP c id (fun p =>
        let* p := NTTLvl rQ level a p in
        let* p := MulCoeffsMontgomeryLvl rQ level p q p in
        InvNTTLvl rQ level p p)) (o 1%nat ks) tt in
  let out := mkHct c (fmul (hs ct) ptScale) in
  let+ (_, out, st) := RescaleP o out (ce_scale ce) out (hset_q q st) in
  Ret (out, st).
(** evaluator.go:543-553 HoistedForm *)
Definition HoistedFormP (o : order) (ct : hct) (st : hev) : prog (hoisted * hev) :=
  let+ ids := idsetP o (hc ct) in
  foldP (fun '(h, st) id =>
      let+ l := levelP (hc ct) in
      let+ a := sptrP (hc ct) id in
      let+ (s, k) := lift (Decompose env l a (NewSwitchingKey pp) (he_k st)) in
      Ret (sset h id s, hset_k k st)) (o 1%nat (mkeys ids)) ([], st).
(** evaluator.go:516-523 *)
Fixpoint rotBitsP (o : order) (p : positive) (k : Z) (rks : rotset) (tmp out : addr) (kp : kpool) : prog kpool :=
  match p with
  | xO p => rotBitsP o p (2 * k)%Z rks tmp out kp
  | xI p => let+ kp := RotateGenP env o tmp k None rks out kp in
            let+ _ := ctCopyP o tmp out in
            rotBitsP o p (2 * k)%Z rks tmp out kp
  | xH => let+ kp := RotateGenP env o tmp k None rks out kp in
          let+ _ := ctCopyP o tmp out in Ret kp
  end.
(** evaluator.go:485-525 RotateNew *)
Definition RotateNewP (o : order) (ct0 : hct) (rotidx : Z) (rks : rotset) (st : hev) : prog (hct * hev) :=
  let+ ids := idsetP o (hc ct0) in
  let+ l := levelP (hc ct0) in
  let+ out := newP o pp ids l in
  let r := normRot ce rotidx in
  match r with
  | Zpos p =>
      if mhas Z.eqb (pa_CRS pp) r then
        let+ k := RotateGenP env o (hc ct0) r None rks out (he_k st) in Ret (mkHct out (hs ct0), hset_k k st)
      else
        let+ tmp := ckCopyNewP ct0 in
        let+ k := rotBitsP o p 1 rks (hc tmp) out (he_k st) in Ret (mkHct out (hs ct0), hset_k k st)
  | _ => let+ _ := ctCopyP o out (hc ct0) in Ret (mkHct out (hs ct0), st)
  end.
(** evaluator.go:585-617 RotateHoistedNew *)
Definition RotateHoistedNewP (o : order) (ct0 : hct) (rotidx : Z) (h : hoisted) (rks : rotset) (st : hev) : prog (hct * hev) :=
  let+ ids := idsetP o (hc ct0) in
  let+ l := levelP (hc ct0) in
  let+ out := newP o pp ids l in
  let r := normRot ce rotidx in
  if (r =? 0)%Z then let+ _ := ctCopyP o out (hc ct0) in Ret (mkHct out (hs ct0), st)
  else if mhas Z.eqb (pa_CRS pp) r then
    let+ k := RotateGenP env o (hc ct0) r (Some h) rks out (he_k st) in Ret (mkHct out (hs ct0), hset_k k st)
  else Throw (PMsg "Hoisted rotation only works for precomputed rotation keys").
(** evaluator.go:530-540 ConjugateNew *)
Definition ConjugateNewP (o : order) (ct0 : hct) (cks : conjset) (st : hev) : prog (hct * hev) :=
  let+ ids := idsetP o (hc ct0) in
  let+ l := levelP (hc ct0) in
  let+ out := newP o pp ids l in
  let+ k := ConjugateP env o (hc ct0) cks out (he_k st) in
  Ret (mkHct out (hs ct0), hset_k k st).

(** ** a caller: the calls of Circuit.v on objects *)
Record hcs := mkHcs { hcs_ev : hev; hcs_rs : rlkpool }.
Context (rks : rotset) (cks : conjset) (pts : list (poly * f64)).
Definition execP (o : order) (c : call) (cts : list hct) (st : hcs) : prog (hct * hcs) :=
  let put (P : prog (hct * hev)) := let+ (ct, ev) := P in Ret (ct, mkHcs ev (hcs_rs st)) in
  let same (P : prog hct) := let+ ct := P in Ret (ct, st) in
  match c with
  | CAdd i j => let+ a := lift (idx cts i) in let+ b := lift (idx cts j) in same (AddNewP o a b (hcs_ev st))
  | CSub i j => let+ a := lift (idx cts i) in let+ b := lift (idx cts j) in same (SubNewP o a b (hcs_ev st))
  | CMul i j => let+ a := lift (idx cts i) in let+ b := lift (idx cts j) in
      let+ (ct, rs, ev) := MulRelinNewP o a b (hcs_rs st) (hcs_ev st) in Ret (ct, mkHcs ev rs)
  | CMulPt i p => let+ a := lift (idx cts i) in let+ pt := lift (idx pts p) in put (MulPtxtNewP o a (fst pt) (snd pt) (hcs_ev st))
  | CConst i c => let+ a := lift (idx cts i) in let+ out := ckCopyNewP a in same (MultByConstP o a (KFloat c) out)
  | CRot i k => let+ a := lift (idx cts i) in put (RotateNewP o a k rks (hcs_ev st))
  | CRotHoisted i k => let+ a := lift (idx cts i) in
      let+ (h, ev) := HoistedFormP o a (hcs_ev st) in put (RotateHoistedNewP o a k h rks ev)
  | CConj i => let+ a := lift (idx cts i) in put (ConjugateNewP o a cks (hcs_ev st))
  | CRescale i thr => let+ a := lift (idx cts i) in
      let+ (e, ct, ev) := RescaleNewP o a thr (hcs_ev st) in
      match e with None => Ret (ct, mkHcs ev (hcs_rs st)) | Some _ => Throw (PMsg "error returned by RescaleNew") end
  | CDrop i levels => let+ a := lift (idx cts i) in same (DropLevelNewP o a levels)
  | CMulHoisted i j hi hj => let+ a := lift (idx cts i) in let+ b := lift (idx cts j) in
      let form (want : bool) x ev := if want then let+ (h, ev) := HoistedFormP o x ev in Ret (Some h, ev) else Ret (None, ev) in
      let+ (h0, ev) := form hi a (hcs_ev st) in let+ (h1, ev) := form hj b ev in
      put (MulRelinHoistedNewP o a b h0 h1 (rs_keys (hcs_rs st)) ev)
  | CConstIn i c => let+ a := lift (idx cts i) in same (MultByConstInP o (KFloat c) a)
  | CRescaleIn i thr => let+ a := lift (idx cts i) in
      let+ (e, ct, ev) := RescaleP o a thr a (hcs_ev st) in
      match e with None => Ret (ct, mkHcs ev (hcs_rs st)) | Some _ => Throw (PMsg "error returned by Rescale") end
  | CDropIn i levels => let+ a := lift (idx cts i) in same (DropLevelP o a levels)
  end.
Fixpoint execsP (orders : nat -> order) (n : nat) (p : list call) (cts : list hct) (st : hcs) : prog (list hct * hcs) :=
  match p with
  | [] => Ret (cts, st)
  | c :: p => let+ (ct, st) := execP (orders n) c cts st in execsP orders (S n) p (stored c ct cts) st
  end.
End Ev.
