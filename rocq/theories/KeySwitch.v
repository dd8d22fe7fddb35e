(** mkrlwe/keyswitch.go and mkrlwe/keyswitch_hoisted.go.
    The scratch polynomials of a KeySwitcher are threaded through every call, so that the
    theorems can quantify over their contents.  Receivers and operands are values; calls whose
    output ciphertext is also one of their operands are modelled in Alias.v. *)
From Coq Require Import ZArith List String Bool.
From Verif Require Import Go Lattigo F64 BasisExt NTT RingOps Maps Params Elements.
Import ListNotations.
Local Open Scope nat_scope.
Open Scope go_scope.

(** keyswitch.go:8-16, mutable part: Pool[0], Pool[1], PoolInvNTT of the embedded
    rlwe.KeySwitcher, polyQPool[0..2], swkPool1..3 *)
Record kpool := mkPool {
  k_c0 : qp; k_c1 : qp; k_inv : poly;
  k_q0 : poly; k_q1 : poly; k_q2 : poly;
  k_s1 : swk; k_s2 : swk; k_s3 : swk }.
Definition set_c01 (c0 c1 : qp) (k : kpool) := mkPool c0 c1 (k_inv k) (k_q0 k) (k_q1 k) (k_q2 k) (k_s1 k) (k_s2 k) (k_s3 k).
Definition set_inv (p : poly) (k : kpool) := mkPool (k_c0 k) (k_c1 k) p (k_q0 k) (k_q1 k) (k_q2 k) (k_s1 k) (k_s2 k) (k_s3 k).
Definition set_q0 (p : poly) (k : kpool) := mkPool (k_c0 k) (k_c1 k) (k_inv k) p (k_q1 k) (k_q2 k) (k_s1 k) (k_s2 k) (k_s3 k).
Definition set_q1 (p : poly) (k : kpool) := mkPool (k_c0 k) (k_c1 k) (k_inv k) (k_q0 k) p (k_q2 k) (k_s1 k) (k_s2 k) (k_s3 k).
Definition set_q2 (p : poly) (k : kpool) := mkPool (k_c0 k) (k_c1 k) (k_inv k) (k_q0 k) (k_q1 k) p (k_s1 k) (k_s2 k) (k_s3 k).
Definition set_s1 (p : swk) (k : kpool) := mkPool (k_c0 k) (k_c1 k) (k_inv k) (k_q0 k) (k_q1 k) (k_q2 k) p (k_s2 k) (k_s3 k).
Definition set_s2 (p : swk) (k : kpool) := mkPool (k_c0 k) (k_c1 k) (k_inv k) (k_q0 k) (k_q1 k) (k_q2 k) (k_s1 k) p (k_s3 k).
Definition set_s3 (p : swk) (k : kpool) := mkPool (k_c0 k) (k_c1 k) (k_inv k) (k_q0 k) (k_q1 k) (k_q2 k) (k_s1 k) (k_s2 k) p.

(** immutable part.  Baseconverter is lattigo's ring.FastBasisExtender, of which
    mkrlwe/basis_extension.go is a copy; it is modelled by that copy.  [e_lz] says which
    representative lattigo's lazy inverse NTT returns. *)
Record kenv := mkEnv { e_pp : params; e_ext : extender; e_dec : decomposer; e_lz : lazyf }.

(** keyswitch.go:33-47 NewKeySwitcher *)
Definition NewKeySwitcher (lz : lazyf) (pp : params) : kenv * kpool :=
  (mkEnv pp (NewFastBasisExtender (pa_Q pp) (pa_P pp)) (NewDecomposer (pa_Q pp) (pa_P pp) (Gamma pp)) lz,
   mkPool (newQP pp) (newQP pp) (ringPoly (ringQ pp))
     (ringPoly (ringQ pp)) (ringPoly (ringQ pp)) (ringPoly (ringQ pp))
     (NewSwitchingKey pp) (NewSwitchingKey pp) (NewSwitchingKey pp)).

(** v.Value[i] = x *)
Definition swkSet (v : swk) (i : nat) (x : qp) : res swk :=
  if (i <? List.length v) then Ok (firstn i v ++ x :: skipn (i + 1) v) else Panic PIndex.

Section KS.
Context (env : kenv).
Notation pp := (e_pp env).
Notation lvP := (levelP pp).

(** keyswitch.go:21-31 *)
Definition DecomposeSingleNTT (levelQ alpha beta : nat) (a : list (list Z)) (dst : qp) : res qp :=
  let* (oq, op) := DecomposeAndSplit (e_dec env) levelQ lvP alpha beta (Gamma pp) a in
  let* dq := write levelQ oq (qQ dst) in
  let* dp := write lvP op (qP dst) in
  NTTQP pp levelQ lvP (mkQP dq dp) (mkQP dq dp).

(** keyswitch.go:54-61, 85-92: the coefficient form of the input *)
Definition toInvNTT (levelQ : nat) (a : poly) (k : kpool) : res (poly * kpool) :=
  if p_ntt a then
    let* d := InvNTTLvl (ringQ pp) levelQ a (k_inv k) in Ok (d, set_inv d k)
  else Ok (a, k).

(** keyswitch.go:49-73 Decompose *)
Definition Decompose (levelQ : nat) (a : poly) (ad : swk) (k : kpool) : res (swk * kpool) :=
  let* (ai, k) := toInvNTT levelQ a k in
  let* ad := foldM (fun ad i =>
      let* dst := idx ad i in
      let* x := DecomposeSingleNTT levelQ (Alpha pp) i (p_co ai) dst in
      swkSet ad i x) (seq 0 (Beta pp levelQ)) ad in
  Ok (ad, k).

(** one accumulation, keyswitch.go:105-109, keyswitch_hoisted.go:27-31 *)
Definition accMul (levelQ i : nat) (b d c1 : qp) : res qp :=
  if Nat.eqb i 0 then MulQP pp levelQ lvP b d c1 else MulAddQP pp levelQ lvP b d c1.
(** keyswitch.go:112-117: division by P *)
Definition finishEP (levelQ : nat) (c1 : qp) (c : poly) : res (qp * poly) :=
  let* x := InvNTTLazyLvl (e_lz env) (ringQ pp) levelQ (qQ c1) (qQ c1) in
  let* y := InvNTTLazyLvl (e_lz env) (ringP pp) lvP (qP c1) (qP c1) in
  let* out := ModDownQPtoQ (e_ext env) levelQ lvP (p_co x) (p_co y) in
  let* c := write levelQ out c in
  Ok (mkQP x y, c).

(** keyswitch.go:79-118 ExternalProduct *)
Definition ExternalProduct (levelQ : nat) (a : poly) (bg : swk) (c : poly) (k : kpool) : res (poly * kpool) :=
  let* (ai, k) := toInvNTT levelQ a k in
  let* (c0, c1) := foldM (fun '(c0, c1) i =>
      let* c0 := DecomposeSingleNTT levelQ (Alpha pp) i (p_co ai) c0 in
      let* b := idx bg i in
      let* c1 := accMul levelQ i b c0 c1 in
      Ok (c0, c1)) (seq 0 (Beta pp levelQ)) (k_c0 k, k_c1 k) in
  let* (c1, c) := finishEP levelQ c1 c in
  Ok (c, set_c01 c0 c1 k).

(** keyswitch_hoisted.go:10-40 ExternalProductHoisted *)
Definition ExternalProductHoisted (levelQ : nat) (ah bg : swk) (c : poly) (k : kpool) : res (poly * kpool) :=
  let* c1 := foldM (fun c1 i =>
      let* b := idx bg i in
      let* d := idx ah i in
      accMul levelQ i b d c1) (seq 0 (Beta pp levelQ)) (k_c1 k) in
  let* (c1, c) := finishEP levelQ c1 c in
  Ok (c, set_c01 (k_c0 k) c1 k).

(** ciphertext component update: ct.Value[id] is written in place *)
Definition ctUpd (ct : ciphertext) (id : string) (f : poly -> res poly) : res ciphertext :=
  let* p := sptr ct id in let* p := f p in Ok (sset ct id p).
End KS.

(** keys.go:34-37 RelinearizationKey: (b, d, v) *)
Record rlkey := mkRlk { rl_b : swk; rl_d : swk; rl_v : swk; rl_ID : string }.
(** keys.go:40-44 *)
Record rotkey := mkRotk { rk_val : swk; rk_ID : string; rk_idx : Z }.
(** keys.go:47-50 *)
Record conjkey := mkCjk { cj_val : swk; cj_ID : string }.

Definition rlkset := smap rlkey.
Definition rotset := smap (gmap Z rotkey).
Definition conjset := smap conjkey.

(** keys.go:151-162 GetRotationKey *)
Definition GetRotationKey (s : rotset) (id : string) (rotidx : Z) : res rotkey :=
  match sget s id with
  | None => Panic (PMsg "cannot GetRotationKeys: there is no rotation key with given id")
  | Some m => match zget m rotidx with
              | None => Panic (PMsg "cannot GetRotationKeys: there is no rotation key with given id")
              | Some rk => Ok rk
              end
  end.
(** keys.go:218-226 GetConjugationKey *)
Definition GetConjugationKey (s : conjset) (id : string) : res conjkey :=
  match sget s id with
  | None => Panic (PMsg "cannot GetConjugationKey: there is no conjugation key with given id")
  | Some c => Ok c
  end.

Section KS2.
Context (env : kenv).
Notation pp := (e_pp env).
Notation lvP := (levelP pp).
Notation rQ := (ringQ pp).

(** keyswitch.go:147-154 clear the first beta rows *)
Definition zeroRows (beta : nat) (v : swk) : res swk :=
  foldM (fun v i => let* x := idx v i in swkSet v i (qpZero x)) (seq 0 beta) v.
(** keyswitch.go:160-162 x += digits * key, row by row *)
Definition accRows (level : nat) (key dig x : swk) : res swk :=
  foldM (fun x i =>
      let* kx := idx key i in let* d := idx dig i in let* xi := idx x i in
      let* xi := MulAddQP pp level lvP kx d xi in
      swkSet x i xi) (seq 0 (Beta pp level)) x.
(** keyswitch.go:165-167, 178-180 *)
Definition mformRows (level : nat) (x : swk) : res swk :=
  foldM (fun x i => let* xi := idx x i in let* xi := MFormQP pp level lvP xi xi in swkSet x i xi)
    (seq 0 (Beta pp level)) x.

(** keyswitch_hoisted.go:79-92, 99-113: digits of one operand component, recomputed into
    swkPool3 when no hoisted form is given (keyswitch.go:158, 171) *)
Definition getDigits (level : nat) (h : option hoisted) (op : ciphertext) (id : string) (k : kpool) : res (swk * kpool) :=
  match h with
  | None =>
      let* p := sptr op id in
      let* (s3, k) := Decompose env level p (k_s3 k) k in Ok (s3, set_s3 s3 k)
  | Some h => let* s := sptr h id in Ok (s, k)
  end.
(** keyswitch_hoisted.go:148-152, 165-169 *)
Definition extOp (level : nat) (h : option hoisted) (op : ciphertext) (id : string) (bg : swk) (c : poly) (k : kpool) : res (poly * kpool) :=
  match h with
  | None => let* p := sptr op id in ExternalProduct env level p bg c k
  | Some h => let* s := sptr h id in ExternalProductHoisted env level s bg c k
  end.

(** keyswitch.go:147-167, 169-180 / keyswitch_hoisted.go:69-96, 98-117: one gadget vector.  [sel] picks the row of
    the relinearization key (Value[1] for x, Value[0] for y). *)
Definition genVec (o : list string) (level : nat) (h : option hoisted) (op : ciphertext) (rlks : rlkset)
    (sel : rlkey -> swk) (x : swk) (k : kpool) : res (swk * kpool) :=
  let* (x, k) := foldM (fun '(x, k) id =>
      let* (dig, k) := getDigits level h op id k in
      let* rl := sptr rlks id in
      let* x := accRows level (sel rl) dig x in
      Ok (x, k)) o (x, k) in
  let* x := mformRows level x in
  Ok (x, k).

(** keyswitch.go:182-207 / keyswitch_hoisted.go:119-144: the tensor products *)
Definition tensor (o : order) (level : nat) (ids0 ids1 : idset) (op0 op1 ct : ciphertext) (k : kpool) : res (ciphertext * kpool) :=
  let* a0 := sptr op0 "0"%string in
  let* q0 := NTTLvl rQ level a0 (k_q0 k) in
  let* b0 := sptr op1 "0"%string in
  let* q1 := NTTLvl rQ level b0 (k_q1 k) in
  let* q0 := MFormLvl rQ level q0 q0 in
  let* ct := ctUpd ct "0"%string (fun p => MulCoeffsMontgomeryLvl rQ level q0 q1 p) in
  let* q1 := MFormLvl rQ level q1 q1 in
  let* (ct, q2) := foldM (fun '(ct, q2) id =>
      let* a := sptr op0 id in
      let* q2 := NTTLvl rQ level a q2 in
      let* ct := ctUpd ct id (fun p => MulCoeffsMontgomeryLvl rQ level q1 q2 p) in
      Ok (ct, q2)) (o 2 (mkeys ids0)) (ct, k_q2 k) in
  let* (ct, q2) := foldM (fun '(ct, q2) id =>
      let* b := sptr op1 id in
      let* q2 := NTTLvl rQ level b q2 in
      let* ct := ctUpd ct id (fun p =>
          if idHas ids0 id then MulCoeffsMontgomeryAndAddLvl rQ level q0 q2 p
          else MulCoeffsMontgomeryLvl rQ level q0 q2 p) in
      Ok (ct, q2)) (o 3 (mkeys ids1)) (ct, q2) in
  let* ct := foldM (fun ct id => ctUpd ct id (fun p => InvNTTLvl rQ level p p)) (o 4 (mkeys ct)) ct in
  Ok (ct, set_q0 q0 (set_q1 q1 (set_q2 q2 k))).

(** keyswitch_hoisted.go:44-179 MulAndRelinHoisted; both hoisted arguments may be nil.
    The visiting order of the n-th range loop is [o n]. *)
Definition MulAndRelinHoisted (o : order) (op0 op1 : ciphertext) (h0 h1 : option hoisted) (rlks : rlkset)
    (ctOut : ciphertext) (k : kpool) : res (ciphertext * kpool) :=
  let* level := ctLevel ctOut in
  let* l0 := ctLevel op0 in
  if (l0 <? level) then Panic (PMsg "Cannot MulAndRelin: op0 and op1 have different levels") else
  let* ids0 := ctIDSet o op0 in
  let* ids1 := ctIDSet o op1 in
  let* x := zeroRows (Beta pp level) (k_s1 k) in
  let* y := zeroRows (Beta pp level) (k_s2 k) in
  let* (x, k) := genVec (o 0 (mkeys ids0)) level h0 op0 rlks rl_d x k in
  let* (y, k) := genVec (o 1 (mkeys ids1)) level h1 op1 rlks rl_b y k in
  let* (ct, k) := tensor o level ids0 ids1 op0 op1 ctOut k in
  let* (ct, k) := foldM (fun '(ct, k) id =>
      let* (q0, k) := extOp level h1 op1 id x (k_q0 k) k in
      let* ct := ctUpd ct id (fun p => AddLvl rQ level p q0 p) in
      Ok (ct, set_q0 q0 k)) (o 5 (mkeys ids1)) (ct, k) in
  let* u := getCRS pp (-1)%Z in
  let* (ct, k) := foldM (fun '(ct, k) id =>
      let* rl := sptr rlks id in
      let* (q0, k) := extOp level h0 op0 id y (k_q0 k) k in
      let k := set_q0 q0 k in
      let* (s3, k) := Decompose env level q0 (k_s3 k) k in
      let k := set_s3 s3 k in
      let* (q1, k) := ExternalProductHoisted env level s3 (rl_v rl) (k_q1 k) k in
      let k := set_q1 q1 k in
      let* ct := ctUpd ct "0"%string (fun p => AddLvl rQ level p q1 p) in
      let* (q2, k) := ExternalProductHoisted env level s3 u (k_q2 k) k in
      let k := set_q2 q2 k in
      let* ct := ctUpd ct id (fun p => AddLvl rQ level p q2 p) in
      Ok (ct, k)) (o 6 (mkeys ids0)) (ct, k) in
  Ok (ct, set_s1 x (set_s2 y k)).

(** keyswitch.go:122-230 MulAndRelin *)
Definition MulAndRelin (o : order) (op0 op1 : ciphertext) (rlks : rlkset)
    (ctOut : ciphertext) (k : kpool) : res (ciphertext * kpool) :=
  let* level := ctLevel ctOut in
  let* l0 := ctLevel op0 in
  if (l0 <? level) then Panic (PMsg "Cannot MulAndRelin: op0 and op1 have different levels") else
  let* ids0 := ctIDSet o op0 in
  let* ids1 := ctIDSet o op1 in
  let* x := zeroRows (Beta pp level) (k_s1 k) in
  let* y := zeroRows (Beta pp level) (k_s2 k) in
  let* (x, k) := genVec (o 0 (mkeys ids0)) level None op0 rlks rl_d x k in
  let* (y, k) := genVec (o 1 (mkeys ids1)) level None op1 rlks rl_b y k in
  let* (ct, k) := tensor o level ids0 ids1 op0 op1 ctOut k in
  let* (ct, k) := foldM (fun '(ct, k) id =>
      let* p := sptr op1 id in
      let* (q0, k) := ExternalProduct env level p x (k_q0 k) k in
      let* ct := ctUpd ct id (fun p => AddLvl rQ level p q0 p) in
      Ok (ct, set_q0 q0 k)) (o 5 (mkeys ids1)) (ct, k) in
  let* u := getCRS pp (-1)%Z in
  let* (ct, k) := foldM (fun '(ct, k) id =>
      let* rl := sptr rlks id in
      let* p := sptr op0 id in
      let* (q0, k) := ExternalProduct env level p y (k_q0 k) k in
      let k := set_q0 q0 k in
      let* (q1, k) := ExternalProduct env level q0 (rl_v rl) (k_q1 k) k in
      let k := set_q1 q1 k in
      let* ct := ctUpd ct "0"%string (fun p => AddLvl rQ level p q1 p) in
      let* (q2, k) := ExternalProduct env level q0 u (k_q2 k) k in
      let k := set_q2 q2 k in
      let* ct := ctUpd ct id (fun p => AddLvl rQ level p q2 p) in
      Ok (ct, k)) (o 6 (mkeys ids0)) (ct, k) in
  Ok (ct, set_s1 x (set_s2 y k)).

(** keyswitch.go:246-249: "for rotidx < 0 { rotidx += N/2 }" *)
Definition normNeg (logN : nat) (k : Z) : Z :=
  if (k <? 0)%Z then (k mod (Z.of_nat (deg logN) / 2))%Z else k.

(** keyswitch.go:266-296 permutation of one component through polyQPool[0] *)
Definition permuteComp (level : nat) (gal : Z) (ct : ciphertext) (id : string) (k : kpool) : res (ciphertext * kpool) :=
  let* p := sptr ct id in
  let* q0 := permuteLvl rQ level p gal (k_q0 k) in
  let* ct := ctUpd ct id (fun p => Ok (pCopy p q0)) in
  Ok (ct, set_q0 q0 k).

(** keyswitch.go:234-298 Rotate and keyswitch_hoisted.go:183-247 RotateHoisted ([h] = Some) *)
Definition RotateGen (o : order) (ctIn : ciphertext) (rotidx : Z) (h : option hoisted) (rks : rotset)
    (ctOut : ciphertext) (k : kpool) : res (ciphertext * kpool) :=
  let* level := ctLevel ctOut in
  let* ids := ctIDSet o ctIn in
  let* li := ctLevel ctIn in
  if (li <? level) then Panic (PMsg "Cannot Rotate: ctIn and ctOut have different levels") else
  let rotidx := normNeg (pa_logN pp) rotidx in
  let a := zget (pa_CRS pp) rotidx in
  let* c0 := sptr ctIn "0"%string in
  let* ct := ctUpd ctOut "0"%string (fun p => Ok (pCopy p c0)) in
  let* (ct, k) := foldM (fun '(ct, k) id =>
      let* rk := GetRotationKey rks id rotidx in
      let* (q0, k) := extOp level h ctIn id (rk_val rk) (k_q0 k) k in
      let k := set_q0 q0 k in
      let* ct := ctUpd ct "0"%string (fun p => AddLvl rQ level p q0 p) in
      let* av := (match a with Some v => Ok v | None => Panic PNil end) in
      let* p := sptr ct id in
      let* (p, k) := extOp level h ctIn id av p k in
      Ok (sset ct id p, k)) (o 1 (mkeys ids)) (ct, k) in
  let gal := galColumn (pa_logN pp) rotidx in
  foldM (fun '(ct, k) id => permuteComp level gal ct id k) (o 2 (mkeys ctIn)) (ct, k).
Definition Rotate (o : order) (ctIn : ciphertext) (rotidx : Z) (rks : rotset) (ctOut : ciphertext) (k : kpool) :=
  RotateGen o ctIn rotidx None rks ctOut k.
Definition RotateHoisted (o : order) (ctIn : ciphertext) (rotidx : Z) (h : hoisted) (rks : rotset) (ctOut : ciphertext) (k : kpool) :=
  RotateGen o ctIn rotidx (Some h) rks ctOut k.

(** keyswitch.go:302-332 Conjugate *)
Definition Conjugate (o : order) (ctIn : ciphertext) (cks : conjset) (ctOut : ciphertext) (k : kpool) : res (ciphertext * kpool) :=
  let* level := ctLevel ctOut in
  let* ids := ctIDSet o ctIn in
  let* li := ctLevel ctIn in
  if (li <? level) then Panic (PMsg "Cannot Conjugate: ctIn and ctOut have different levels") else
  let gal := galRow (pa_logN pp) in
  let* ct := foldM (fun ct id =>
      let* a := sptr ctIn id in ctUpd ct id (fun p => Permute rQ a gal p)) (o 1 (mkeys ctIn)) ctOut in
  let* (ct, k) := foldM (fun '(ct, k) id =>
      let* ck := GetConjugationKey cks id in
      let* p := sptr ct id in
      let* (q0, k) := ExternalProduct env level p (cj_val ck) (k_q0 k) k in
      let* ct := ctUpd ct "0"%string (fun p => AddLvl rQ level p q0 p) in
      Ok (ct, set_q0 q0 k)) (o 2 (mkeys ids)) (ct, k) in
  let a := zget (pa_CRS pp) (-2)%Z in
  foldM (fun '(ct, k) id =>
      let* p := sptr ct id in
      let* av := (match a with Some v => Ok v | None => Panic PNil end) in
      let* (q0, k) := ExternalProduct env level p av (k_q0 k) k in
      let* ct := ctUpd ct id (fun p => Ok (pCopy p q0)) in
      Ok (ct, set_q0 q0 k)) (o 3 (mkeys ids)) (ct, k).
End KS2.
