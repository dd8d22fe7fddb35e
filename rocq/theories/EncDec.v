(** mkrlwe/encryptor.go, mkrlwe/decryptor.go, mkckks/encryptor.go, mkckks/decryptor.go.
    The polynomials drawn by the samplers are explicit arguments and the scratch polynomials are
    threaded.  The lattigo CKKS encoder is an explicit function argument. *)
From Coq Require Import ZArith List String Bool.
From Verif Require Import Go Lattigo F64 BasisExt NTT RingOps Maps Params Elements KeySwitch KeySets KeyGen.
Import ListNotations.
Local Open Scope Z_scope.
Open Scope go_scope.

(** Level() of a plaintext polynomial; a polynomial without limbs (level -1) is treated as a panic *)
Definition polyLevel (p : poly) : res nat := match plen p with O => Panic PIndex | S l => Ok l end.

(** lattigo GaussianSampler.ReadAndAddLvl (recalled): adds c or Modulus[j] - c to limbs 0..level *)
Definition readAndAdd (r : ringd) (level : nat) (e : small) (dst : poly) : res poly :=
  let* ls := mapM (fun j => let* q := idx (r_mods r) j in let* x := idx (p_co dst) j in
      Ok (pw2 (fun a b => CRed (wadd a b) q) x (map (fun '(s, c) => if s : bool then c else wsub q c) e))) (seq 0 (level + 1)) in
  write level ls dst.

Section Enc.
Context (pp : params).
Notation rQ := (ringQ pp).

(** mkrlwe/encryptor.go:55-118 Encrypt.  u, e0, e1: the ternary draw and the Gaussian draws added to
    the component "0" and to the component of the key's owner. *)
Definition Encrypt (pt : poly) (pk : pubkey) (u e0 e1 : small) (ct : ciphertext) (pool : poly) : res (ciphertext * poly) :=
  let id := pk_ID pk in
  let* pl := polyLevel pt in
  let* cl := ctLevel ct in
  let level := Nat.min pl cl in
  let* c0 := sptr ct "0"%string in
  let* pool := readSmall rQ level u pool in
  let* pool := NTTLvl rQ level pool pool in
  let* pool := MFormLvl rQ level pool pool in
  let* ct := ctUpd ct "0"%string (fun p => MulCoeffsMontgomeryLvl rQ level pool (qQ (pk_0 pk)) p) in
  let* ct := ctUpd ct id (fun p => MulCoeffsMontgomeryLvl rQ level pool (qQ (pk_1 pk)) p) in
  let* (ct, pool) :=
    if p_ntt c0 then
      let* pool := readSmall rQ level e1 pool in
      let* pool := NTTLvl rQ level pool pool in
      let* ct := ctUpd ct id (fun p => AddLvl rQ level p pool p) in
      let* pool := readSmall rQ level e0 pool in
      if negb (p_ntt pt) then
        let* pool := AddLvl rQ level pool pt pool in
        let* pool := NTTLvl rQ level pool pool in
        let* ct := ctUpd ct "0"%string (fun p => AddLvl rQ level p pool p) in
        Ok (ct, pool)
      else
        let* pool := NTTLvl rQ level pool pool in
        let* ct := ctUpd ct "0"%string (fun p => AddLvl rQ level p pool p) in
        let* ct := ctUpd ct "0"%string (fun p => AddLvl rQ level p pt p) in
        Ok (ct, pool)
    else
      let* ct := ctUpd ct "0"%string (fun p => InvNTTLvl rQ level p p) in
      let* ct := ctUpd ct id (fun p => InvNTTLvl rQ level p p) in
      let* l0 := ctLevel ct in
      let* ct := ctUpd ct "0"%string (fun p => readAndAdd rQ l0 e0 p) in
      let* l1 := ctLevel ct in
      let* ct := ctUpd ct id (fun p => readAndAdd rQ l1 e1 p) in
      if negb (p_ntt pt) then
        let* ct := ctUpd ct "0"%string (fun p => AddLvl rQ level p pt p) in
        Ok (ct, pool)
      else
        let* pool := InvNTTLvl rQ level pt pool in
        let* ct := ctUpd ct "0"%string (fun p => AddLvl rQ level p pool p) in
        Ok (ct, pool) in
  let* c0 := sptr ct "0"%string in
  let* ct := ctUpd ct id (fun p => Ok (setNTT (p_ntt c0) p)) in
  let* ct := ctUpd ct "0"%string (pTrunc (level + 1)) in
  let* ct := ctUpd ct id (pTrunc (level + 1)) in
  Ok (ct, pool).

(** mkrlwe/decryptor.go:26-43 PartialDecrypt *)
Definition PartialDecrypt (ct : ciphertext) (sk : seckey) : res ciphertext :=
  let id := sk_ID sk in
  let* level := ctLevel ct in
  let* c := sptr ct id in
  let* ct := if negb (p_ntt c) then ctUpd ct id (fun p => NTTLvl rQ level p p) else Ok ct in
  let* ct := ctUpd ct id (fun p => MulCoeffsMontgomeryLvl rQ level p (qQ (sk_val sk)) p) in
  let* ct := if negb (p_ntt c) then ctUpd ct id (fun p => InvNTTLvl rQ level p p) else Ok ct in
  let* c := sptr ct id in
  let* ct := ctUpd ct "0"%string (fun p => AddLvl rQ level p c p) in
  Ok (sdel ct id).

(** mkrlwe/decryptor.go:48-66 Decrypt; returns the plaintext polynomial *)
Definition Decrypt (o : order) (ct : ciphertext) (sks : skset) (pt : poly) : res poly :=
  let* cl := ctLevel ct in
  let* pl := polyLevel pt in
  let level := Nat.min cl pl in
  let* pt := pTrunc (level + 1) pt in
  let* tmp := ctCopyNew ct in
  let* ids := ctIDSet o tmp in
  let* tmp := foldM (fun tmp k =>
      let* sk := sptr sks k in
      if idHas ids (sk_ID sk) then PartialDecrypt tmp sk else Ok tmp) (o 1%nat (mkeys sks)) tmp in
  if (1 <? List.length (mkeys tmp))%nat then Panic (PMsg "Cannot Decrypt: there is a missing secretkey") else
  let* c0 := sptr tmp "0"%string in
  ReduceLvl rQ level c0 pt.
End Enc.

(** * mkckks *)
(** mkckks/elements.go:5-8 Ciphertext *)
Record ckct := mkCk { c_ct : ciphertext; c_scale : f64 }.
(** mkckks/params.go:8-13: the parameters and the default scale *)
Record ckparams := mkCkp { cp_pp : params; cp_scale : f64 }.
(** mkckks/elements.go:11-17 *)
Definition ckNewCiphertext (o : order) (cp : ckparams) (ids : idset) (level : nat) (scale : f64) : ckct :=
  mkCk (NewCiphertext o (cp_pp cp) ids level) scale.
(** mkckks/elements.go:30-33 *)
Definition ckCopyNew (ct : ckct) : res ckct := let* c := ctCopyNew (c_ct ct) in Ok (mkCk c (c_scale ct)).

Section Ck.
Context (cp : ckparams).
Notation pp := (cp_pp cp).
(** a message type and lattigo's encoder: the polynomial Encode leaves in a plaintext (which keeps its
    number of limbs), Decode as a function of the plaintext polynomial and its scale *)
Context {M : Type} (encode : poly -> M -> poly) (decode : poly -> f64 -> M).

(** mkckks/encryptor.go: the pool plaintext and the scratch polynomial of the embedded encryptor *)
Record encst := mkEncst { en_pt : poly; en_pool : poly }.
(** mkckks/encryptor.go:17-27; the pool plaintext has the default scale *)
Definition NewEncryptor : encst := mkEncst (ringPoly (ringQ pp)) (ringPoly (ringQ pp)).

(** mkckks/encryptor.go:33-36 EncryptPtxt (plaintext given by polynomial and scale) *)
Definition EncryptPtxt (pt : poly) (scale : f64) (pk : pubkey) (u e0 e1 : small) (ct : ckct) (st : encst) : res (ckct * encst) :=
  let* (c, pool) := Encrypt pp pt pk u e0 e1 (c_ct ct) (en_pool st) in
  Ok (mkCk c scale, mkEncst (en_pt st) pool).
(** mkckks/encryptor.go:42-45 EncryptMsg *)
Definition EncryptMsg (msg : M) (pk : pubkey) (u e0 e1 : small) (ct : ckct) (st : encst) : res (ckct * encst) :=
  let pt := encode (en_pt st) msg in
  EncryptPtxt pt (cp_scale cp) pk u e0 e1 ct (mkEncst pt (en_pool st)).
(** mkckks/encryptor.go:51-58 EncryptMsgNew *)
Definition EncryptMsgNew (o : order) (msg : M) (pk : pubkey) (u e0 e1 : small) (st : encst) : res (ckct * encst) :=
  let* ids := idAdd NewIDSet (pk_ID pk) in
  EncryptMsg msg pk u e0 e1 (ckNewCiphertext o cp ids (maxLevel pp) (cp_scale cp)) st.
(** mkckks/encryptor.go:60-65 EncryptMsgNewExpand *)
Definition EncryptMsgNewExpand (o : order) (msg : M) (pk : pubkey) (ids : idset) (u e0 e1 : small) (st : encst) : res (ckct * encst) :=
  EncryptMsg msg pk u e0 e1 (ckNewCiphertext o cp ids (maxLevel pp) (cp_scale cp)) st.

(** mkckks/decryptor.go:14-24: the pool plaintext is the only state *)
Definition NewDecryptor : poly := ringPoly (ringQ pp).
(** mkckks/decryptor.go:34-43 Decrypt.  The pool plaintext is resliced by mkrlwe's Decrypt. *)
Definition ckDecrypt (o : order) (ct : ckct) (sks : skset) (pool : poly) : res (M * poly) :=
  let* tmp := ckCopyNew ct in
  let* pt := Decrypt pp o (c_ct tmp) sks pool in
  Ok (decode pt (c_scale tmp), pt).
End Ck.
