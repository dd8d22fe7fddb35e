(** mkrlwe/keygen.go.  The polynomials read from lattigo's samplers are explicit arguments; the
    scratch polynomials poolQ and poolQP of the KeyGenerator are threaded, so that the theorems
    can quantify over their contents. *)
From Coq Require Import ZArith List String Bool.
From Verif Require Import Go Lattigo F64 BasisExt NTT RingOps Maps Params Elements KeySwitch KeySets.
Import ListNotations.
Local Open Scope Z_scope.
Open Scope go_scope.

(** One draw of a Gaussian or ternary sampler: per coefficient a sign and a magnitude.
    The sign of a zero magnitude is kept: lattigo writes q - 0 = q for a negative zero. *)
Definition small := list (bool * Z).

(** lattigo GaussianSampler.ReadLvl / TernarySampler.Read (recalled): coefficient i of limb j is
    c or Modulus[j] - c *)
Definition readSmall (r : ringd) (level : nat) (e : small) (dst : poly) : res poly :=
  let* ls := mapM (fun j => let* q := idx (r_mods r) j in
      Ok (map (fun '(s, c) => if s : bool then c else wsub q c) e)) (seq 0 (level + 1)) in
  write level ls dst.

(** lattigo RingQP.ExtendBasisSmallNormAndCenter with polyOutQ = nil (recalled): the first Q limb
    is centred and copied to the P limbs *)
Definition centre (q0 p x : Z) : Z := if q0 / 2 <? x then wsub p (wsub q0 x) else x.
Definition ExtendSmall (pp : params) (polQ : poly) (levelP : nat) (polP : poly) : res poly :=
  let* q0 := idx (pa_Q pp) 0 in
  let* l0 := idx (p_co polQ) 0 in
  let* ls := mapM (fun i => let* p := idx (pa_P pp) i in Ok (map (centre q0 p) l0)) (seq 0 (levelP + 1)) in
  write levelP ls polP.

Section KG.
Context (pp : params).
Notation rQ := (ringQ pp).
Notation rP := (ringP pp).
Notation lvQ := (maxLevel pp).
Notation lvP := (levelP pp).
Notation beta := (Beta pp (maxLevel pp)).

(** sample, extend to P, NTT: keygen.go:50-52, 99-101, 123-133, 297-299 *)
Definition errNTT (e : small) (x : qp) : res qp :=
  let* xq := readSmall rQ lvQ e (qQ x) in
  let* xp := ExtendSmall pp xq lvP (qP x) in
  NTTQP pp lvQ lvP (mkQP xq xp) (mkQP xq xp).

(** keygen.go:44-55 genSecretKeyFromSampler; GenSecretKey (58-60), GenSecretKeyGaussian (63-65),
    GenSecretKeyWithDistrib (68-75) and GenSecretKeySparse (78-85) differ in the sampler only *)
Definition genSecretKey (e : small) (id : string) : res seckey :=
  let* x := errNTT e (newQP pp) in
  let* x := MFormQP pp lvQ lvP x x in
  Ok (mkSk x id).

(** keygen.go:88-109 *)
Definition GenPublicKey (sk : seckey) (e : small) : res pubkey :=
  let* p0 := errNTT e (newQP pp) in
  let* crs := getCRS pp 0 in
  let* a := idx crs 0 in
  let p1 := mkQP (pCopy (qQ (newQP pp)) (qQ a)) (pCopy (qP (newQP pp)) (qP a)) in
  let* p0 := MulSubQP pp lvQ lvP (sk_val sk) p1 p0 in
  Ok (mkPk p0 p1 (sk_ID sk)).
(** keygen.go:112-115 *)
Definition GenKeyPair (es e : small) (id : string) : res (seckey * pubkey) :=
  let* sk := genSecretKey es id in
  let* pk := GenPublicKey sk e in Ok (sk, pk).
(** keygen.go:118-121: the named result sk is nil when its field ID is read *)
Definition GenKeyPairSparse (es e : small) : res (seckey * pubkey) :=
  let* sk := (Panic PNil : res seckey) in
  let* sk := genSecretKey es (sk_ID sk) in
  let* pk := GenPublicKey sk e in Ok (sk, pk).

(** l[k] = v for a list of limbs *)
Definition setLimb (p : poly) (k : nat) (l : list Z) : poly :=
  mkPoly (p_ntt p) (firstn k (p_co p) ++ l :: skipn (k + 1) (p_co p)).
(** keygen.go:308-324, one iteration of the inner loop; index < levelQ+1 *)
Definition addGadget (ix : nat) (pool : poly) (x : poly) : res poly :=
  let* q := idx (pa_Q pp) ix in
  let* p0 := idx (p_co pool) ix in
  let* p1 := idx (p_co x) ix in
  Ok (setLimb x ix (pw2 (fun a b => CRed (wadd a b) q) p1 p0)).
(** keygen.go:292-325, row i *)
Definition swkRow (i : nat) (e : small) (pool : poly) (x : qp) : res qp :=
  let* x := errNTT e x in
  let* x := MFormQP pp lvQ lvP x x in
  let* xq := foldM (fun xq j => addGadget (i * Alpha pp + j) pool xq)
      (filter (fun j => (i * Alpha pp + j <? lvQ + 1)%nat) (seq 0 (Alpha pp))) (qQ x) in
  Ok (mkQP xq (qP x)).
(** keygen.go:270-327.  levelP is PCount-1, so pBigInt is the product of all special primes.
    The break of the inner loop is the filter of swkRow. *)
Definition GenSwitchingKey (skIn : qp) (es : nat -> small) (v : swk) (pool : poly) : res (swk * poly) :=
  let* pool := MulScalarBigintLvl rQ lvQ (qQ skIn) (fold_right Z.mul 1 (pa_P pp)) pool in
  let* v := foldM (fun v i =>
      let* x := idx v i in let* x := swkRow i (es i) pool x in swkSet v i x) (seq 0 beta) v in
  Ok (v, pool).
(** the loops "for i < beta { MulCoeffsMontgomeryAndSubLvl(a[i], s, v[i]) }", keygen.go:174-176, 224-226, 262-264 *)
Definition subRows (a : swk) (s : qp) (v : swk) : res swk :=
  foldM (fun v i => let* ai := idx a i in let* x := idx v i in
      let* x := MulSubQP pp lvQ lvP ai s x in swkSet v i x) (seq 0 beta) v.

(** keygen.go:137-187.  eb, ed, ev are the errors of the three vectors. *)
Definition GenRelinearizationKey (sk r : seckey) (eb ed ev : nat -> small) (poolQ : poly) (poolQP : qp) : res (rlkey * (poly * qp)) :=
  if Nat.eqb (PCount pp) 0 then Panic (PMsg "modulus P is empty") else
  let* a := getCRS pp 0 in
  let* u := getCRS pp (-1) in
  let* (b, tmp) := foldM (fun '(b, tmp) i =>
      let* ai := idx a i in let* x := idx b i in
      let* x := MulQP pp lvQ lvP ai (sk_val sk) x in
      let* x := InvMFormQP pp lvQ lvP x x in
      let* tmp := errNTT (eb i) tmp in
      let* x := SubQP pp lvQ lvP tmp x x in
      let* x := MFormQP pp lvQ lvP x x in
      let* b := swkSet b i x in
      Ok (b, tmp)) (seq 0 beta) (NewSwitchingKey pp, poolQP) in
  let* (d, poolQ) := GenSwitchingKey (sk_val sk) ed (NewSwitchingKey pp) poolQ in
  let* d := subRows a (sk_val r) d in
  let* (v, poolQ) := GenSwitchingKey (sk_val r) ev (NewSwitchingKey pp) poolQ in
  let* v := foldM (fun v i =>
      let* ui := idx u i in let* x := idx v i in
      let* x := MulAddQP pp lvQ lvP ui (sk_val sk) x in
      let* xq := NegLvl rQ lvQ (qQ x) (qQ x) in
      let* xp := NegLvl rP lvP (qP x) (qP x) in
      swkSet v i (mkQP xq xp)) (seq 0 beta) v in
  Ok (mkRlk b d v (sk_ID sk), (poolQ, tmp)).

(** keygen.go:212-216, 251-254: the NTT permutation of a secret key *)
Definition permuteSk (gal : Z) (s : qp) : res qp :=
  let index := PermuteNTTIndex (pa_logN pp) gal in
  let* q := PermuteNTTWithIndexLvl lvQ (qQ s) index (qQ (newQP pp)) in
  let* p := PermuteNTTWithIndexLvl lvP (qP s) index (qP (newQP pp)) in
  Ok (mkQP q p).

(** keygen.go:190-229.  CRS[rotidx] of the normalised index is only dereferenced in the last loop. *)
Definition GenRotationKey (rotidx : Z) (sk : seckey) (es : nat -> small) (poolQ : poly) : res (rotkey * poly) :=
  if negb (mhas Z.eqb (pa_CRS pp) rotidx) then Panic (PMsg "Cannot GenRotationKey: CRS for given rot idx is not generated") else
  let rotidx := normNeg (pa_logN pp) rotidx in
  let gal := galInverse (pa_logN pp) (galColumn (pa_logN pp) rotidx) in
  let* skOut := permuteSk gal (sk_val sk) in
  let* (rk, poolQ) := GenSwitchingKey (sk_val sk) es (NewSwitchingKey pp) poolQ in
  let* a := getCRS pp rotidx in
  let* rk := subRows a skOut rk in
  Ok (mkRotk rk (sk_ID sk) rotidx, poolQ).

(** keygen.go:232-237: rotidx = 1, 2, 4, ... below N/2 *)
Definition defaultRots : list Z := map (fun i => 2 ^ Z.of_nat i) (seq 0 (pa_logN pp - 1)).
Definition GenDefaultRotationKeys (sk : seckey) (es : Z -> nat -> small) (rks : rotset) (poolQ : poly) : res (rotset * poly) :=
  foldM (fun '(rks, poolQ) ix =>
      let* (rk, poolQ) := GenRotationKey ix sk (es ix) poolQ in
      Ok (AddRotationKey rks rk, poolQ)) defaultRots (rks, poolQ).

(** keygen.go:240-267 *)
Definition GenConjugationKey (sk : seckey) (es : nat -> small) (poolQ : poly) : res (conjkey * poly) :=
  let* skOut := permuteSk (galRow (pa_logN pp)) (sk_val sk) in
  let* (ck, poolQ) := GenSwitchingKey skOut es (NewSwitchingKey pp) poolQ in
  let* a := getCRS pp (-2) in
  let* ck := subRows a (sk_val sk) ck in
  Ok (mkCjk ck (sk_ID sk), poolQ).
End KG.
