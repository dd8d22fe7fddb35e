(** Encryption and decryption (properties C12-C17, C51 and C65). *)
From Coq Require Import String ZArith List.
From Verif Require Import Spec Go Arith NegRing BasisExt NTT RingOps Maps Params Elements KeySwitch KeySets KeyGen F64 EncDec Repr SpecCt SpecEnc EncWorld CkEncThms EncThms EncProofs World Shipped SpecKeys PartialLeak.
Import ListNotations.
Local Open Scope Z_scope.

(** C12: Encrypt into a container without other parties, then Decrypt with the party's key: the output limbs hold M + w with
    |w| <= B(1 + N*Bu + N*Bs), and M + w is recovered exactly when it fits below Q_l/2.  The ciphertext and the plaintext exist
    before the scratch pool, the map order and the key set are chosen, so they depend on none of them. *)
Theorem C12_encrypt_decrypt : forall pp, params_ok pp -> forall pt pl M pk s e a u e0 e1 Bs Bu B ct cl ntt F ptOut po,
  enc_setting pp pt pl M pk s e a u e0 e1 Bu B ct cl ntt F -> foreign ct (pk_ID pk) = [] -> plen ptOut = (po + 1)%nat ->
  pnorm_le (pa_N pp) s Bs -> pnorm_le (pa_N pp) e B ->
  exists ct' pt' w, let l := Nat.min (Nat.min pl cl) po in
    (forall pool, (QCount pp <= plen pool)%nat -> exists pool', Encrypt pp pt pk u e0 e1 ct pool = Ok (ct', pool')) /\
    (forall o sks, order_ok o -> sks_ok pp (fun _ => s) ct' sks -> has_key sks (pk_ID pk) -> Decrypt pp o ct' sks ptOut = Ok pt') /\
    plen pt' = (l + 1)%nat /\ held pp ntt (fun q => q) l pt' (padd M w) /\
    pnorm_le (pa_N pp) w (B * (1 + Z.of_nat (pa_N pp) * Bu + Z.of_nat (pa_N pp) * Bs)) /\
    ((forall i, (i < pa_N pp)%nat -> 2 * (Z.abs (M i) + B * (1 + Z.of_nat (pa_N pp) * Bu + Z.of_nat (pa_N pp) * Bs)) < Ql pp l) ->
       centred_value pp l ntt pt' (padd M w)).
Proof. exact encrypt_fresh. Qed.
Print Assumptions C12_encrypt_decrypt.

(** C13: with every party's key Decrypt returns F_0 + sum s_id*F_id at level min, whatever extra keys the set holds and in
    whatever order it is iterated; with a key missing it panics with its message *)
Theorem C13_decrypt : forall pp, params_ok pp -> forall ntt l ct F s pl pt, ct_rep pp ntt l ct F -> plen pt = (pl + 1)%nat ->
  exists pt', p_ntt pt' = p_ntt pt /\ plen pt' = (Nat.min l pl + 1)%nat /\ held pp ntt (fun q => q) (Nat.min l pl) pt' (decryption pp s F ct) /\
    forall o sks, order_ok o -> sks_ok pp s ct sks ->
      ((forall id, party ct id -> has_key sks id) -> Decrypt pp o ct sks pt = Ok pt') /\
      ((exists id, party ct id /\ ~ has_key sks id) -> Decrypt pp o ct sks pt = Panic (PMsg "Cannot Decrypt: there is a missing secretkey")).
Proof. exact decrypt_exact. Qed.
Print Assumptions C13_decrypt.

(** C14: partial decryption by every party, in any order L, leaves component "0" alone, holding (up to reduction) what Decrypt writes *)
Theorem C14_partial_decryptions : forall pp, params_ok pp -> forall ntt l ct F s key L pt pl, ct_rep pp ntt l ct F -> NoDup L -> (forall id, In id L <-> party ct id) ->
  (forall id, In id L -> sk_ID (key id) = id /\ sk_is pp (key id) (s id)) -> plen pt = (pl + 1)%nat ->
  exists p0 pt', foldM (fun c id => PartialDecrypt pp c (key id)) L ct = Ok [("0"%string, p0)] /\ p_ntt p0 = ntt /\ plen p0 = (l + 1)%nat /\
    (forall o sks, order_ok o -> sks_ok pp s ct sks -> (forall id, party ct id -> has_key sks id) -> Decrypt pp o ct sks pt = Ok pt') /\
    (forall j i, (j <= Nat.min l pl)%nat -> (i < pa_N pp)%nat -> word (p_co pt') j i = word (p_co p0) j i mod modulus (pa_Q pp) j).
Proof. exact partial_all. Qed.
Print Assumptions C14_partial_decryptions.

(** C15: EncryptMsgNewExpand covers exactly ids and decrypts (with everybody's key) to the message EncryptMsgNew of the same draws
    decrypts to; [encode] is any encoder writing a full-level plaintext *)
Theorem C15_expand : forall cp, params_ok (cp_pp cp) -> forall M (encode : poly -> M -> poly) (decode : poly -> f64 -> M) msg Mp pk s e a u e0 e1 Bu B,
  (forall p, plen p = QCount (cp_pp cp) -> plaintext_is (cp_pp cp) (maxLevel (cp_pp cp)) (encode p msg) Mp) -> pk_is (cp_pp cp) pk s e a -> pk_ID pk <> "0"%string ->
  bound_ok (cp_pp cp) Bu -> bound_ok (cp_pp cp) B -> small_ok (pa_N (cp_pp cp)) Bu u -> small_ok (pa_N (cp_pp cp)) B e0 -> small_ok (pa_N (cp_pp cp)) B e1 ->
  forall o1 o2 ids st1 st2, order_ok o1 -> order_ok o2 -> In (pk_ID pk) (mkeys ids) -> ~ In "0"%string (mkeys ids) -> encst_ok cp st1 -> encst_ok cp st2 ->
  exists ct1 ct2 st1' st2', EncryptMsgNew cp encode o1 msg pk u e0 e1 st1 = Ok (ct1, st1') /\ EncryptMsgNewExpand cp encode o2 msg pk ids u e0 e1 st2 = Ok (ct2, st2') /\
    encst_ok cp st1' /\ encst_ok cp st2' /\
    c_scale ct1 = cp_scale cp /\ c_scale ct2 = cp_scale cp /\ (forall x, party (c_ct ct1) x <-> x = pk_ID pk) /\ (forall x, party (c_ct ct2) x <-> In x (mkeys ids)) /\
    forall S pool, S (pk_ID pk) = s -> (0 < plen pool)%nat -> exists m pool',
      (forall o sks, order_ok o -> sks_ok (cp_pp cp) S (c_ct ct1) sks -> has_key sks (pk_ID pk) -> ckDecrypt cp decode o ct1 sks pool = Ok (m, pool')) /\
      (forall o sks, order_ok o -> sks_ok (cp_pp cp) S (c_ct ct2) sks -> (forall x, In x (mkeys ids) -> has_key sks x) -> ckDecrypt cp decode o ct2 sks pool = Ok (m, pool')).
Proof. exact expand_thm. Qed.
Print Assumptions C15_expand.

(** C15: without the encrypting party's id in ids the call dereferences nil *)
Theorem C15_expand_without_own_id : forall cp, params_ok (cp_pp cp) -> forall M (encode : poly -> M -> poly) msg Mp pk s e a u e0 e1 Bu,
  (forall p, plen p = QCount (cp_pp cp) -> plaintext_is (cp_pp cp) (maxLevel (cp_pp cp)) (encode p msg) Mp) -> pk_is (cp_pp cp) pk s e a -> pk_ID pk <> "0"%string ->
  bound_ok (cp_pp cp) Bu -> small_ok (pa_N (cp_pp cp)) Bu u ->
  forall o ids st, order_ok o -> ~ In (pk_ID pk) (mkeys ids) -> encst_ok cp st -> EncryptMsgNewExpand cp encode o msg pk ids u e0 e1 st = Panic PNil.
Proof. exact expand_panics. Qed.
Print Assumptions C15_expand_without_own_id.

(** C16: Encrypt leaves the other parties' components as they were; the decryption is the fresh encryption plus their old
    contribution, hence the fresh value exactly when that contribution vanishes modulo every prime *)
Theorem C16_used_container : forall pp, params_ok pp -> forall pt pl M pk s e a u e0 e1 Bu B ct cl ntt F (S : string -> zpoly) ptOut po,
  enc_setting pp pt pl M pk s e a u e0 e1 Bu B ct cl ntt F -> plen ptOut = (po + 1)%nat -> S (pk_ID pk) = s ->
  exists ct' pt', let fresh := padd M (fresh_noise (pa_N pp) s e (smallpoly u) (smallpoly e0) (smallpoly e1)) in
    let old := psumL (fun x => pmul (pa_N pp) (S x) (F x)) (foreign ct (pk_ID pk)) in
    let l := Nat.min (Nat.min pl cl) po in
    mkeys ct' = mkeys ct /\ (forall x, In x (foreign ct (pk_ID pk)) -> sget ct' x = sget ct x) /\
    (forall pool, (QCount pp <= plen pool)%nat -> exists pool', Encrypt pp pt pk u e0 e1 ct pool = Ok (ct', pool') /\ plen pool' = plen pool) /\
    (forall o sks, order_ok o -> sks_ok pp S ct' sks -> (forall id, party ct' id -> has_key sks id) -> Decrypt pp o ct' sks ptOut = Ok pt') /\
    held pp ntt (fun q => q) l pt' (padd fresh old) /\
    ((exists b, held pp ntt b l pt' fresh) <-> forall j, (j <= l)%nat -> peq (pa_N pp) (modulus (pa_Q pp) j) old pzero).
Proof. exact encrypt_foreign. Qed.
Print Assumptions C16_used_container.

(** C17: after a history of decryptions the pool plaintext has the lowest level seen; the limbs agree with those of a new Decryptor,
    truncated; they are the same exactly when that level is the ciphertext's, and values below the smaller modulus are still recovered *)
Theorem C17_decryptor_history : forall cp, params_ok (cp_pp cp) -> forall M (decode : poly -> f64 -> M) jobs o ct sks l, Forall (job_ok (cp_pp cp)) jobs -> job_ok (cp_pp cp) (o, ct, sks, l) ->
  let m := Nat.min l (fold_left Nat.min (map jlevel jobs) (maxLevel (cp_pp cp))) in
  exists pool pt ptf, dec_run cp decode jobs (NewDecryptor cp) = Ok pool /\
    ckDecrypt cp decode o ct sks pool = Ok (decode pt (c_scale ct), pt) /\ ckDecrypt cp decode o ct sks (NewDecryptor cp) = Ok (decode ptf (c_scale ct), ptf) /\
    p_ntt pt = p_ntt ptf /\ plen pt = (m + 1)%nat /\ plen ptf = (l + 1)%nat /\ p_co pt = firstn (m + 1) (p_co ptf) /\ (pt = ptf <-> m = l) /\
    forall v, held (cp_pp cp) false (fun q => q) l ptf v -> (forall i, (i < pa_N (cp_pp cp))%nat -> 2 * Z.abs (v i) < Ql (cp_pp cp) m) -> centred_value (cp_pp cp) m false pt v.
Proof. exact history_thm. Qed.
Print Assumptions C17_decryptor_history.

(** C51: the documented promise that the output domain matches the plaintext's NTT flag fails for ciphertexts in NTT form *)
Theorem C51_output_domain_refuted : exists pp ct F l pt pt', params_ok pp /\ ct_rep pp true l ct F /\ plen pt = (l + 1)%nat /\ p_ntt pt = false /\
  (forall o s sks, order_ok o -> sks_ok pp s ct sks -> Decrypt pp o ct sks pt = Ok pt') /\ p_ntt pt' = p_ntt pt /\
  forall s b, ~ held pp (p_ntt pt') b l pt' (decryption pp s F ct).
Proof. exact domain_refuted. Qed.
Print Assumptions C51_output_domain_refuted.

(** C65: PartialDecrypt adds no noise: the published component "0" minus the old one is exactly s * c_id modulo every q_j.  With an
    inverse D of the public c_id (one exists exactly when no evaluation of c_id vanishes) it gives s modulo q_j, and s itself
    when s is ternary *)
Theorem C65_partial_decryption_reveals_secret : forall pp, params_ok pp -> forall ntt l ct F sk s, ct_rep pp ntt l ct F -> party ct (sk_ID sk) -> sk_is pp sk s ->
  exists ct', PartialDecrypt pp ct sk = Ok ct' /\ (forall x, In x (mkeys ct') <-> In x (mkeys ct) /\ x <> sk_ID sk) /\
    forall c0 c0' A B b b', sget ct "0"%string = Some c0 -> sget ct' "0"%string = Some c0' -> held pp ntt b l c0 A -> held pp ntt b' l c0' B ->
    forall j, (j <= l)%nat -> let q := modulus (pa_Q pp) j in let C := F (sk_ID sk) in
      peq (pa_N pp) q (psub B A) (pmul (pa_N pp) s C) /\
      ((exists D, peq (pa_N pp) q (pmul (pa_N pp) D C) (pconst 1)) <-> forall i, (i < pa_N pp)%nat -> ~ eqm q (nttf (pa_logN pp) (psij (ringQ pp) j) C i) 0) /\
      forall D, peq (pa_N pp) q (pmul (pa_N pp) D C) (pconst 1) -> peq (pa_N pp) q (pmul (pa_N pp) D (psub B A)) s /\
        (pnorm_le (pa_N pp) s 1 -> forall i, (i < pa_N pp)%nat -> centred q (pmul (pa_N pp) D (psub B A) i) = s i).
Proof. exact partial_leak. Qed.
Print Assumptions C65_partial_decryption_reveals_secret.
(** C65: one limb of the published component determines a ternary secret: two keys give the same limb exactly when they are equal *)
Theorem C65_one_key : forall pp, params_ok pp -> forall ntt l ct F sk s sk2 s2 ct' ct2 j, ct_rep pp ntt l ct F -> party ct (sk_ID sk) -> sk_ID sk2 = sk_ID sk -> sk_is pp sk s -> sk_is pp sk2 s2 ->
  pnorm_le (pa_N pp) s 1 -> pnorm_le (pa_N pp) s2 1 -> (j <= l)%nat ->
  (forall i, (i < pa_N pp)%nat -> ~ eqm (modulus (pa_Q pp) j) (nttf (pa_logN pp) (psij (ringQ pp) j) (F (sk_ID sk)) i) 0) ->
  PartialDecrypt pp ct sk = Ok ct' -> PartialDecrypt pp ct sk2 = Ok ct2 ->
  ((forall p p2, sget ct' "0"%string = Some p -> sget ct2 "0"%string = Some p2 -> nth j (p_co p) [] = nth j (p_co p2) []) <-> forall i, (i < pa_N pp)%nat -> s i = s2 i).
Proof. exact partial_one_key. Qed.
Print Assumptions C65_one_key.
(** C65: the same for the polynomial Decrypt writes: all parties but one, pooling their secrets, compute the last secret from it *)
Theorem C65_raw_plaintext_reveals_secret : forall pp, params_ok pp -> forall ntt l ct F s pl pt id, ct_rep pp ntt l ct F -> plen pt = (pl + 1)%nat -> party ct id ->
  exists pt', (forall o sks, order_ok o -> sks_ok pp s ct sks -> (forall x, party ct x -> has_key sks x) -> Decrypt pp o ct sks pt = Ok pt') /\
    forall V b j, held pp ntt b (Nat.min l pl) pt' V -> (j <= Nat.min l pl)%nat -> let q := modulus (pa_Q pp) j in
    let X := psub V (psumL (fun x => pmul (pa_N pp) (secret s x) (F x)) (filter (fun x => negb (String.eqb x id)) (mkeys ct))) in
    peq (pa_N pp) q X (pmul (pa_N pp) (s id) (F id)) /\
    forall D, peq (pa_N pp) q (pmul (pa_N pp) D (F id)) (pconst 1) -> peq (pa_N pp) q (pmul (pa_N pp) D X) (s id) /\
      (pnorm_le (pa_N pp) (s id) 1 -> forall i, (i < pa_N pp)%nat -> centred q (pmul (pa_N pp) D X i) = s id i).
Proof. exact raw_leak. Qed.
Print Assumptions C65_raw_plaintext_reveals_secret.

(** the shipped moduli, a generated public key, and containers of any party list meet the hypotheses *)
Example C12_case : exists pp sk pk s e a on, params_ok pp /\ pa_Q pp = shippedQ /\ pa_logN pp = 15%nat /\
  sk_is pp sk s /\ pnorm_le (pa_N pp) s 1 /\ pnorm_le (pa_N pp) e 19 /\
  forall pl cl ids, (pl < QCount pp)%nat -> (cl < QCount pp)%nat -> NoDup ("0"%string :: ids) -> In (pk_ID pk) ids ->
    enc_setting pp (ones_poly pp pl) pl (fun _ => 1) pk s e a on on on 1 19 (ones_ct pp cl ids) cl false (fun _ _ => 1).
Proof. exact enc_world. Qed.
Example C13_case : forall pp, params_ok pp -> forall l ids, (l < QCount pp)%nat -> NoDup ("0"%string :: ids) -> ct_rep pp false l (ones_ct pp l ids) (fun _ _ => 1).
Proof. exact ones_ct_rep. Qed.
Example C17_case : exists pp sks s, params_ok pp /\ pa_Q pp = shippedQ /\ mkeys sks = ["a"; "b"; "c"]%string /\
  forall l sc, (l < QCount pp)%nat -> sks_ok pp s (ones_ct pp l ["a"; "b"]%string) sks /\
    job_ok pp ((fun _ L => L), mkCk (ones_ct pp l ["a"; "b"]%string) sc, sks, l).
Proof. exact dec_world. Qed.
Example C65_case : exists pp sk s, params_ok pp /\ pa_Q pp = shippedQ /\ pa_logN pp = 15%nat /\ sk_ID sk = "a"%string /\ sk_is pp sk s /\ pnorm_le (pa_N pp) s 1 /\ ~ peq (pa_N pp) 0 s pzero /\
  forall l, (l < QCount pp)%nat -> ct_rep pp false l (ones_ct pp l ["a"; "b"]%string) (fun _ _ => 1) /\ party (ones_ct pp l ["a"; "b"]%string) "a" /\
    forall j i, (j <= l)%nat -> (i < pa_N pp)%nat -> ~ eqm (modulus (pa_Q pp) j) (nttf (pa_logN pp) (psij (ringQ pp) j) (fun _ => 1) i) 0.
Proof. exact leak_world. Qed.
