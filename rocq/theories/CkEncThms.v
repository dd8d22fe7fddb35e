(** mkckks encryption into new ciphertexts, expansion, and the history of a Decryptor. *)
From Coq Require Import String ZArith Znumtheory List Lia Setoid Morphisms Bool Permutation.
From Verif Require Import Spec SpecProofs Go GoProofs Lattigo LattigoProofs Arith NegRing NegRingProofs NTT NTTProofs F64 BasisExt BasisExtProofs RingOps RingOpsProofs Maps MapsProofs Params Elements KeySwitch KeySets KeyGen EncDec KSProofs Crt ParamsProofs KeyGenProofs SpecCt KSSem KeyWitness SpecEnc EncProofs EncThms.
Import ListNotations.
Local Open Scope Z_scope.
Local Open Scope list_scope.

Lemma NewCiphertext_ok o pp ids level : order_ok o -> NoDup (mkeys (NewCiphertext o pp ids level)) /\
  (forall x, In x (mkeys (NewCiphertext o pp ids level)) <-> x = z0 \/ In x (mkeys ids)) /\
  (forall x p, sget (NewCiphertext o pp ids level) x = Some p -> p = newPoly (pa_N pp) (level + 1)).
Proof.
  intros Ho. set (z := newPoly (pa_N pp) (level + 1)).
  assert (G : forall L m, NoDup (mkeys m) -> (forall x p, sget m x = Some p -> p = z) ->
     let m' := fold_left (fun el id => sset el id z) L m in NoDup (mkeys m') /\ (forall x, In x (mkeys m') <-> In x (mkeys m) \/ In x L) /\ (forall x p, sget m' x = Some p -> p = z)).
  { induction L as [|a L IH]; intros m H1 H2; cbn. { split; [auto|]. split; [tauto|auto]. }
    destruct (IH (sset m a z)) as (G1 & G2 & G3).
    - now apply mset_nodup; [exact seqb|].
    - intros x p. rewrite (mget_mset _ seqb). destruct (String.eqb x a); [now intros [= <-]|apply H2].
    - split; [exact G1|]. split; [|exact G3]. intros x. rewrite G2, (mkeys_mset _ seqb). intuition. }
  destruct (G (o 0%nat (mkeys ids)) (sset [] z0 z)) as (G1 & G2 & G3).
  - cbn. constructor; [intros []|constructor].
  - intros x p. cbn. destruct (String.eqb x z0); [now intros [= <-]|discriminate].
  - split; [exact G1|]. split; [|exact G3]. intros x. specialize (G2 x). cbn zeta in G2. etransitivity; [exact G2|]. cbn. rewrite (order_in o 0%nat _ x Ho). intuition.
Qed.

Section Ck.
Context (cp : ckparams) (Hpp : params_ok (cp_pp cp)).
Notation pp := (cp_pp cp).
Notation N := (pa_N pp).
Notation rQ := (ringQ pp).
Notation id_b := (fun q : Z => q).
Context {M : Type} (encode : poly -> M -> poly) (decode : poly -> f64 -> M).
Let HN : (0 < N)%nat := deg_pos _.

Lemma zero_held l : (l < QCount pp)%nat -> held pp false (fun q => q + 1) l (newPoly N (l + 1)) pzero.
Proof.
  intros Hl. unfold held, newPoly. cbn [p_co]. split; [unfold QCount in Hl; cbn [r_mods ringQ]; lia|]. split; [rewrite repeat_length; lia|].
  intros j Hj. rewrite nth_rep by lia. split; [apply repeat_length|]. intros i Hi. cbn [r_N r_logN ringQ] in Hi. rewrite nth_rep by exact Hi.
  destruct (qbig pp Hpp j ltac:(lia)). cbn [r_mods ringQ]. split; [lia|reflexivity].
Qed.
Notation encst_ok := (SpecEnc.encst_ok cp).
Lemma NewEncryptor_ok : encst_ok (NewEncryptor cp).
Proof. split; apply (KeyGenProofs.newQP_shp pp). Qed.

Section One.
Context (msg : M) (Mp : zpoly) (pk : pubkey) (s e a : zpoly) (u e0 e1 : small) (Bu B : Z).
Context (Henc : forall p, plen p = QCount pp -> plaintext_is pp (maxLevel pp) (encode p msg) Mp) (Hpk : pk_is pp pk s e a) (Hid : pk_ID pk <> z0).
Context (HBu : bound_ok pp Bu) (HB : bound_ok pp B) (Hu : small_ok N Bu u) (He0 : small_ok N B e0) (He1 : small_ok N B e1).
Notation id := (pk_ID pk).
Lemma mx_lt : (maxLevel pp < QCount pp)%nat. Proof. apply lvQ_lt. exact Hpp. Qed.

Lemma new_setting o ids pt : order_ok o -> plaintext_is pp (maxLevel pp) pt Mp -> In id (mkeys ids) ->
  enc_setting pp pt (maxLevel pp) Mp pk s e a u e0 e1 Bu B (NewCiphertext o pp ids (maxLevel pp)) (maxLevel pp) false (fun _ => pzero).
Proof.
  intros Ho Hpt Hin. destruct (NewCiphertext_ok o pp ids (maxLevel pp) Ho) as (G1 & G2 & G3). pose proof mx_lt as Hm.
  assert (HP : forall x, In x (mkeys (NewCiphertext o pp ids (maxLevel pp))) -> sget (NewCiphertext o pp ids (maxLevel pp)) x = Some (newPoly N (maxLevel pp + 1))).
  { intros x Hx. destruct (mget_ex _ seqb _ x Hx) as (p & E). rewrite E. now rewrite (G3 x p E). }
  assert (HL : plen (newPoly N (maxLevel pp + 1)) = (maxLevel pp + 1)%nat) by apply repeat_length.
  constructor; auto.
  - eexists. split; [apply HP, G2; auto|]. split; [exact HL|reflexivity].
  - eexists. split; [apply HP, G2; auto|]. rewrite HL. lia.
  - intros x p _ E. rewrite (G3 x p E). split; [reflexivity|]. rewrite Nat.min_id. now apply zero_held.
Qed.

Lemma encmsg_full o ids st : order_ok o -> In id (mkeys ids) -> ~ In z0 (mkeys ids) -> encst_ok st ->
  exists ct st', EncryptMsg cp encode msg pk u e0 e1 (ckNewCiphertext o cp ids (maxLevel pp) (cp_scale cp)) st = Ok (ct, st') /\ encst_ok st' /\
    c_scale ct = cp_scale cp /\ (forall x p, sget (c_ct ct) x = Some p -> plen p = (maxLevel pp + 1)%nat) /\ (forall x, party (c_ct ct) x <-> In x (mkeys ids)) /\
    ct_rep pp false (maxLevel pp) (c_ct ct) (encF pp (smallpoly u) e a s (smallpoly e0) (smallpoly e1) Mp id (fun _ => pzero)) /\
    forall S, S id = s -> peq N 0 (decryption pp S (encF pp (smallpoly u) e a s (smallpoly e0) (smallpoly e1) Mp id (fun _ => pzero)) (c_ct ct))
       (padd Mp (fresh_noise N s e (smallpoly u) (smallpoly e0) (smallpoly e1))).
Proof.
  intros Ho Hin Hz [S1 S2]. specialize (Henc (en_pt st) S1). pose proof (new_setting o ids _ Ho Henc Hin) as HS.
  destruct (encrypt_into_full pp Hpp _ _ _ _ _ _ _ _ _ _ _ _ _ _ _ _ HS) as (ct' & K & HF & HL & HR & HE). destruct (HE (en_pool st) ltac:(lia)) as (pool' & EE & LP).
  exists (mkCk ct' (cp_scale cp)), (mkEncst (encode (en_pt st) msg) pool'). unfold EncryptMsg, EncryptPtxt. cbn [en_pool c_ct ckNewCiphertext en_pt c_scale].
  rewrite EE. cbn [bind]. destruct (NewCiphertext_ok o pp ids (maxLevel pp) Ho) as (G1 & G2 & G3). pose proof mx_lt as Hm.
  split; [reflexivity|]. split. { split; [|cbn [en_pool]; lia]. cbn [en_pt]. destruct Henc as (_ & -> & _). unfold maxLevel. pose proof (po_Q _ Hpp). lia. }
  split; [reflexivity|]. rewrite Nat.min_id in HR, HL. split.
  { cbn [c_ct]. intros x p E. destruct (string_dec x z0) as [Ex|Hx0]; [exact (HL x p (or_introl Ex) E)|]. destruct (string_dec x id) as [Ex1|Hx1]; [exact (HL x p (or_intror Ex1) E)|].
    rewrite HF in E by (apply (foreign_in); split; [rewrite <- K; eapply mget_key; eauto; exact seqb|auto]). rewrite (G3 x p E). apply repeat_length. }
  split; [|split; [exact HR|]].
  - intros x. unfold party. rewrite K, G2. split; [tauto|]. intros Hx. split; [auto|]. intros ->. auto.
  - intros S HSs. rewrite (enc_decryption pp); rewrite ?K, ?G2; auto; [|rewrite HSs; reflexivity].
    rewrite (psumL_zero N 0). { intros i Hi. apply cong_eq. unfold padd, pzero. lia. }
    intros x _. apply (pmul_zero_r N 0 HN).
Qed.

Lemma encmsg o ids st : order_ok o -> In id (mkeys ids) -> ~ In z0 (mkeys ids) -> encst_ok st ->
  exists ct st', EncryptMsg cp encode msg pk u e0 e1 (ckNewCiphertext o cp ids (maxLevel pp) (cp_scale cp)) st = Ok (ct, st') /\ encst_ok st' /\
    c_scale ct = cp_scale cp /\ (forall x, party (c_ct ct) x <-> In x (mkeys ids)) /\
    ct_rep pp false (maxLevel pp) (c_ct ct) (encF pp (smallpoly u) e a s (smallpoly e0) (smallpoly e1) Mp id (fun _ => pzero)) /\
    forall S, S id = s -> peq N 0 (decryption pp S (encF pp (smallpoly u) e a s (smallpoly e0) (smallpoly e1) Mp id (fun _ => pzero)) (c_ct ct))
       (padd Mp (fresh_noise N s e (smallpoly u) (smallpoly e0) (smallpoly e1))).
Proof. intros H1 H2 H3 H4. destruct (encmsg_full o ids st H1 H2 H3 H4) as (ct & st' & E1 & E2 & E3 & _ & E4). eauto 10. Qed.

Lemma ckDecrypt_run ct F S pool pl : ct_rep pp false (maxLevel pp) (c_ct ct) F -> plen pool = (pl + 1)%nat -> forall V, peq N 0 (decryption pp S F (c_ct ct)) V ->
  forall f, f = p_ntt pool -> let pt' := mkPoly f (limbs_of pp false (Nat.min (maxLevel pp) pl + 1) V) in
  forall o sks, order_ok o -> sks_ok pp S (c_ct ct) sks -> (forall id, party (c_ct ct) id -> has_key sks id) ->
    ckDecrypt cp decode o ct sks pool = Ok (decode pt' (c_scale ct), pt').
Proof.
  intros Hc Hp V HV f -> pt' o sks Ho Hs Hall. destruct (Decrypt_ok pp Hpp false (maxLevel pp) (c_ct ct) F S pl pool Hc Hp) as (pt1 & Q1 & Q2 & Q3 & Q4).
  pose proof mx_lt as Hm. destruct (Q4 o sks Ho Hs) as [Q5 _]. specialize (Q5 Hall).
  unfold ckDecrypt, ckCopyNew, ctCopyNew. destruct (cr_0 _ _ _ _ _ Hc) as (c0 & E0 & _). unfold mptr. rewrite E0. cbn [bind c_ct c_scale]. rewrite Q5. cbn [bind].
  assert (pt1 = pt') as ->; [|reflexivity]. destruct (limbs_of_held pp Hpp false (Nat.min (maxLevel pp) pl) V (p_ntt pool) ltac:(lia)) as [H1 H2]. fold pt' in H1, H2.
  destruct pt1 as [n1 k1]. cbn [p_ntt] in Q1. subst n1. unfold pt'. f_equal. change k1 with (p_co (mkPoly (p_ntt pool) k1)). change (limbs_of pp false _ V) with (p_co pt'). eapply (held_unique pp Hpp false); eauto. intros j Hj. now apply peq_0.
Qed.

Lemma expand_thm o1 o2 ids st1 st2 : order_ok o1 -> order_ok o2 -> In id (mkeys ids) -> ~ In z0 (mkeys ids) -> encst_ok st1 -> encst_ok st2 ->
  exists ct1 ct2 st1' st2', EncryptMsgNew cp encode o1 msg pk u e0 e1 st1 = Ok (ct1, st1') /\ EncryptMsgNewExpand cp encode o2 msg pk ids u e0 e1 st2 = Ok (ct2, st2') /\
    encst_ok st1' /\ encst_ok st2' /\
    c_scale ct1 = cp_scale cp /\ c_scale ct2 = cp_scale cp /\ (forall x, party (c_ct ct1) x <-> x = id) /\ (forall x, party (c_ct ct2) x <-> In x (mkeys ids)) /\
    forall S pool, S id = s -> (0 < plen pool)%nat -> exists m pool',
      (forall o sks, order_ok o -> sks_ok pp S (c_ct ct1) sks -> has_key sks id -> ckDecrypt cp decode o ct1 sks pool = Ok (m, pool')) /\
      (forall o sks, order_ok o -> sks_ok pp S (c_ct ct2) sks -> (forall x, In x (mkeys ids) -> has_key sks x) -> ckDecrypt cp decode o ct2 sks pool = Ok (m, pool')).
Proof.
  intros Ho1 Ho2 Hin Hz S1 S2. unfold EncryptMsgNew, EncryptMsgNewExpand. unfold idAdd at 1. destruct (String.eqb_spec id z0); [congruence|]. cbn [bind].
  destruct (encmsg o1 (sset NewIDSet id tt) st1 Ho1) as (ct1 & st1' & E1 & T1 & C1 & P1 & R1 & D1); auto. { cbn. auto. } { cbn. intros [H|[]]; congruence. }
  destruct (encmsg o2 ids st2 Ho2 Hin Hz S2) as (ct2 & st2' & E2 & T2 & C2 & P2 & R2 & D2).
  exists ct1, ct2, st1', st2'. split; [exact E1|]. split; [exact E2|]. split; [auto|]. split; [auto|]. split; [auto|]. split; [auto|]. split. { intros x. rewrite P1. cbn. intuition. }
  split; [exact P2|]. intros S pool HS Hpool. destruct (plen pool) as [|pl] eqn:EL; [lia|]. rewrite <- Nat.add_1_r in EL.
  do 2 eexists. split.
  - intros o sks Ho Hs Hk. rewrite (ckDecrypt_run ct1 _ S pool pl R1 EL _ (D1 S HS) _ eq_refl o sks Ho Hs); [reflexivity|]. intros x Hx. apply P1 in Hx. cbn in Hx. destruct Hx as [<-|[]]. exact Hk.
  - intros o sks Ho Hs Hk. rewrite (ckDecrypt_run ct2 _ S pool pl R2 EL _ (D2 S HS) _ eq_refl o sks Ho Hs); [now rewrite C1, C2|]. intros x Hx. apply Hk, P2, Hx.
Qed.

Lemma expand_panics o ids st : order_ok o -> ~ In id (mkeys ids) -> encst_ok st -> EncryptMsgNewExpand cp encode o msg pk ids u e0 e1 st = Panic PNil.
Proof.
  intros Ho Hno [S1 S2]. specialize (Henc (en_pt st) S1). destruct (NewCiphertext_ok o pp ids (maxLevel pp) Ho) as (G1 & G2 & G3). pose proof mx_lt as Hm.
  set (ct := NewCiphertext o pp ids (maxLevel pp)) in *. assert (E0 : sget ct z0 = Some (newPoly N (maxLevel pp + 1))).
  { destruct (mget_ex _ seqb ct z0) as (p & E); [apply G2; auto|]. rewrite E. now rewrite (G3 z0 p E). }
  assert (E1 : sget ct id = None). { destruct (sget ct id) eqn:E; auto. exfalso. apply (mget_key _ seqb) in E. apply G2 in E. destruct E; auto. }
  unfold EncryptMsgNewExpand, EncryptMsg, EncryptPtxt. cbn [en_pool c_ct ckNewCiphertext]. fold ct. destruct Henc as (_ & HL & _).
  unfold Encrypt, polyLevel. rewrite HL, Nat.add_1_r. cbn [bind]. unfold ctLevel at 1, mptr at 1. rewrite E0. cbn [bind].
  change (plen (newPoly N (maxLevel pp + 1))) with (List.length (repeat (repeat 0 N) (maxLevel pp + 1))). rewrite repeat_length, Nat.add_1_r. cbn [bind]. unfold mptr at 1. rewrite E0. cbn [bind].
  rewrite Nat.min_id. set (l := maxLevel pp) in *.
  destruct (small_NTT pp Hpp Bu u l (en_pool st) HBu Hu ltac:(lia) ltac:(lia)) as (x1 & x2 & X1 & X2 & Xw & Xn). rewrite X1. cbn [bind]. rewrite X2. cbn [bind].
  destruct (MFormLvl_ok rQ (po_rQ _ Hpp) l x2 x2 _ Xn ltac:(rewrite (wlen Xw); lia)) as (x3 & X3 & Xw3 & Xn3). rewrite X3. cbn [bind].
  destruct (MulMont_ok rQ (po_rQ _ Hpp) l x3 (qQ (pk_0 pk)) (newPoly N (l + 1)) _ _ _ (nrep_nrepb _ _ _ _ Xn3) (proj1 (proj2 Hpk)) ltac:(unfold plen, newPoly; cbn [p_co]; rewrite repeat_length; lia) (montprod_l _ _ _ _)) as (a1 & A1 & _).
  unfold ctUpd at 1, mptr at 1. rewrite E0. cbn [bind]. rewrite A1. cbn [bind]. unfold ctUpd at 1, mptr at 1. rewrite (mget_mset _ seqb).
  destruct (String.eqb_spec id z0); [congruence|]. rewrite E1. reflexivity.
Qed.
End One.

(** * the history of a Decryptor *)
Lemma NewDecryptor_len : plen (NewDecryptor cp) = (maxLevel pp + 1)%nat.
Proof. unfold NewDecryptor. change (plen (ringPoly rQ)) with (plen (qQ (newQP pp))). rewrite (lvQ1 pp Hpp). apply (KeyGenProofs.newQP_shp pp). Qed.

Lemma ckDecrypt_any ct F S l pool pl : ct_rep pp false l (c_ct ct) F -> plen pool = (pl + 1)%nat ->
  let pt' := mkPoly (p_ntt pool) (limbs_of pp false (Nat.min l pl + 1) (decryption pp S F (c_ct ct))) in
  forall o sks, order_ok o -> sks_ok pp S (c_ct ct) sks -> (forall id, party (c_ct ct) id -> has_key sks id) ->
    ckDecrypt cp decode o ct sks pool = Ok (decode pt' (c_scale ct), pt').
Proof.
  intros Hc Hp pt' o sks Ho Hs Hall. destruct (Decrypt_ok pp Hpp false l (c_ct ct) F S pl pool Hc Hp) as (pt1 & Q1 & Q2 & Q3 & Q4).
  pose proof (cr_l _ _ _ _ _ Hc) as Hm. destruct (Q4 o sks Ho Hs) as [Q5 _]. specialize (Q5 Hall).
  unfold ckDecrypt, ckCopyNew, ctCopyNew. destruct (cr_0 _ _ _ _ _ Hc) as (c0 & E0 & _). unfold mptr. rewrite E0. cbn [bind c_ct c_scale]. rewrite Q5. cbn [bind].
  assert (pt1 = pt') as ->; [|reflexivity]. destruct (limbs_of_held pp Hpp false (Nat.min l pl) (decryption pp S F (c_ct ct)) (p_ntt pool) ltac:(lia)) as [H1 H2]. fold pt' in H1, H2.
  destruct pt1 as [n1 k1]. cbn [p_ntt] in Q1. subst n1. unfold pt'. f_equal. change k1 with (p_co (mkPoly (p_ntt pool) k1)). change (limbs_of pp false _ (decryption pp S F (c_ct ct))) with (p_co pt'). eapply (held_unique pp Hpp false); eauto. reflexivity.
Qed.

Lemma plimbs_firstn k n A : (k <= n)%nat -> firstn k (limbs_of pp false n A) = limbs_of pp false k A.
Proof.
  intros H. unfold limbs_of, plimbs. rewrite firstn_map. f_equal. replace n with (k + (n - k))%nat by lia. rewrite seq_app. rewrite firstn_app, seq_length, Nat.sub_diag, firstn_O, app_nil_r.
  rewrite <- (seq_length k 0) at 1. apply firstn_all.
Qed.
Lemma dec_run_len jobs : Forall (job_ok pp) jobs -> forall pool pl, plen pool = (pl + 1)%nat ->
  exists pool', dec_run cp decode jobs pool = Ok pool' /\ plen pool' = (fold_left Nat.min (map jlevel jobs) pl + 1)%nat /\ p_ntt pool' = p_ntt pool.
Proof.
  induction 1 as [|[[[o ct] sks] l] jobs Hj HF IH]; intros pool pl Hp. { exists pool. auto. }
  destruct Hj as (Ho & S & F & Hc & Hs & Hall). unfold dec_run. cbn [foldM]. rewrite (ckDecrypt_any ct F S l pool pl Hc Hp o sks Ho Hs Hall). cbn [bind].
  pose proof (cr_l _ _ _ _ _ Hc) as Hl. destruct (limbs_of_held pp Hpp false (Nat.min l pl) (decryption pp S F (c_ct ct)) (p_ntt pool) ltac:(lia)) as [_ HL].
  destruct (IH _ _ HL) as (pool' & E & L & Fl). exists pool'. split; [exact E|]. cbn [map fold_left jlevel snd]. rewrite (Nat.min_comm pl l). auto.
Qed.
Lemma fold_min_le L : forall m, (fold_left Nat.min L m <= m)%nat.
Proof. induction L as [|a L IH]; intros m; cbn; [lia|]. specialize (IH (Nat.min m a)). lia. Qed.

Lemma history_thm jobs o ct sks l : Forall (job_ok pp) jobs -> job_ok pp (o, ct, sks, l) ->
  let m := Nat.min l (fold_left Nat.min (map jlevel jobs) (maxLevel pp)) in
  exists pool pt ptf, dec_run cp decode jobs (NewDecryptor cp) = Ok pool /\
    ckDecrypt cp decode o ct sks pool = Ok (decode pt (c_scale ct), pt) /\ ckDecrypt cp decode o ct sks (NewDecryptor cp) = Ok (decode ptf (c_scale ct), ptf) /\
    p_ntt pt = p_ntt ptf /\ plen pt = (m + 1)%nat /\ plen ptf = (l + 1)%nat /\ p_co pt = firstn (m + 1) (p_co ptf) /\ (pt = ptf <-> m = l) /\
    forall v, held pp false (fun q => q) l ptf v -> (forall i, (i < N)%nat -> 2 * Z.abs (v i) < Ql pp m) -> centred_value pp m false pt v.
Proof.
  intros HF Hj m. destruct (dec_run_len jobs HF (NewDecryptor cp) (maxLevel pp) NewDecryptor_len) as (pool & E & L & Fl).
  destruct Hj as (Ho & S & F & Hc & Hs & Hall). pose proof (cr_l _ _ _ _ _ Hc) as Hl. pose proof (lvQ1 pp Hpp) as Hq.
  pose proof (fold_min_le (map jlevel jobs) (maxLevel pp)) as Hle.
  set (pt := mkPoly (p_ntt pool) (limbs_of pp false (m + 1) (decryption pp S F (c_ct ct)))). set (ptf := mkPoly (p_ntt (NewDecryptor cp)) (limbs_of pp false (l + 1) (decryption pp S F (c_ct ct)))).
  exists pool, pt, ptf. split; [exact E|]. split; [exact (ckDecrypt_any ct F S l pool _ Hc L o sks Ho Hs Hall)|].
  split. { pose proof (ckDecrypt_any ct F S l (NewDecryptor cp) _ Hc NewDecryptor_len o sks Ho Hs Hall) as H. rewrite (Nat.min_l l) in H by lia. exact H. }
  destruct (limbs_of_held pp Hpp false m (decryption pp S F (c_ct ct)) (p_ntt pool) ltac:(lia)) as [H1 L1]. destruct (limbs_of_held pp Hpp false l (decryption pp S F (c_ct ct)) (p_ntt (NewDecryptor cp)) ltac:(lia)) as [H2 L2].
  split; [exact Fl|]. split; [exact L1|]. split; [exact L2|]. assert (Hco : p_co pt = firstn (m + 1) (p_co ptf)) by (cbn [p_co pt ptf]; rewrite plimbs_firstn; auto; lia). split; [exact Hco|]. split.
  - split; [intros EQ; fold pt in L1; fold ptf in L2; rewrite EQ in L1; lia|]. intros EQ. unfold pt, ptf. rewrite EQ. f_equal. exact Fl.
  - intros v Hv HB. apply (centred_ok pp Hpp false (fun q => q)); auto. unfold held in *. apply (prep_le rQ _ (l + 1) (m + 1)) in Hv; [|lia].
    eapply prep_ext; [| |exact Hv]; [unfold plen in L1; fold pt in L1; rewrite L1; lia|]. intros j Hj. rewrite Hco. now apply nth_firstn_lt.
Qed.
End Ck.
