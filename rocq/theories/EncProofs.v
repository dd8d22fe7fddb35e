(** Encryption and decryption: what Encrypt, PartialDecrypt and Decrypt compute. *)
From Coq Require Import String ZArith Znumtheory List Lia Setoid Morphisms Bool Permutation.
From Verif Require Import Spec SpecProofs Go GoProofs Lattigo LattigoProofs Arith NegRing NegRingProofs NTT NTTProofs F64 BasisExt BasisExtProofs ModDownProofs DecomposeProofs RingOps RingOpsProofs Maps MapsProofs Params Elements KeySwitch KeySets KeyGen EncDec KSProofs KSMulProofs KSAlg KSNorm Crt ParamsProofs KeyGenProofs SpecCt KSSem SpecEnc.
Import ListNotations.
Local Open Scope Z_scope.
Local Open Scope list_scope.

Notation z0 := "0"%string.

Lemma nth_firstn_lt {A} (l : list A) n j d : (j < n)%nat -> nth j (firstn n l) d = nth j l d.
Proof. revert n j. induction l as [|x l IH]; intros [|n] [|j] H; cbn; auto; try lia. apply IH. lia. Qed.
(** * ciphertexts with two components singled out *)
Lemma sset_get {A} (m : smap A) k v : NoDup (mkeys m) -> sget m k = Some v -> sset m k v = m.
Proof.
  intros Hnd E. apply mget_eq.
  - apply (mkeys_mset_in _ seqb). eapply mget_key; eauto. exact seqb.
  - now apply mset_nodup; [exact seqb|].
  - intros x _. rewrite (mget_mset _ seqb). destruct (String.eqb_spec x k) as [->|]; auto.
Qed.
Section Two.
Context (ct : ciphertext) (id : string) (Hid : id <> z0) (Hnd : NoDup (mkeys ct)) (H0 : In z0 (mkeys ct)) (H1 : In id (mkeys ct)).
Definition st2 (a b : poly) : ciphertext := sset (sset ct z0 a) id b.
Lemma st2_keys a b : mkeys (st2 a b) = mkeys ct.
Proof. unfold st2. rewrite (mkeys_mset_in _ seqb); rewrite (mkeys_mset_in _ seqb); auto. Qed.
Lemma st2_nd a b : NoDup (mkeys (st2 a b)). Proof. now rewrite st2_keys. Qed.
Lemma st2_get a b x : sget (st2 a b) x = if String.eqb x id then Some b else if String.eqb x z0 then Some a else sget ct x.
Proof. unfold st2. rewrite !(mget_mset _ seqb). reflexivity. Qed.
Lemma st2_0 a b : sget (st2 a b) z0 = Some a.
Proof. rewrite st2_get. destruct (String.eqb_spec z0 id); [congruence|]. now rewrite String.eqb_refl. Qed.
Lemma st2_1 a b : sget (st2 a b) id = Some b.
Proof. rewrite st2_get. now rewrite String.eqb_refl. Qed.
Lemma st2_upd0 a b f : ctUpd (st2 a b) z0 f = bind (f a) (fun a' => Ok (st2 a' b)).
Proof.
  unfold ctUpd, mptr. rewrite st2_0. cbn [bind]. destruct (f a) as [a'|]; cbn [bind]; auto. f_equal. apply mget_eq.
  - rewrite (mkeys_mset_in _ seqb); rewrite !st2_keys; auto.
  - apply mset_nodup; [exact seqb|apply st2_nd].
  - intros x _. rewrite (mget_mset _ seqb), !st2_get. destruct (String.eqb_spec x z0) as [->|]; auto. destruct (String.eqb_spec z0 id); congruence.
Qed.
Lemma st2_upd1 a b f : ctUpd (st2 a b) id f = bind (f b) (fun b' => Ok (st2 a b')).
Proof.
  unfold ctUpd, mptr. rewrite st2_1. cbn [bind]. destruct (f b) as [b'|]; cbn [bind]; auto. f_equal. apply mget_eq.
  - rewrite (mkeys_mset_in _ seqb); rewrite !st2_keys; auto.
  - apply mset_nodup; [exact seqb|apply st2_nd].
  - intros x _. rewrite (mget_mset _ seqb), !st2_get. destruct (String.eqb_spec x id) as [->|]; auto.
Qed.
Lemma st2_id c0 c1 : sget ct z0 = Some c0 -> sget ct id = Some c1 -> ct = st2 c0 c1.
Proof.
  intros E0 E1. apply mget_eq; auto. { now rewrite st2_keys. }
  intros x _. rewrite st2_get. destruct (String.eqb_spec x id) as [->|]; auto. destruct (String.eqb_spec x z0) as [->|]; auto.
Qed.
Lemma st2_lev a b l : plen a = (l + 1)%nat -> ctLevel (st2 a b) = Ok l.
Proof. intros H. unfold ctLevel, mptr. rewrite st2_0. cbn [bind]. rewrite H, Nat.add_1_r. reflexivity. Qed.
End Two.

Section Enc.
Context (pp : params) (Hpp : params_ok pp).
Notation N := (pa_N pp).
Notation rQ := (ringQ pp).
Notation qq j := (nth j (pa_Q pp) 0).
Notation id_b := (fun q : Z => q).
Let HrQ : ring_ok rQ := po_rQ _ Hpp.
Let HN : (0 < N)%nat := deg_pos _.

Lemma held_peq f b l p A B : (forall j, (j <= l)%nat -> peq N (qq j) A B) -> held pp f b l p A -> held pp f b l p B.
Proof. intros H. unfold held. destruct f; [apply nrep_peq; auto; intros; apply H; lia|apply prep_peq; intros; apply H; lia]. Qed.
Lemma held_mono f b b' l p A : (forall q, b q <= b' q) -> held pp f b l p A -> held pp f b' l p A.
Proof. intros H. unfold held. destruct f; auto. apply prep_mono. intros; apply H. Qed.
Lemma held_le f b l l' p A : (l' <= l)%nat -> held pp f b l p A -> held pp f b l' p A.
Proof. intros H. unfold held. destruct f; [apply nrep_le|apply prep_le]; lia. Qed.
Lemma held_len f b l p A : held pp f b l p A -> (l < QCount pp)%nat /\ (l + 1 <= plen p)%nat.
Proof. unfold held, plen, QCount. destruct f; intros (H1 & H2 & _); cbn [r_mods ringQ] in *; lia. Qed.
Lemma held_trunc f b l p A p' : held pp f b l p A -> pTrunc (l + 1) p = Ok p' -> held pp f b l p' A /\ plen p' = (l + 1)%nat /\ p_ntt p' = p_ntt p.
Proof.
  intros H E. pose proof (held_len _ _ _ _ _ H) as [H1 H2]. unfold pTrunc in E. destruct (Nat.leb_spec (l + 1) (plen p)); [|lia]. injection E as <-.
  cbn [p_co p_ntt plen]. unfold plen in *. assert (HL : List.length (firstn (l + 1) (p_co p)) = (l + 1)%nat) by (rewrite firstn_length; lia).
  split; [|auto]. unfold held in *. destruct f; cbn [p_co] in *.
  - eapply nrep_ext; [|intros j Hj; apply nth_firstn_lt; lia|exact H]. lia.
  - eapply prep_ext; [|intros j Hj; apply nth_firstn_lt; lia|exact H]. lia.
Qed.
Lemma held_unique f l p p' A B : held pp f id_b l p A -> held pp f id_b l p' B -> (forall j, (j <= l)%nat -> peq N (qq j) A B) ->
  plen p = (l + 1)%nat -> plen p' = (l + 1)%nat -> p_co p = p_co p'.
Proof.
  intros H1 H2 HE L1 L2. unfold plen in *. apply (nth_ext _ _ [] []); [lia|]. intros j Hj. unfold held in *. destruct f.
  - eapply (nrep_unique rQ (l + 1)); [|exact H2|lia]. eapply nrep_peq; [exact HrQ| |exact H1]. intros; apply HE; lia.
  - eapply prep_unique; [exact H1|exact H2|lia|]. apply HE. lia.
Qed.
Lemma qbig j : (j < QCount pp)%nat -> 1 < qq j /\ 8 * qq j < W.
Proof. intros H. apply (ring_q1 rQ j HrQ). exact H. Qed.

Lemma readAndAdd_ok l l' e dst X B : small_ok N B e -> bound_ok pp B -> (l' <= l < QCount pp)%nat -> (l < plen dst)%nat ->
  prep rQ id_b (l' + 1) (p_co dst) X ->
  exists d, readAndAdd rQ l e dst = Ok d /\ wrote (l + 1) dst d /\ prep rQ id_b (l' + 1) (p_co d) (padd X (smallpoly e)).
Proof.
  intros [He1 He2] HB Hl Hd (H1 & H2 & H3). unfold readAndAdd.
  rewrite (mapM_ok _ (fun j => pw2 (fun a b => CRed (wadd a b) (qq j)) (nth j (p_co dst) []) (map (fun '(s, c) => if s : bool then c else wsub (qq j) c) e))).
  2:{ intros j Hj. apply in_seq in Hj. cbn [r_mods ringQ]. rewrite (idx_nth _ _ 0) by (unfold QCount in Hl; lia). cbn [bind]. rewrite (idx_nth _ _ []) by (unfold plen in Hd; lia). reflexivity. }
  cbn [bind]. set (ls := map _ (seq 0 (l + 1))). destruct (write_ok l ls dst) as (d & E & Hw & Hn); [unfold ls; now rewrite map_length, seq_length|exact Hd|].
  rewrite E. exists d. split; [reflexivity|]. split; [auto|]. pose proof Hw as (_ & HL & _). split; [auto|]. split; [unfold plen in *; lia|].
  intros j Hj. rewrite Hn by lia. unfold ls. rewrite nth_map_seq by lia. cbn [r_mods ringQ]. pose proof (ring_okm rQ j HrQ ltac:(lia)) as Hok. cbn [r_mods ringQ] in Hok.
  pose proof (bound_Q pp B j HB ltac:(lia)) as HBj. destruct HB as [HB0 _]. destruct (qbig j ltac:(lia)) as [Q1 Q2].
  eapply (pw2_lrep N _ (qq j) (qq j + 1)); [apply (H3 j Hj)| |].
  - split; [now rewrite map_length|]. intros i Hi. instantiate (1 := smallpoly e). rewrite (nth_mapl _ _ _ (true, 0)) by lia. unfold smallpoly. rewrite Forall_forall in He2.
    specialize (He2 (nth i e (true, 0)) ltac:(apply nth_In; lia)). destruct (nth i e (true, 0)) as [[] c]; cbn [snd] in He2.
    + split; [lia|reflexivity].
    + unfold wsub. rewrite wrap_small by lia. split; [lia|]. exists 1. ring.
  - intros i u v Hi Hu Hv Cu Cv. cbn beta. destruct (CRed_add_spec u v (qq j) (qq j) (qq j + 1) (qq j) Hok) as [HB2 HC2]; try lia. split; auto. rewrite HC2, Cu, Cv. reflexivity.
Qed.

(** NTT-domain and coefficient-domain sums in one statement *)
Lemma AddLvl_held f bx by_ l a b dst X Y : held pp f bx l a X -> held pp f by_ l b Y -> (l < plen dst)%nat ->
  (forall q, bx q + by_ q <= 2 * q + 1) ->
  exists d, AddLvl rQ l a b dst = Ok d /\ wrote (l + 1) dst d /\ held pp f id_b l d (padd X Y).
Proof.
  intros H1 H2 Hd HB. unfold held in *. destruct f.
  - now apply AddLvl_ntt_ok.
  - apply (AddLvl_ok rQ HrQ bx by_); auto. intros q. specialize (HB q). lia.
Qed.
Lemma wlen {n dst d} : wrote n dst d -> plen d = plen dst. Proof. intros (_ & H & _). exact H. Qed.
Lemma wntt {n dst d} : wrote n dst d -> p_ntt d = p_ntt dst. Proof. intros (H & _). exact H. Qed.

Lemma small_bQ B e l dst : bound_ok pp B -> small_ok N B e -> (l < QCount pp)%nat -> (l < plen dst)%nat ->
  exists d, readSmall rQ l e dst = Ok d /\ wrote (l + 1) dst d /\ prep rQ (fun q => q + 1) (l + 1) (p_co d) (smallpoly e).
Proof.
  intros HB He Hl Hd. destruct (readSmall_ok rQ l e dst B HrQ Hl Hd He) as (d & E & Hw & Hp & _); [|eauto].
  intros j Hj. apply (bound_Q pp); auto. lia.
Qed.
Lemma small_NTT B e l dst : bound_ok pp B -> small_ok N B e -> (l < QCount pp)%nat -> (l < plen dst)%nat ->
  exists x d, readSmall rQ l e dst = Ok x /\ NTTLvl rQ l x x = Ok d /\ wrote (l + 1) dst d /\ nrep rQ (l + 1) (p_co d) (smallpoly e).
Proof.
  intros HB He Hl Hd. destruct (small_bQ B e l dst HB He Hl Hd) as (x & E & Hw & Hp).
  destruct (NTTLvl_ok rQ HrQ _ l x x _ Hp) as (d & E' & Hw' & Hn); [rewrite (wlen Hw); auto|].
  exists x, d. split; [auto|]. split; [auto|]. split; [|exact Hn]. eapply wrote_trans; eauto.
Qed.

Ltac sub1 E := rewrite E; cbn [bind].
Lemma Encrypt_ok pt pl M pk s e a u e0 e1 Bu B ct cl c0 c1 pool :
  plaintext_is pp pl pt M -> pk_is pp pk s e a -> pk_ID pk <> z0 -> bound_ok pp Bu -> bound_ok pp B ->
  small_ok N Bu u -> small_ok N B e0 -> small_ok N B e1 ->
  NoDup (mkeys ct) -> sget ct z0 = Some c0 -> sget ct (pk_ID pk) = Some c1 -> plen c0 = (cl + 1)%nat -> (cl < QCount pp)%nat -> (cl < plen c1)%nat ->
  (QCount pp <= plen pool)%nat ->
  exists p0 p1 pool', Encrypt pp pt pk u e0 e1 ct pool = Ok (sset (sset ct z0 p0) (pk_ID pk) p1, pool') /\
    let l := Nat.min pl cl in
    p_ntt p0 = p_ntt c0 /\ p_ntt p1 = p_ntt c0 /\ plen p0 = (l + 1)%nat /\ plen p1 = (l + 1)%nat /\
    held pp (p_ntt c0) id_b l p0 (padd (padd (pmul N (smallpoly u) (psub e (pmul N s a))) (smallpoly e0)) M) /\
    held pp (p_ntt c0) id_b l p1 (padd (pmul N (smallpoly u) a) (smallpoly e1)) /\ plen pool' = plen pool.
Proof.
  intros (Hpl & Hpt & HM) [Hk1 Hk0] Hid HBu HB Hu He0 He1 Hnd E0 E1 Hc0 Hcl Hc1 Hpool. set (id := pk_ID pk) in *.
  set (l := Nat.min pl cl). assert (Hl : (l <= pl /\ l <= cl /\ l < QCount pp)%nat) by lia.
  assert (I0 : In z0 (mkeys ct)) by (eapply mget_key; eauto; exact seqb). assert (I1 : In id (mkeys ct)) by (eapply mget_key; eauto; exact seqb).
  assert (Hmx : (l + 1 <= maxLevel pp + 1)%nat) by (unfold maxLevel; lia).
  replace (Encrypt pp pt pk u e0 e1 ct pool) with (Encrypt pp pt pk u e0 e1 (st2 ct id c0 c1) pool) by (now rewrite <- (st2_id ct id Hnd I0 I1 c0 c1 E0 E1)).
  unfold Encrypt. fold id. unfold polyLevel. rewrite Hpt. rewrite (Nat.add_1_r pl). cbn [bind].
  rewrite (st2_lev ct id Hid c0 c1 cl Hc0). cbn [bind]. fold l.
  unfold mptr at 1. rewrite (st2_0 ct id Hid). cbn [bind].
  destruct (small_NTT Bu u l pool HBu Hu ltac:(lia) ltac:(lia)) as (x1 & x2 & X1 & X2 & Xw & Xn). sub1 X1. sub1 X2.
  destruct (MFormLvl_ok rQ HrQ l x2 x2 _ Xn ltac:(rewrite (wlen Xw); lia)) as (x3 & X3 & Xw3 & Xn3). sub1 X3.
  rewrite (st2_upd0 ct id Hid Hnd I0 I1).
  destruct (MulMont_ok rQ HrQ l x3 (qQ (pk_0 pk)) c0 _ _ _ (nrep_nrepb _ _ _ _ Xn3) (nrep_le _ _ _ _ _ Hmx (proj1 Hk0)) ltac:(lia) (montprod_l _ _ _ _)) as (a1 & A1 & Aw1 & An1).
  sub1 A1. rewrite (st2_upd1 ct id Hnd I0 I1).
  destruct (MulMont_ok rQ HrQ l x3 (qQ (pk_1 pk)) c1 _ _ _ (nrep_nrepb _ _ _ _ Xn3) (nrep_le _ _ _ _ _ Hmx (proj1 Hk1)) ltac:(lia) (montprod_l _ _ _ _)) as (b1 & B1 & Bw1 & Bn1).
  sub1 B1. assert (Lx3 : plen x3 = plen pool) by (rewrite (wlen Xw3), (wlen Xw); auto).
  set (U0 := pmul (r_N rQ) (smallpoly u) (psub e (pmul N s a))) in *. set (U1 := pmul (r_N rQ) (smallpoly u) a) in *.
  assert (FIN : forall a' b' pool', wrote (cl + 1) c0 a' -> wrote (cl + 1) c1 b' -> held pp (p_ntt c0) id_b l a' (padd (padd U0 (smallpoly e0)) M) -> 
      held pp (p_ntt c0) id_b l b' (padd U1 (smallpoly e1)) -> plen pool' = plen pool ->
      exists p0 p1 pool'', (let* (ct1, pool1) := Ok (st2 ct id a' b', pool') in
        let* c2 := sptr ct1 z0 in let* ct2 := ctUpd ct1 id (fun p => Ok (setNTT (p_ntt c2) p)) in
        let* ct3 := ctUpd ct2 z0 (pTrunc (l + 1)) in let* ct4 := ctUpd ct3 id (pTrunc (l + 1)) in Ok (ct4, pool1)) = Ok (sset (sset ct z0 p0) id p1, pool'') /\
       p_ntt p0 = p_ntt c0 /\ p_ntt p1 = p_ntt c0 /\ plen p0 = (l + 1)%nat /\ plen p1 = (l + 1)%nat /\
       held pp (p_ntt c0) id_b l p0 (padd (padd U0 (smallpoly e0)) M) /\ held pp (p_ntt c0) id_b l p1 (padd U1 (smallpoly e1)) /\ plen pool'' = plen pool).
  { intros a' b' pool' Wa Wb Ha Hb HP. cbn [bind]. unfold mptr. rewrite (st2_0 ct id Hid). cbn [bind]. rewrite (st2_upd1 ct id Hnd I0 I1). cbn [bind].
    rewrite (st2_upd0 ct id Hid Hnd I0 I1).
    assert (T : forall p, (l + 1 <= plen p)%nat -> exists p', pTrunc (l + 1) p = Ok p'). { intros p Hp. unfold pTrunc. destruct (Nat.leb_spec (l + 1) (plen p)); [eauto|lia]. }
    destruct (T a') as (a2 & Ta); [rewrite (wlen Wa); lia|]. destruct (T (setNTT (p_ntt a') b')) as (b2 & Tb); [change (plen (setNTT (p_ntt a') b')) with (plen b'); rewrite (wlen Wb); lia|].
    sub1 Ta. rewrite (st2_upd1 ct id Hnd I0 I1). sub1 Tb. exists a2, b2, pool'. split; [reflexivity|].
    destruct (held_trunc _ _ _ _ _ _ Ha Ta) as (A2 & L2 & F2). destruct (held_trunc (p_ntt c0) id_b l (setNTT (p_ntt a') b') (padd U1 (smallpoly e1)) b2 Hb Tb) as (A3 & L3 & F3).
    cbn [p_ntt setNTT] in F3. rewrite (wntt Wa) in F2, F3. repeat split; auto. }
  assert (WX : forall c d, wrote (l + 1) c d -> wrote (cl + 1) c d) by (intros c d (G1 & G2 & G3); repeat split; auto; intros; apply G3; lia).
  destruct (p_ntt c0) eqn:Ef.
  - (* NTT ciphertext *)
    destruct (small_NTT B e1 l x3 HB He1 ltac:(lia) ltac:(lia)) as (y1 & y2 & Y1 & Y2 & Yw & Yn). sub1 Y1. sub1 Y2. rewrite (st2_upd1 ct id Hnd I0 I1).
    destruct (AddLvl_ntt_ok rQ HrQ l b1 y2 b1 _ _ Bn1 Yn ltac:(rewrite (wlen Bw1); lia)) as (b2 & B2 & Bw2 & Bn2). sub1 B2.
    destruct (p_ntt pt) eqn:Ept; cbn [negb].
    + destruct (small_NTT B e0 l y2 HB He0 ltac:(lia) ltac:(rewrite (wlen Yw); lia)) as (w1 & w2 & W1 & W2 & Ww & Wn). sub1 W1. sub1 W2. rewrite (st2_upd0 ct id Hid Hnd I0 I1).
      destruct (AddLvl_ntt_ok rQ HrQ l a1 w2 a1 _ _ An1 Wn ltac:(rewrite (wlen Aw1); lia)) as (a2 & A2 & Aw2 & An2). sub1 A2. rewrite (st2_upd0 ct id Hid Hnd I0 I1).
      destruct (AddLvl_ntt_ok rQ HrQ l a2 pt a2 _ M An2 ltac:(unfold held in HM; eapply nrep_le; [|exact HM]; lia) ltac:(rewrite (wlen Aw2), (wlen Aw1); lia)) as (a3 & A3 & Aw3 & An3). sub1 A3.
      apply FIN; auto. * apply WX. eapply wrote_trans; [eapply wrote_trans|]; eauto. * apply WX. eapply wrote_trans; eauto. * rewrite (wlen Ww), (wlen Yw); auto.
    + destruct (small_bQ B e0 l y2 HB He0 ltac:(lia) ltac:(rewrite (wlen Yw); lia)) as (w1 & W1 & Ww & Wp). sub1 W1.
      destruct (AddLvl_ok rQ HrQ (fun q => q + 1) (fun q => q + 1) (fun q => q + 1) l w1 pt w1 _ M Wp ltac:(unfold held in HM; eapply prep_le; [|exact HM]; lia) ltac:(rewrite (wlen Ww), (wlen Yw); lia) ltac:(intros; cbn beta; lia)) as (w2 & W2 & Ww2 & Wp2). sub1 W2.
      destruct (NTTLvl_ok rQ HrQ _ l w2 w2 _ Wp2 ltac:(rewrite (wlen Ww2), (wlen Ww), (wlen Yw); lia)) as (w3 & W3 & Ww3 & Wn3). sub1 W3. rewrite (st2_upd0 ct id Hid Hnd I0 I1).
      destruct (AddLvl_ntt_ok rQ HrQ l a1 w3 a1 _ _ An1 Wn3 ltac:(rewrite (wlen Aw1); lia)) as (a2 & A2 & Aw2 & An2). sub1 A2.
      apply FIN; auto. * apply WX. eapply wrote_trans; eauto. * apply WX. eapply wrote_trans; eauto.
      * unfold held. eapply nrep_peq; [exact HrQ| |exact An2]. intros j Hj i Hi. apply cong_eq. unfold padd. ring.
      * rewrite (wlen Ww3), (wlen Ww2), (wlen Ww), (wlen Yw); auto.
  - (* coefficient-form ciphertext *)
    rewrite (st2_upd0 ct id Hid Hnd I0 I1). destruct (InvNTTLvl_ok rQ HrQ l a1 a1 _ An1 ltac:(rewrite (wlen Aw1); lia)) as (a2 & A2 & Aw2 & Ap2). sub1 A2.
    rewrite (st2_upd1 ct id Hnd I0 I1). destruct (InvNTTLvl_ok rQ HrQ l b1 b1 _ Bn1 ltac:(rewrite (wlen Bw1); lia)) as (b2 & B2 & Bw2 & Bp2). sub1 B2.
    assert (La2 : plen a2 = (cl + 1)%nat) by (rewrite (wlen Aw2), (wlen Aw1); auto).
    rewrite (st2_lev ct id Hid a2 b2 cl La2). cbn [bind]. rewrite (st2_upd0 ct id Hid Hnd I0 I1).
    destruct (readAndAdd_ok cl l e0 a2 _ B He0 HB ltac:(lia) ltac:(lia) Ap2) as (a3 & A3 & Aw3 & Ap3). sub1 A3.
    rewrite (st2_lev ct id Hid a3 b2 cl ltac:(rewrite (wlen Aw3); auto)). cbn [bind]. rewrite (st2_upd1 ct id Hnd I0 I1).
    destruct (readAndAdd_ok cl l e1 b2 _ B He1 HB ltac:(lia) ltac:(rewrite (wlen Bw2), (wlen Bw1); lia) Bp2) as (b3 & B3 & Bw3 & Bp3). sub1 B3.
    assert (WA3 : wrote (cl + 1) c0 a3) by (eapply wrote_trans; [|exact Aw3]; apply WX; eapply wrote_trans; eauto).
    assert (WB3 : wrote (cl + 1) c1 b3) by (eapply wrote_trans; [|exact Bw3]; apply WX; eapply wrote_trans; eauto).
    destruct (p_ntt pt) eqn:Ept; cbn [negb].
    + destruct (InvNTTLvl_ok rQ HrQ l pt x3 M ltac:(unfold held in HM; eapply nrep_le; [|exact HM]; lia) ltac:(lia)) as (w1 & W1 & Ww & Wp). sub1 W1. rewrite (st2_upd0 ct id Hid Hnd I0 I1).
      destruct (AddLvl_ok rQ HrQ id_b id_b id_b l a3 w1 a3 _ M Ap3 Wp ltac:(rewrite (wlen WA3); lia) ltac:(intros; cbn beta; lia)) as (a4 & A4 & Aw4 & Ap4). sub1 A4.
      apply FIN; auto. * eapply wrote_trans; [exact WA3|]. now apply WX. * rewrite (wlen Ww); auto.
    + rewrite (st2_upd0 ct id Hid Hnd I0 I1).
      destruct (AddLvl_ok rQ HrQ id_b (fun q => q + 1) id_b l a3 pt a3 _ M Ap3 ltac:(unfold held in HM; eapply prep_le; [|exact HM]; lia) ltac:(rewrite (wlen WA3); lia) ltac:(intros; cbn beta; lia)) as (a4 & A4 & Aw4 & Ap4). sub1 A4.
      apply FIN; auto. eapply wrote_trans; [exact WA3|]. now apply WX.
Qed.

(** * decryption *)
Add Ring nring0 : (peq_ring N 0 HN) (setoid (peq_equiv N 0) (peq_ext N 0)).
Lemma peq0_all A B : peq N 0 A B -> forall j, peq N (qq j) A B.
Proof. intros H j. now apply peq_0. Qed.

Lemma MulSk_ok ntt b l p sk s A : held pp ntt b l p A -> (forall q, b q <= q + 1) -> sk_is pp sk s -> p_ntt p = ntt -> 
  exists d, (let* p := if negb ntt then NTTLvl rQ l p p else Ok p in
             let* p := MulCoeffsMontgomeryLvl rQ l p (qQ (sk_val sk)) p in
             if negb ntt then InvNTTLvl rQ l p p else Ok p) = Ok d /\ wrote (l + 1) p d /\ held pp ntt id_b l d (pmul N s A).
Proof.
  intros HA Hb [[Hs _] _] Hf. pose proof (held_len _ _ _ _ _ HA) as [L1 L2]. assert (Hmx : (l + 1 <= maxLevel pp + 1)%nat) by (unfold maxLevel; lia).
  apply (nrep_le _ _ _ _ _ Hmx) in Hs.
  assert (HC : peq N 0 (pmul N A s) (pmul N s A)) by ring. unfold held in *.
  destruct ntt; cbn [negb bind].
  - destruct (MulMont_ok rQ HrQ l p (qQ (sk_val sk)) p A (pscale W s) (pmul N A s) (nrep_nrepb _ _ _ _ HA) Hs ltac:(lia) (montprod_r _ _ _ _)) as (d & E & Hw & Hn).
    rewrite E. cbn [bind]. exists d. split; [auto|]. split; [auto|]. eapply nrep_peq; [exact HrQ| |exact Hn]. intros; now apply peq0_all.
  - destruct (NTTLvl_ok rQ HrQ b l p p A HA ltac:(lia)) as (x & E & Hw & Hn). rewrite E. cbn [bind].
    destruct (MulMont_ok rQ HrQ l x (qQ (sk_val sk)) x A (pscale W s) (pmul N A s) (nrep_nrepb _ _ _ _ Hn) Hs ltac:(rewrite (wlen Hw); lia) (montprod_r _ _ _ _)) as (y & E2 & Hw2 & Hn2).
    rewrite E2. cbn [bind]. destruct (InvNTTLvl_ok rQ HrQ l y y _ Hn2 ltac:(rewrite (wlen Hw2), (wlen Hw); lia)) as (d & E3 & Hw3 & Hp).
    exists d. split; [auto|]. split; [eapply wrote_trans; [exact Hw|]; eapply wrote_trans; eauto|]. eapply prep_peq; [|exact Hp]. intros; now apply peq0_all.
Qed.

Definition addF (F : string -> zpoly) (A : zpoly) (id : string) : zpoly := if String.eqb id z0 then padd (F z0) A else F id.
Lemma PartialDecrypt_ok ntt l ct F sk s : ct_rep pp ntt l ct F -> party ct (sk_ID sk) -> sk_is pp sk s ->
  exists ct' p0, PartialDecrypt pp ct sk = Ok ct' /\ ct_rep pp ntt l ct' (addF F (pmul N s (F (sk_ID sk)))) /\
    (forall x, In x (mkeys ct') <-> In x (mkeys ct) /\ x <> sk_ID sk) /\ sget ct' z0 = Some p0 /\ held pp ntt id_b l p0 (padd (F z0) (pmul N s (F (sk_ID sk)))) /\
    (forall x, x <> z0 -> x <> sk_ID sk -> sget ct' x = sget ct x).
Proof.
  intros [Hnd Hl (c0 & E0 & L0) Hc] [Hin Hid] Hs. set (id := sk_ID sk) in *. destruct (mget_ex _ seqb ct id Hin) as (c1 & E1).
  destruct (Hc _ _ E0) as [F0 R0]. destruct (Hc _ _ E1) as [F1 R1].
  assert (I0 : In z0 (mkeys ct)) by (eapply mget_key; eauto; exact seqb).
  destruct (MulSk_ok ntt _ l c1 sk s (F id) R1 ltac:(intros; cbn beta; lia) Hs F1) as (d & Ed & Wd & Hd).
  destruct (AddLvl_held ntt (fun q => q + 1) id_b l c0 d c0 _ _ R0 Hd ltac:(lia) ltac:(intros; cbn beta; lia)) as (a & Ea & Wa & Ha).
  exists (sdel (st2 ct id a d) id), a. split.
  { replace (PartialDecrypt pp ct sk) with (PartialDecrypt pp (st2 ct id c0 c1) sk) by (now rewrite <- (st2_id ct id Hnd I0 Hin c0 c1 E0 E1)).
    unfold PartialDecrypt. fold id. rewrite (st2_lev ct id Hid c0 c1 l L0). cbn [bind]. unfold mptr. rewrite (st2_1 ct id). cbn [bind]. rewrite F1.
    destruct ntt; cbn [negb bind] in *.
    - rewrite (st2_upd1 ct id Hnd I0 Hin). revert Ed. destruct (MulCoeffsMontgomeryLvl rQ l c1 (qQ (sk_val sk)) c1) as [d'|]; cbn [bind]; [|discriminate]. intros [= ->].
      rewrite (st2_1 ct id). cbn [bind]. rewrite (st2_upd0 ct id Hid Hnd I0 Hin). rewrite Ea. reflexivity.
    - rewrite (st2_upd1 ct id Hnd I0 Hin). revert Ed. destruct (NTTLvl rQ l c1 c1) as [x|]; cbn [bind]; [|discriminate].
      rewrite (st2_upd1 ct id Hnd I0 Hin). destruct (MulCoeffsMontgomeryLvl rQ l x (qQ (sk_val sk)) x) as [y|]; cbn [bind]; [|discriminate].
      rewrite (st2_upd1 ct id Hnd I0 Hin). intros ->. cbn [bind]. rewrite (st2_1 ct id). cbn [bind]. rewrite (st2_upd0 ct id Hid Hnd I0 Hin). rewrite Ea. reflexivity. }
  assert (HG : forall x, sget (sdel (st2 ct id a d) id) x = if String.eqb x id then None else if String.eqb x z0 then Some a else sget ct x).
  { intros x. rewrite (mget_mdel _ seqb), st2_get. destruct (String.eqb x id); auto. }
  assert (G0 : sget (sdel (st2 ct id a d) id) z0 = Some a). { rewrite HG. destruct (String.eqb_spec z0 id); [congruence|reflexivity]. }
  split; [|split; [|split; [exact G0|split; [exact Ha|]]]].
  - constructor; auto.
    + apply mdel_nodup. apply (st2_nd ct id Hnd I0 Hin).
    + exists a. split; auto. now rewrite (wlen Wa).
    + intros x p E. rewrite HG in E. unfold addF. destruct (String.eqb_spec x id) as [->|Hx]; [discriminate|]. destruct (String.eqb_spec x z0) as [->|Hx0]; [|auto].
      injection E as <-. split; [now rewrite (wntt Wa)|]. eapply held_mono; [|exact Ha]. intros; cbn beta; lia.
  - intros x. rewrite (mget_In _ seqb), HG. rewrite (mget_In _ seqb ct x). destruct (String.eqb_spec x id) as [->|Hx]; [split; [congruence|tauto]|].
    destruct (String.eqb_spec x z0) as [->|Hx0]; [|tauto]. split; [|congruence]. intros _. split; [congruence|auto].
  - intros x Hx0 Hx. rewrite HG. destruct (String.eqb_spec x id); [congruence|]. destruct (String.eqb_spec x z0); [congruence|reflexivity].
Qed.

(** partial decryption by a list of distinct parties *)
Lemma partial_list (key : string -> seckey) (s : string -> zpoly) ntt l : forall L ct F, ct_rep pp ntt l ct F -> NoDup L ->
  (forall id, In id L -> party ct id /\ sk_ID (key id) = id /\ sk_is pp (key id) (s id)) ->
  exists ct' p0, foldM (fun c id => PartialDecrypt pp c (key id)) L ct = Ok ct' /\ 
    ct_rep pp ntt l ct' (addF F (psumL (fun id => pmul N (s id) (F id)) L)) /\
    (forall x, In x (mkeys ct') <-> In x (mkeys ct) /\ ~ In x L) /\ sget ct' z0 = Some p0 /\ 
    (L = [] -> ct' = ct) /\ (L <> [] -> held pp ntt id_b l p0 (padd (F z0) (psumL (fun id => pmul N (s id) (F id)) L))).
Proof.
  induction L as [|a L IH]; intros ct F Hc Hnd HL.
  - destruct (cr_0 _ _ _ _ _ Hc) as (p0 & E0 & L0). exists ct, p0. cbn [foldM psumL]. split; [reflexivity|]. split; [|split; [cbn; tauto|split; [auto|split; [auto|congruence]]]].
    destruct Hc as [? ? ? Hcc]. constructor; eauto. intros id p E. destruct (Hcc id p E) as [H1 H2]. split; auto. eapply held_peq; [|exact H2]. intros j Hj. unfold addF.
    destruct (String.eqb_spec id z0) as [->|]; [|reflexivity]. intros i Hi. apply cong_eq. unfold padd, pzero. lia.
  - apply NoDup_cons_iff in Hnd as [Ha Hnd]. destruct (HL a (or_introl eq_refl)) as (Hp & Hid & Hs).
    rewrite <- Hid in Hp. destruct (PartialDecrypt_ok ntt l ct F (key a) (s a) Hc Hp Hs) as (ct1 & p1 & E1 & Hc1 & K1 & G1 & H1 & O1). rewrite Hid in *.
    assert (HL' : forall id, In id L -> party ct1 id /\ sk_ID (key id) = id /\ sk_is pp (key id) (s id)).
    { intros id Hin. destruct (HL id (or_intror Hin)) as ([P1 P2] & Q1 & Q2). split; [|auto]. split; auto. apply K1. split; auto. intros ->. contradiction. }
    destruct (IH ct1 _ Hc1 Hnd HL') as (ct2 & p2 & E2 & Hc2 & K2 & G2 & N2 & H2). exists ct2, p2. cbn [foldM]. rewrite E1. cbn [bind]. split; [exact E2|].
    assert (HF : forall q, peq N q (addF (addF F (pmul N (s a) (F a))) (psumL (fun id => pmul N (s id) (addF F (pmul N (s a) (F a)) id)) L) z0)
       (padd (F z0) (psumL (fun id => pmul N (s id) (F id)) (a :: L)))).
    { intros q. unfold addF at 1. cbn [String.eqb Ascii.eqb Bool.eqb]. unfold addF at 1. cbn [String.eqb Ascii.eqb Bool.eqb]. cbn [psumL].
      rewrite (psumL_ext N q _ (fun id => pmul N (s id) (F id)) L).
      2:{ intros id Hin. unfold addF. destruct (HL id (or_intror Hin)) as ([_ P2] & _). destruct (String.eqb_spec id z0); [congruence|reflexivity]. }
      intros i Hi. apply cong_eq. unfold padd. lia. }
    split; [|split; [|split; [exact G2|split; [congruence|]]]].
    + destruct Hc2 as [? ? ? Hcc]. constructor; eauto. intros id p E. destruct (Hcc id p E) as [Q1 Q2]. split; auto. eapply held_peq; [|exact Q2]. intros j Hj.
      destruct (String.eqb_spec id z0) as [->|Hne]. { rewrite HF. unfold addF. reflexivity. }
      unfold addF. destruct (String.eqb_spec id z0); [congruence|reflexivity].
    + intros x. rewrite K2, K1. cbn [In]. intuition congruence.
    + intros _. destruct L as [|b L].
      * specialize (N2 eq_refl). subst ct2. rewrite G1 in G2. injection G2 as <-. eapply held_peq; [|exact H1]. intros j Hj i Hi. apply cong_eq. cbn [psumL]. unfold padd, pzero. lia.
      * specialize (H2 ltac:(discriminate)). eapply held_peq; [|exact H2]. intros j Hj. apply HF.
Qed.

Lemma Reduce_held ntt b l a dst X : held pp ntt b l a X -> (forall q, b q <= q + 1) -> (l < plen dst)%nat ->
  exists d, ReduceLvl rQ l a dst = Ok d /\ wrote (l + 1) dst d /\ held pp ntt id_b l d X.
Proof.
  intros H Hb Hd. pose proof (held_len _ _ _ _ _ H) as [L1 L2]. unfold held in *. destruct ntt.
  - destruct H as (H1 & H2 & H3). unfold ReduceLvl.
    match goal with |- context [lvl1 rQ ?f l a dst] => destruct (lvl1_ok rQ f l a dst HrQ L1 ltac:(lia) Hd) as (d & E & Hw & Hn) end.
    exists d. split; [exact E|split; [exact Hw|]]. split; [auto|]. split; [change (List.length (p_co d)) with (plen d); rewrite (wlen Hw); lia|]. intros j Hj.
    rewrite Hn by lia. destruct (qbig j ltac:(lia)) as [Hq1 HqW]. eapply map_lrep; [apply (H3 j Hj)|]. intros i x Hi Hx Hc.
    cbn [r_mods ringQ] in *. rewrite BRedAdd_spec by (try apply (ring_okm rQ j HrQ); auto; try lia; cbn [r_mods ringQ]; unfold QCount in L1; lia). split; [apply Z.mod_pos_bound; lia|].
    rewrite cong_mod by lia. exact Hc.
  - apply (ReduceLvl_ok rQ HrQ b); auto. intros j Hj. specialize (Hb (qq j)). destruct (qbig j ltac:(lia)). cbn [r_mods ringQ]. lia.
Qed.
Definition limbs_of (ntt : bool) (n : nat) (A : zpoly) : list (list Z) := if ntt then nlimbs rQ n A else plimbs rQ n A.
Lemma limbs_of_held ntt l A f : (l < QCount pp)%nat -> held pp ntt id_b l (mkPoly f (limbs_of ntt (l + 1) A)) A /\ plen (mkPoly f (limbs_of ntt (l + 1) A)) = (l + 1)%nat.
Proof.
  intros Hl. unfold held, limbs_of, plen. destruct ntt; cbn [p_co].
  - split; [apply nlimbs_nrep; auto; cbn [r_mods ringQ]; unfold QCount in Hl; lia|]. unfold nlimbs. now rewrite map_length, seq_length.
  - split; [apply plimbs_prep; auto; cbn [r_mods ringQ]; unfold QCount in Hl; lia|]. unfold plimbs. now rewrite map_length, seq_length.
Qed.
Definition dsk : seckey := mkSk dqp z0.
Definition keyof (sks : skset) (id : string) : seckey := match sget sks id with Some k => k | None => dsk end.
Lemma fold_filter (sks : skset) ids : (forall id sk, sget sks id = Some sk -> sk_ID sk = id) -> forall K, (forall x, In x K -> In x (mkeys sks)) -> forall tmp,
  foldM (fun tmp k => let* sk := sptr sks k in if idHas ids (sk_ID sk) then PartialDecrypt pp tmp sk else Ok tmp) K tmp =
  foldM (fun c id => PartialDecrypt pp c (keyof sks id)) (filter (idHas ids) K) tmp.
Proof.
  intros Hid. induction K as [|a K IH]; intros HK tmp; [reflexivity|]. destruct (mget_ex _ seqb sks a) as (k & E); [apply HK; now left|].
  cbn [foldM filter]. unfold mptr at 1. rewrite E. cbn [bind]. rewrite (Hid a k E). assert (HK' : forall x, In x K -> In x (mkeys sks)) by (intros; apply HK; now right).
  destruct (idHas ids a); cbn [bind foldM]; [|now apply IH]. unfold keyof at 1. rewrite E. destruct (PartialDecrypt pp tmp k); cbn [bind]; auto.
Qed.
Lemma keys_of_parties ct F ntt l : ct_rep pp ntt l ct F -> In z0 (mkeys ct).
Proof. intros H. destruct (cr_0 _ _ _ _ _ H) as (p & E & _). eapply mget_key; eauto. exact seqb. Qed.

Lemma Decrypt_ok ntt l ct F s pl pt : ct_rep pp ntt l ct F -> plen pt = (pl + 1)%nat ->
  exists pt', p_ntt pt' = p_ntt pt /\ plen pt' = (Nat.min l pl + 1)%nat /\ held pp ntt id_b (Nat.min l pl) pt' (decryption pp s F ct) /\
    forall o sks, order_ok o -> sks_ok pp s ct sks ->
      ((forall id, party ct id -> has_key sks id) -> Decrypt pp o ct sks pt = Ok pt') /\
      ((exists id, party ct id /\ ~ has_key sks id) -> Decrypt pp o ct sks pt = Panic (PMsg "Cannot Decrypt: there is a missing secretkey")).
Proof.
  intros Hc Hpt. set (lv := Nat.min l pl). pose proof (cr_l _ _ _ _ _ Hc) as Hl.
  destruct (limbs_of_held ntt lv (decryption pp s F ct) (p_ntt pt) ltac:(lia)) as [HH HL]. set (pt' := mkPoly _ _) in *.
  exists pt'. split; [reflexivity|]. split; [exact HL|]. split; [exact HH|]. intros o sks Ho [Snd Sk].
  pose proof (keys_of_parties _ _ _ _ Hc) as I0. destruct (cr_0 _ _ _ _ _ Hc) as (c0 & E0 & L0).
  destruct (ctIDSet_ok o ct Ho) as (ids & Eids & _ & Hids).
  set (K := o 1%nat (mkeys sks)). set (L := filter (idHas ids) K).
  assert (HK : forall x, In x K <-> In x (mkeys sks)) by (intros x; unfold K; apply order_in; auto).
  assert (HLin : forall x, In x L <-> has_key sks x /\ party ct x). { intros x. unfold L. rewrite filter_In, HK, idHas_In, Hids. unfold has_key, party. tauto. }
  assert (HLnd : NoDup L) by (apply NoDup_filter, order_nodup; auto).
  assert (Hkey : forall id, In id L -> party ct id /\ sk_ID (keyof sks id) = id /\ sk_is pp (keyof sks id) (s id)).
  { intros id Hin. apply HLin in Hin as [H1 H2]. split; auto. destruct (mget_ex _ seqb sks id H1) as (k & E). unfold keyof. rewrite E. destruct (Sk id k E) as [Q1 Q2]. auto. }
  destruct (partial_list (keyof sks) s ntt l L ct F Hc HLnd Hkey) as (ct' & p0 & EF & Hc' & HK' & G0 & _).
  assert (PRE : Decrypt pp o ct sks pt = if (1 <? List.length (mkeys ct'))%nat then Panic (PMsg "Cannot Decrypt: there is a missing secretkey") else
      let* c := sptr ct' z0 in ReduceLvl rQ lv c (mkPoly (p_ntt pt) (firstn (lv + 1) (p_co pt)))).
  { unfold Decrypt, ctLevel, mptr, polyLevel, ctCopyNew, mptr. rewrite E0. cbn [bind]. rewrite L0, (Nat.add_1_r l). cbn [bind]. rewrite Hpt, (Nat.add_1_r pl). cbn [bind]. fold lv.
    unfold pTrunc. destruct (Nat.leb_spec (lv + 1) (plen pt)); [|lia]. cbn [bind]. rewrite Eids. cbn [bind].
    pose proof (fold_filter sks ids (fun id sk E => proj1 (Sk id sk E)) K (fun x Hx => proj1 (HK x) Hx) ct) as EE. unfold mptr in EE. fold K. rewrite EE. fold L. rewrite EF. reflexivity. }
  assert (Hnd' : NoDup (mkeys ct')) by apply (cr_nd _ _ _ _ _ Hc').
  assert (I0' : In z0 (mkeys ct')) by (eapply mget_key; eauto; exact seqb).
  split.
  - intros Hall. rewrite PRE. assert (HLen : (List.length (mkeys ct') <= 1)%nat).
    { change 1%nat with (List.length [z0]). apply NoDup_incl_length; auto. intros x Hx. apply HK' in Hx as [H1 H2]. destruct (String.eqb_spec x z0) as [->|Hne]; [now left|].
      exfalso. apply H2, HLin. split; [apply Hall|]; split; auto. }
    destruct (Nat.ltb_spec 1 (List.length (mkeys ct'))); [lia|]. unfold mptr. rewrite G0. cbn [bind]. destruct (cr_c _ _ _ _ _ Hc' z0 p0 G0) as [Fp Hp].
    set (pt1 := mkPoly _ (firstn _ _)). assert (Lp1 : plen pt1 = (lv + 1)%nat) by (unfold pt1, plen in *; cbn [p_co]; rewrite firstn_length; lia).
    destruct (Reduce_held ntt _ lv p0 pt1 _ (held_le _ _ _ _ _ _ (Nat.le_min_l l pl : (lv <= l)%nat) Hp) ltac:(intros; cbn beta; lia) ltac:(lia)) as (d & Ed & Wd & Hd).
    rewrite Ed. f_equal. destruct d as [nd cd]. unfold pt'. f_equal; [apply (wntt Wd)|].
    change cd with (p_co (mkPoly nd cd)). change (limbs_of ntt (lv + 1) (decryption pp s F ct)) with (p_co pt'). eapply held_unique; [exact Hd|exact HH| |rewrite (wlen Wd); auto|auto].
    intros j Hj. unfold addF. cbn [String.eqb Ascii.eqb Bool.eqb]. unfold decryption. symmetry. apply (phase_split (default_env pp)); auto; [apply (cr_nd _ _ _ _ _ Hc)|].
    intros x. rewrite HLin. unfold party. split; [tauto|]. intros [H1 H2]. split; [apply Hall|]; split; auto.
  - intros (id & Hp & Hno). rewrite PRE. assert (HLen : (2 <= List.length (mkeys ct'))%nat).
    { change 2%nat with (List.length [z0; id]). apply NoDup_incl_length. { destruct Hp as [_ Hp]. constructor; [intros [H|[]]; congruence|]. constructor; [intros []|constructor]. }
      intros x [<-|[<-|[]]]; auto. apply HK'. split; [apply Hp|]. rewrite HLin. tauto. }
    destruct (Nat.ltb_spec 1 (List.length (mkeys ct'))); [reflexivity|lia].
Qed.
End Enc.
