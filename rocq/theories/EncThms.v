(** Statements about encryption and decryption, from EncProofs. *)
From Coq Require Import String ZArith Znumtheory List Lia Setoid Morphisms Bool Permutation.
From Verif Require Import Spec SpecProofs Go GoProofs Lattigo LattigoProofs Arith NegRing NegRingProofs NTT NTTProofs F64 BasisExt BasisExtProofs ModDownProofs DecomposeProofs RingOps RingOpsProofs Maps MapsProofs Params Elements KeySwitch KeySets KeyGen EncDec KSProofs KSMulProofs KSAlg KSNorm Crt ParamsProofs KeyGenProofs SpecCt KSSem SpecEnc EncProofs.
Import ListNotations.
Local Open Scope Z_scope.
Local Open Scope list_scope.

Section T.
Context (pp : params) (Hpp : params_ok pp).
Notation N := (pa_N pp).
Notation rQ := (ringQ pp).
Notation qq j := (nth j (pa_Q pp) 0).
Notation id_b := (fun q : Z => q).
Let HrQ : ring_ok rQ := po_rQ _ Hpp.
Let HN : (0 < N)%nat := deg_pos _.
Add Ring nring0 : (peq_ring N 0 HN) (setoid (peq_equiv N 0) (peq_ext N 0)).

Lemma held_inj f b b' l p A B : held pp f b l p A -> held pp f b' l p B -> forall j, (j <= l)%nat -> peq N (qq j) A B.
Proof.
  assert (G : forall b b' co A B j, prep rQ b (l + 1) co A -> prep rQ b' (l + 1) co B -> (j <= l)%nat -> peq N (qq j) A B).
  { intros c c' co X Y j (_ & _ & H1) (_ & _ & H2) Hj i Hi. destruct (H1 j ltac:(lia)) as [_ K1]. destruct (H2 j ltac:(lia)) as [_ K2]. destruct (K1 i Hi) as [_ C1]. destruct (K2 i Hi) as [_ C2].
    cbn [r_mods ringQ] in *. now rewrite <- C1, C2. }
  intros H1 H2 j Hj. pose proof (held_len pp _ _ _ _ _ H1) as [L1 L2]. unfold held in *. destruct f; [|eapply G; eauto].
  destruct (InvNTTLvl_ok rQ HrQ l p p A H1 ltac:(lia)) as (d & E & _ & P1). destruct (InvNTTLvl_ok rQ HrQ l p p B H2 ltac:(lia)) as (d' & E' & _ & P2). rewrite E in E'. injection E' as <-.
  eapply G; eauto.
Qed.
Lemma centred_ok f b l p v : held pp f b l p v -> (forall i, (i < N)%nat -> 2 * Z.abs (v i) < Ql pp l) -> centred_value pp l f p v.
Proof.
  intros H Hv. split; [exact Hv|]. split; [exists b; exact H|]. intros v' Hv' (b' & H') i Hi. pose proof (held_inj _ _ _ _ _ _ _ H' H) as HE. pose proof (held_len pp _ _ _ _ _ H) as [L1 _].
  assert (HC : cong (Ql pp l) (v' i) (v i)).
  { unfold Ql. rewrite product_prodZ. apply crt_cong; [apply firstn_pairwise, (good_pairwise _ _ (po_good _ Hpp))|].
    apply (Forall_of_nth _ _ 0). intros j Hj. rewrite firstn_length in Hj. rewrite nth_firstn_lt by lia. apply HE; auto. lia. }
  specialize (Hv i Hi). specialize (Hv' i Hi). destruct HC as [t Ht]. assert (t = 0) by nia. lia.
Qed.

Definition encF (u e a s e0 e1 M : zpoly) (id : string) (F : string -> zpoly) (x : string) : zpoly :=
  if String.eqb x z0 then padd (padd (pmul N u (psub e (pmul N s a))) e0) M else if String.eqb x id then padd (pmul N u a) e1 else F x.

Lemma foreign_in ct id x : In x (foreign ct id) <-> In x (mkeys ct) /\ x <> z0 /\ x <> id.
Proof. unfold foreign. rewrite filter_In, andb_true_iff, !negb_true_iff, !String.eqb_neq. tauto. Qed.

Lemma encrypt_into_full pt pl M pk s e a u e0 e1 Bu B ct cl ntt F : enc_setting pp pt pl M pk s e a u e0 e1 Bu B ct cl ntt F ->
  exists ct', mkeys ct' = mkeys ct /\ (forall x, In x (foreign ct (pk_ID pk)) -> sget ct' x = sget ct x) /\
    (forall x p, x = z0 \/ x = pk_ID pk -> sget ct' x = Some p -> plen p = (Nat.min pl cl + 1)%nat) /\
    ct_rep pp ntt (Nat.min pl cl) ct' (encF (smallpoly u) e a s (smallpoly e0) (smallpoly e1) M (pk_ID pk) F) /\
    forall pool, (QCount pp <= plen pool)%nat -> exists pool', Encrypt pp pt pk u e0 e1 ct pool = Ok (ct', pool') /\ plen pool' = plen pool.
Proof.
  intros [Hpt Hpk Hid HBu HB Hu He0 He1 Hnd Hcl (c0 & E0 & L0 & F0) (c1 & E1 & L1) Hf]. set (id := pk_ID pk) in *. set (l := Nat.min pl cl).
  pose proof (proj1 Hpt) as Hpl. assert (Hl : (l < QCount pp)%nat) by lia.
  set (C0 := padd (padd (pmul N (smallpoly u) (psub e (pmul N s a))) (smallpoly e0)) M). set (C1 := padd (pmul N (smallpoly u) a) (smallpoly e1)).
  destruct (limbs_of_held pp Hpp ntt l C0 ntt Hl) as [H0 Q0]. destruct (limbs_of_held pp Hpp ntt l C1 ntt Hl) as [H1 Q1].
  set (p0 := mkPoly ntt (limbs_of pp ntt (l + 1) C0)) in *. set (p1 := mkPoly ntt (limbs_of pp ntt (l + 1) C1)) in *.
  assert (I0 : In z0 (mkeys ct)) by (eapply mget_key; eauto; exact seqb). assert (I1 : In id (mkeys ct)) by (eapply mget_key; eauto; exact seqb).
  exists (st2 ct id p0 p1). split; [now apply st2_keys|]. split; [|split; [|split]].
  - intros x Hx. apply foreign_in in Hx as (X1 & X2 & X3). rewrite st2_get. destruct (String.eqb_spec x id); [congruence|]. destruct (String.eqb_spec x z0); [congruence|reflexivity].
  - intros x p Hx E. rewrite st2_get in E. destruct (String.eqb_spec x id); [injection E as <-; exact Q1|]. destruct (String.eqb_spec x z0); [injection E as <-; exact Q0|]. destruct Hx; congruence.
  - constructor; auto; [now apply st2_nd| |].
    + exists p0. split; [now apply st2_0|auto].
    + intros x p E. rewrite st2_get in E. unfold encF. destruct (String.eqb_spec x z0) as [->|Hx0].
      * destruct (String.eqb_spec z0 id); [congruence|]. injection E as <-. split; [reflexivity|]. eapply held_mono; [|exact H0]. intros; cbn beta; lia.
      * destruct (String.eqb_spec x id) as [->|Hx1]; [injection E as <-; split; [reflexivity|]; eapply held_mono; [|exact H1]; intros; cbn beta; lia|].
        apply Hf; auto. apply foreign_in. split; [eapply mget_key; eauto; exact seqb|auto].
  - intros pool Hp. destruct (Encrypt_ok pp Hpp pt pl M pk s e a u e0 e1 Bu B ct cl c0 c1 pool Hpt Hpk Hid HBu HB Hu He0 He1 Hnd E0 E1 L0 Hcl L1 Hp) as (a0 & a1 & pool' & EE & A0 & A1 & B0 & B1 & R0 & R1 & LP).
    rewrite F0 in *. exists pool'. split; [|exact LP]. rewrite EE. f_equal. f_equal. unfold st2.
    assert (a0 = p0) as ->. { destruct a0 as [n0 k0]. cbn [p_ntt] in A0. subst n0. unfold p0. f_equal. change k0 with (p_co (mkPoly ntt k0)). change (limbs_of pp ntt (l + 1) C0) with (p_co p0). eapply (held_unique pp Hpp ntt l); eauto. reflexivity. }
    assert (a1 = p1) as ->. { destruct a1 as [n0 k0]. cbn [p_ntt] in A1. subst n0. unfold p1. f_equal. change k0 with (p_co (mkPoly ntt k0)). change (limbs_of pp ntt (l + 1) C1) with (p_co p1). eapply (held_unique pp Hpp ntt l); eauto. reflexivity. }
    reflexivity.
Qed.

Lemma encrypt_into pt pl M pk s e a u e0 e1 Bu B ct cl ntt F : enc_setting pp pt pl M pk s e a u e0 e1 Bu B ct cl ntt F ->
  exists ct', mkeys ct' = mkeys ct /\ (forall x, In x (foreign ct (pk_ID pk)) -> sget ct' x = sget ct x) /\
    ct_rep pp ntt (Nat.min pl cl) ct' (encF (smallpoly u) e a s (smallpoly e0) (smallpoly e1) M (pk_ID pk) F) /\
    forall pool, (QCount pp <= plen pool)%nat -> exists pool', Encrypt pp pt pk u e0 e1 ct pool = Ok (ct', pool') /\ plen pool' = plen pool.
Proof. intros H. destruct (encrypt_into_full _ _ _ _ _ _ _ _ _ _ _ _ _ _ _ _ H) as (ct' & H1 & H2 & _ & H3 & H4). eauto. Qed.

Lemma enc_decryption u e a s e0 e1 M id F (S : string -> zpoly) ct : NoDup (mkeys ct) -> In z0 (mkeys ct) -> In id (mkeys ct) -> id <> z0 -> peq N 0 (S id) s ->
  peq N 0 (decryption pp S (encF u e a s e0 e1 M id F) ct) (padd (padd M (fresh_noise N s e u e0 e1)) (psumL (fun x => pmul N (S x) (F x)) (foreign ct id))).
Proof.
  intros Hnd I0 I1 Hid HS. unfold decryption. rewrite (phase_split (default_env pp) 0 S _ (mkeys ct) (id :: foreign ct id) Hnd I0).
  - cbn [psumL]. rewrite (psumL_ext N 0 (fun id0 => pmul N (S id0) (encF u e a s e0 e1 M id F id0)) (fun x => pmul N (S x) (F x)) (foreign ct id)).
    + unfold encF. rewrite !String.eqb_refl. destruct (String.eqb_spec id z0); [congruence|]. rewrite HS. unfold fresh_noise. change (pa_N (e_pp (default_env pp))) with N. ring.
    + intros x Hx. apply foreign_in in Hx as (X1 & X2 & X3). unfold encF. destruct (String.eqb_spec x z0); [congruence|]. destruct (String.eqb_spec x id); [congruence|reflexivity].
  - constructor; [|apply NoDup_filter; auto]. rewrite foreign_in. tauto.
  - intros x. cbn [In]. rewrite foreign_in. destruct (string_dec x id) as [->|]; [tauto|]. intuition congruence.
Qed.

Lemma fresh_bound s e u e0 e1 Bs Bu B : pnorm_le N s Bs -> pnorm_le N e B -> small_ok N Bu u -> small_ok N B e0 -> small_ok N B e1 ->
  pnorm_le N (fresh_noise N s e (smallpoly u) (smallpoly e0) (smallpoly e1)) (B * (1 + Z.of_nat N * Bu + Z.of_nat N * Bs)).
Proof.
  intros Hs He Hu H0 H1. apply smallpoly_norm in Hu, H0, H1. unfold fresh_noise.
  replace (B * _) with (B + Z.of_nat N * (Bu * B) + Z.of_nat N * (Bs * B)) by ring.
  apply pnorm_add; [apply pnorm_add; [auto|]|]; apply pnorm_mul; auto.
Qed.

(** encrypt, then decrypt *)
Lemma enc_dec pt pl M pk s e a u e0 e1 Bu B ct cl ntt F (S : string -> zpoly) ptOut po : enc_setting pp pt pl M pk s e a u e0 e1 Bu B ct cl ntt F ->
  plen ptOut = (po + 1)%nat -> S (pk_ID pk) = s ->
  exists ct' pt', let V := padd (padd M (fresh_noise N s e (smallpoly u) (smallpoly e0) (smallpoly e1))) (psumL (fun x => pmul N (S x) (F x)) (foreign ct (pk_ID pk))) in
    let l := Nat.min (Nat.min pl cl) po in
    mkeys ct' = mkeys ct /\ (forall x, In x (foreign ct (pk_ID pk)) -> sget ct' x = sget ct x) /\
    (forall pool, (QCount pp <= plen pool)%nat -> exists pool', Encrypt pp pt pk u e0 e1 ct pool = Ok (ct', pool') /\ plen pool' = plen pool) /\
    (forall o sks, order_ok o -> sks_ok pp S ct' sks -> (forall id, party ct' id -> has_key sks id) -> Decrypt pp o ct' sks ptOut = Ok pt') /\
    p_ntt pt' = p_ntt ptOut /\ plen pt' = (l + 1)%nat /\ held pp ntt id_b l pt' V /\
    ((forall i, (i < N)%nat -> 2 * Z.abs (V i) < Ql pp l) -> centred_value pp l ntt pt' V).
Proof.
  intros HS HO HSs. destruct (encrypt_into _ _ _ _ _ _ _ _ _ _ _ _ _ _ _ _ HS) as (ct' & K & G & HR & HE).
  destruct (Decrypt_ok pp Hpp ntt _ ct' _ S po ptOut HR HO) as (pt' & Q1 & Q2 & Q3 & Q4). exists ct', pt'. cbv zeta.
  assert (HV : held pp ntt id_b (Nat.min (Nat.min pl cl) po) pt' (padd (padd M (fresh_noise N s e (smallpoly u) (smallpoly e0) (smallpoly e1))) (psumL (fun x => pmul N (S x) (F x)) (foreign ct (pk_ID pk))))).
  { eapply (held_peq pp Hpp); [|exact Q3]. intros j Hj. apply peq_0. 
    assert (HK : foreign ct (pk_ID pk) = foreign ct' (pk_ID pk)) by (unfold foreign; now rewrite K). rewrite HK.
    destruct (es_0 _ _ _ _ _ _ _ _ _ _ _ _ _ _ _ _ _ HS) as (c0 & E0 & _). destruct (es_1 _ _ _ _ _ _ _ _ _ _ _ _ _ _ _ _ _ HS) as (c1 & E1 & _).
    apply enc_decryption; rewrite ?K; try (eapply mget_key; eauto; exact seqb); [apply HS|apply HS|now rewrite HSs]. }
  split; [exact K|]. split; [exact G|]. split; [exact HE|]. split; [|split; [exact Q1|split; [exact Q2|split; [exact HV|]]]].
  - intros o sks Ho Hs Hall. now apply Q4.
  - intros HB. eapply centred_ok; eauto.
Qed.

(** partial decryptions *)
Lemma partial_all ntt l ct F s key L pt pl : ct_rep pp ntt l ct F -> NoDup L -> (forall id, In id L <-> party ct id) ->
  (forall id, In id L -> sk_ID (key id) = id /\ sk_is pp (key id) (s id)) -> plen pt = (pl + 1)%nat ->
  exists p0 pt', foldM (fun c id => PartialDecrypt pp c (key id)) L ct = Ok [(z0, p0)] /\ p_ntt p0 = ntt /\ plen p0 = (l + 1)%nat /\
    (forall o sks, order_ok o -> sks_ok pp s ct sks -> (forall id, party ct id -> has_key sks id) -> Decrypt pp o ct sks pt = Ok pt') /\
    (forall j i, (j <= Nat.min l pl)%nat -> (i < N)%nat -> word (p_co pt') j i = word (p_co p0) j i mod qq j).
Proof.
  intros Hc Hnd HL Hk Hpt. destruct (partial_list pp Hpp key s ntt l L ct F Hc Hnd) as (ct' & p0 & EF & Hc' & K & G0 & _).
  { intros id Hin. split; [now apply HL|now apply Hk]. }
  destruct (Decrypt_ok pp Hpp ntt l ct F s pl pt Hc Hpt) as (pt' & Q1 & Q2 & Q3 & Q4). exists p0, pt'.
  assert (Ect : ct' = [(z0, p0)]).
  { pose proof (cr_nd _ _ _ _ _ Hc') as Nd. assert (Hone : forall x, In x (mkeys ct') -> x = z0).
    { intros x Hx. apply K in Hx as [H1 H2]. destruct (string_dec x z0); auto. exfalso. apply H2, HL. split; auto. }
    destruct ct' as [|[k0 v0] [|[k1 v1] r]]; [discriminate| |].
    - cbn in Hone. rewrite (Hone k0 (or_introl eq_refl)) in *. cbn in G0. injection G0 as <-. reflexivity.
    - cbn in Nd, Hone. rewrite (Hone k0), (Hone k1) in Nd by auto. inversion Nd. exfalso. apply H1. now left. }
  subst ct'. split; [exact EF|]. destruct (cr_c _ _ _ _ _ Hc' z0 p0 G0) as [Fp Hp]. split; [exact Fp|]. 
  destruct (cr_0 _ _ _ _ _ Hc') as (p0' & E' & L'). rewrite G0 in E'. injection E' as <-. split; [exact L'|]. split. { intros o sks Ho Hs Hall. now apply Q4. }
  intros j i Hj Hi. pose proof (cr_l _ _ _ _ _ Hc) as Hl.
  assert (HE : forall M, peq N M (addF F (psumL (fun id => pmul N (s id) (F id)) L) z0) (decryption pp s F ct)).
  { intros M. unfold addF. cbn [String.eqb Ascii.eqb Bool.eqb]. unfold decryption. symmetry. apply (phase_split (default_env pp)); auto; [apply (cr_nd _ _ _ _ _ Hc)|eapply keys_of_parties; eauto]. }
  assert (Hp' : held pp ntt (fun q => q + 1) (Nat.min l pl) p0 (decryption pp s F ct)). { eapply (held_peq pp Hpp); [intros; apply HE|]. eapply held_le; [|exact Hp]. lia. }
  assert (Hq : 1 < qq j) by (apply (qbig pp Hpp); lia). unfold word. unfold held in *. destruct ntt.
  - destruct Q3 as (_ & _ & Q3), Hp' as (_ & _ & Hp'). destruct (Q3 j ltac:(lia)) as [_ X1]. destruct (Hp' j ltac:(lia)) as [_ X2]. destruct (X1 i Hi) as [Y1 Y2]. destruct (X2 i Hi) as [Z1 Z2].
    cbn [r_mods ringQ] in *. rewrite (Z.mod_small _ (qq j)) by lia. apply (cong_small (qq j)); auto. now rewrite Y2, Z2.
  - destruct Q3 as (_ & _ & Q3), Hp' as (_ & _ & Hp'). destruct (Q3 j ltac:(lia)) as [_ X1]. destruct (Hp' j ltac:(lia)) as [_ X2]. destruct (X1 i Hi) as [Y1 Y2]. destruct (X2 i Hi) as [Z1 Z2].
    cbn [r_mods ringQ] in *. apply (cong_small (qq j)); auto; [apply Z.mod_pos_bound; lia|]. rewrite cong_mod by lia. now rewrite Y2, Z2.
Qed.
End T.
