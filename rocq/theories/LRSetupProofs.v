(** genTestParams: the common reference strings it adds and the keys it generates. *)
From Coq Require Import Reals String DecimalString ZArith Znumtheory List Lia Bool Permutation.
From Verif Require Import Spec SpecProofs Go GoProofs Lattigo LattigoProofs Arith NegRing NegRingProofs NTT NTTProofs F64 BasisExt BasisExtProofs RingOps RingOpsProofs Maps MapsProofs Params Elements KeySwitch KeySets KeyGen EncDec Evaluator KSProofs ParamsProofs Repr Crt Galois KeyGenProofs ParamsSpec SpecKeys KeySpec KeyThms SpecCt SpecEnc SpecEv SpecRot RotEvThms RotWorld LR LREval LRSetup SpecSetup.
Import ListNotations.
Local Open Scope Z_scope.

Section C.
Context (logN : nat) (Q P psiQ psiP : list Z) (gamma : nat).
Definition PC (c : gmap Z swk) : params := mkParams logN Q P psiQ psiP gamma c.
Context (H0 : params_ok (PC [])).
Lemma PC_ok c : params_ok (PC c). Proof. exact (params_ok_crs logN Q P psiQ psiP gamma [] c H0). Qed.
(** what a common reference string made from uniform samples is *)
Definition rows_ok (v : swk) : Prop := swk_ok (PC []) v /\ exists A : nat -> zpoly, forall t, (t < Beta (PC []) (maxLevel (PC [])))%nat -> qrep (PC []) (maxLevel (PC [])) (nth t v dqp) (pscale W (A t)).
Lemma genCRS_rows c smp : (forall i, uniform_sample (PC []) (smp i)) -> exists v, genCRS (PC c) (Beta (PC c) (maxLevel (PC c))) smp = Ok v /\ rows_ok v.
Proof.
  intros Hs. assert (Hs' : forall i, sample_ok (PC []) (smp i)) by (intros; apply uniform_ok; auto).
  destruct (genCRS_ok (default_env (PC [])) (Beta (PC []) (maxLevel (PC []))) smp (default_env_ok _ H0)) as (v & E & L & F & HR).
  - intros i _. destruct (Hs' i) as (A & _ & H). exact H.
  - intros i _. destruct (Hs' i) as (A & H & _). exists A. exact H.
  - exists v. split; [exact E|]. split; [split; [exact L|exact F]|].
    destruct (choose_fun pzero (Beta (PC []) (maxLevel (PC []))) (fun t A => qrep (PC []) (maxLevel (PC [])) (smp t) A)) as (A & HA); [intros i Hi; destruct (Hs' i) as (A & H & _); exists A; exact H|].
    exists A. intros t Ht. apply HR; [exact Ht|apply HA; exact Ht].
Qed.
Lemma rows_crs c ix v : zget c ix = Some v -> rows_ok v -> exists A, crs_is (PC c) ix A.
Proof.
  intros E (Hs & A & HA). exists A, v. split; [unfold getCRS, mptr; cbn [pa_CRS PC]; change (mget Z.eqb c ix) with (zget c ix); now rewrite E|]. split; [exact Hs|exact HA].
Qed.
(** ** AddCRS in a loop *)
Lemma addCRSs_ok smp : (forall k ix i, uniform_sample (PC []) (smp k ix i)) -> forall rots k c, (forall ix v, zget c ix = Some v -> rows_ok v) ->
  exists c', addCRSs smp k rots (PC c) = Ok (PC c') /\ (forall ix v, zget c' ix = Some v -> rows_ok v) /\
    (forall ix, (exists v, zget c' ix = Some v) <-> (exists v, zget c ix = Some v) \/ In ix rots).
Proof.
  intros Hs. induction rots as [|rot rots IH]; intros k c Hc.
  - exists c. cbn. split; [reflexivity|]. split; [exact Hc|]. intros ix. tauto.
  - destruct (genCRS_rows c (smp k rot) (Hs k rot)) as (v & E & Hv). cbn [addCRSs]. unfold AddCRS. change (maxLevel (PC c)) with (maxLevel (PC [])) in *. rewrite E. cbn [bind].
    destruct (IH (S k) (zset c rot v)) as (c' & E' & H1 & H2).
    { intros ix w Hw. destruct (Z.eq_dec ix rot) as [->|Hne].
      - rewrite (mget_mset_same Z.eqb Z.eqb_eq) in Hw. injection Hw as <-. exact Hv.
      - rewrite (mget_mset_other Z.eqb Z.eqb_eq) in Hw by auto. eapply Hc; exact Hw. }
    exists c'. split; [exact E'|]. split; [exact H1|]. intros ix. rewrite H2. cbn [In]. destruct (Z.eq_dec ix rot) as [->|Hne].
    + rewrite (mget_mset_same Z.eqb Z.eqb_eq). split; [intros _; right; now left|]. intros _. left. eauto.
    + rewrite (mget_mset_other Z.eqb Z.eqb_eq) by auto. split; [intros [H|H]; auto|]. intros [H|[H|H]]; auto. congruence.
Qed.
Lemma newParams_rows smp : (forall ix i, uniform_sample (PC []) (smp ix i)) ->
  exists c, NewParameters logN Q P psiQ psiP gamma smp = Ok (PC c) /\ (forall ix v, zget c ix = Some v -> rows_ok v) /\
    (forall ix, (exists v, zget c ix = Some v) <-> In ix (crsIndices logN)).
Proof.
  intros Hs. unfold NewParameters. destruct (Nat.eqb_spec gamma 0) as [Eg|Hg]; [pose proof (po_gamma _ H0) as Hx; cbn in Hx; lia|].
  cbv zeta. fold (PC []). destruct (Nat.eqb_spec (Alpha (PC [])) 0) as [Ea|Ha]; [pose proof (po_alpha _ H0); lia|].
  change (length Q) with (QCount (PC [])). rewrite (Beta_maxlevel (PC []) (po_Q _ H0)). set (bt := Beta (PC []) (maxLevel (PC []))).
  destruct (foldM_inv (fun m ix => let* v := genCRS (PC []) bt (smp ix) in Ok (zset m ix v))
     (fun don m => (forall ix v, zget m ix = Some v -> rows_ok v) /\ forall ix, (exists v, zget m ix = Some v) <-> In ix don) (crsIndices logN) []) as (c & E & HI1 & HI2).
  { intros don ix rest m _ [HI1 HI2]. destruct (genCRS_rows [] (smp ix) (Hs ix)) as (v & Ev & Hv). fold bt in Ev. rewrite Ev. cbn [bind]. eexists. split; [reflexivity|]. split.
    - intros iy w Hw. destruct (Z.eq_dec iy ix) as [->|Hne].
      + rewrite (mget_mset_same Z.eqb Z.eqb_eq) in Hw. injection Hw as <-. exact Hv.
      + rewrite (mget_mset_other Z.eqb Z.eqb_eq) in Hw by auto. eapply HI1; exact Hw.
    - intros iy. rewrite in_app_iff. cbn [In]. destruct (Z.eq_dec iy ix) as [->|Hne].
      + rewrite (mget_mset_same Z.eqb Z.eqb_eq). split; [intros _; right; now left|eauto].
      + rewrite (mget_mset_other Z.eqb Z.eqb_eq) by auto. rewrite HI2. split; [auto|]. intros [H|[H|[]]]; [exact H|congruence]. }
  { split; [discriminate|]. intros ix. cbn. split; [intros (v & Hv); discriminate|intros []]. }
  rewrite E. cbn [bind]. exists c. split; [reflexivity|]. split; [exact HI1|exact HI2].
Qed.
End C.

Lemma choose_list {X Y} (dec : forall a b : X, {a = b} + {a <> b}) (d : Y) (R : X -> Y -> Prop) l : (forall x, In x l -> exists y, R x y) -> exists f, forall x, In x l -> R x (f x).
Proof.
  induction l as [|a l IH]; intros H; [exists (fun _ => d); intros x []|]. destruct IH as (f & Hf); [intros; apply H; now right|]. destruct (H a (or_introl eq_refl)) as (y & Hy).
  exists (fun x => if dec x a then y else f x). intros x Hx. destruct (dec x a) as [->|Hne]; [exact Hy|]. destruct Hx as [->|Hx]; [congruence|auto].
Qed.

(** * Keys *)
Section K.
Context (pp0 pp : params) (Hpp : params_ok pp) (Hsw : NewSwitchingKey pp0 = NewSwitchingKey pp).
Notation N := (pa_N pp).
Context (g : nat -> Z) (Hg : gadget pp g) (Bs B : Z) (HBs : bound_ok pp Bs) (HB : bound_ok pp B) (rnd : string -> partyRnd).
Context (Au : nat -> zpoly) (HA : crs_is pp 0 Au) (U : nat -> zpoly) (HU : crs_is pp (-1) U).
Context (rots : list Z) (Hrots : forall x, In x rots -> 0 < x) (AR : Z -> nat -> zpoly) (HAR : forall x, In x rots -> crs_is pp x (AR x)).
Definition s_of (id : string) : zpoly := smallpoly (r_sk (rnd id)).
Definition r_of (id : string) : zpoly := smallpoly (r_r (rnd id)).
Definition gin (k : Z) : Z := galInverse (pa_logN pp) (5 ^ k).
Definition rgood (rks : rotset) (id : string) (x : Z) : Prop :=
  exists rk, keyat rks id x = Some rk /\ swkey_valid pp g (AR x) B (psigma N (gin x) (s_of id)) (s_of id) (rk_val rk).
Lemma gin_ok k : 0 <= k -> Z.Odd (gin k) /\ cong (2 * Z.of_nat N) (5 ^ k * gin k) 1.
Proof. intros Hk. destruct (galInverse_ok (pa_logN pp) _ (five_pow_odd k Hk)) as (_ & H1 & H2). split; [exact H1|exact H2]. Qed.
Lemma genRots_ok sk es : sk_is pp sk (s_of (sk_ID sk)) -> (forall k, errs_ok pp B (es k)) -> forall L k rks pool, (forall x, In x L -> In x rots) -> pshp pp pool ->
  exists rks' pool', genRots pp sk es k L rks pool = Ok (rks', pool') /\ pshp pp pool' /\ (forall x, In x L -> rgood rks' (sk_ID sk) x) /\ (forall id x, rgood rks id x -> rgood rks' id x).
Proof.
  intros Hsk He. induction L as [|x L IH]; intros k rks pool HL Hp.
  - exists rks, pool. cbn. split; [auto|]. split; [auto|]. split; [intros i []|auto].
  - assert (Hx : In x rots) by (apply HL; now left). pose proof (Hrots x Hx) as Hx0. destruct (gin_ok x ltac:(lia)) as [G1 G2].
    assert (Hnn : x = normNeg (pa_logN pp) x). { unfold normNeg. destruct (Z.ltb_spec x 0); [lia|reflexivity]. }
    destruct (rot_key_lemma pp Hpp x x (gin x) sk (s_of (sk_ID sk)) (AR x) (es k) B g pool) as (rk & pool1 & E & E1 & E2 & P1 & K); auto.
    { eapply crs_mhas. now apply HAR. }
    assert (Hnew : rgood (AddRotationKey rks rk) (sk_ID sk) x).
    { exists rk. split; [rewrite keyat_add, E1, E2; destruct (string_dec (sk_ID sk) (sk_ID sk)); [|congruence]; now destruct (Z.eq_dec x x)|].
      exists (fun t => smallpoly (es k t)). split; [|exact K]. intros t Ht. apply smallpoly_norm. now apply He. }
    destruct (IH (S k) (AddRotationKey rks rk) pool1) as (rks' & pool' & F & P' & I1 & I2); [intros; apply HL; now right|auto|].
    exists rks', pool'. split; [cbn [genRots]; rewrite E; cbn [bind]; exact F|]. split; [auto|]. split.
    + intros y [<-|Hy]; [now apply I2|now apply I1].
    + intros id y Hgd. apply I2. destruct (string_dec id (sk_ID sk)) as [->|Hne].
      * destruct (Z.eq_dec y x) as [->|Hne]; [exact Hnew|]. destruct Hgd as (r & Hr & Hv). exists r. split; [|exact Hv]. rewrite keyat_add, E1, E2. destruct (string_dec _ _); [|congruence]. now destruct (Z.eq_dec y x).
      * destruct Hgd as (r & Hr & Hv). exists r. split; [|exact Hv]. rewrite keyat_add, E1. destruct (string_dec id (sk_ID sk)); [congruence|exact Hr].
Qed.
(** what the loop over the parties has built for the parties [don] *)
Record built (don : list string) (st : testCtx * (poly * qp)) : Prop := {
  bu_pp : tc_pp (fst st) = pp; bu_q : pshp pp (fst (snd st)); bu_qp : qshp pp (snd (snd st));
  bu_nd : NoDup (mkeys (tc_sk (fst st))); bu_sk : forall id sk, sget (tc_sk (fst st)) id = Some sk -> sk_ID sk = id /\ sk_is pp sk (s_of id);
  bu_has : forall id, In id don -> exists sk, sget (tc_sk (fst st)) id = Some sk;
  bu_pk : forall id, In id don -> exists pk, sget (tc_pk (fst st)) id = Some pk /\ pk_ID pk = id /\ pk_is pp pk (s_of id) (smallpoly (r_pk (rnd id))) (pscale W (Au O));
  bu_rlk : forall id, In id don -> exists rl, sget (rs_keys (tc_rlk (fst st))) id = Some rl /\ rlk_valid pp g Au U B (s_of id) (r_of id) rl;
  bu_h0 : forall id, In id don -> exists v, sget (rs_h0 (tc_rlk (fst st))) id = Some v /\ swk_ok pp v;
  bu_h1 : forall id, In id don -> exists v, sget (rs_h1 (tc_rlk (fst st))) id = Some v /\ swk_ok pp v;
  bu_rot : forall id x, In id don -> In x rots -> rgood (tc_rot (fst st)) id x }.
Lemma in_snoc {X} (a x : X) l : In a (l ++ [x]) -> In a l \/ a = x.
Proof. rewrite in_app_iff. intros [H|[H|[]]]; auto. Qed.
Lemma sget_snoc {V} (m : smap V) (don : list string) (id0 : string) (v0 : V) (Pr : string -> V -> Prop) : (forall id, In id don -> exists v, sget m id = Some v /\ Pr id v) -> Pr id0 v0 ->
  forall id, In id (don ++ [id0]) -> exists v, sget (sset m id0 v0) id = Some v /\ Pr id v.
Proof.
  intros H H1 id Hid. destruct (string_dec id id0) as [->|Hne].
  - exists v0. split; [apply (mget_mset_same _ seqb)|exact H1].
  - rewrite (mget_mset_other _ seqb) by auto. apply in_snoc in Hid as [Hid|Hid]; [auto|congruence].
Qed.
Lemma genParty_ok don st id : built don st -> party_ok pp Bs B (rnd id) -> exists st', genParty pp0 pp rots rnd st id = Ok st' /\ built (don ++ [id]) st'.
Proof.
  intros HI (S1 & S2 & S3 & S4 & S5 & S6 & S7). destruct st as [tc [poolQ poolQP]]. destruct HI as [I1 I2 I3 I4 I5 I6 I7 I8 I9 I10 I11]. cbn [fst snd] in *. unfold genParty, GenKeyPair.
  destruct (genSecretKey_ok pp Hpp (r_sk (rnd id)) Bs id HBs S1) as (sk & E & Eid & Hsk). fold (s_of id) in Hsk. rewrite E. cbn [bind].
  destruct (GenPublicKey_ok pp Hpp sk (s_of id) Au (r_pk (rnd id)) B Hsk HA HB S2) as (pk & E1 & Epk & K1 & _ & K0 & _). rewrite E1. cbn [bind].
  destruct (genSecretKey_ok pp Hpp (r_r (rnd id)) Bs id HBs S3) as (r & E2 & _ & Hr). fold (r_of id) in Hr. rewrite E2. cbn [bind].
  destruct (GenRelinearizationKey_ok pp Hpp sk r (s_of id) (r_of id) Au U (r_b (rnd id)) (r_d (rnd id)) (r_v (rnd id)) B g poolQ poolQP) as (rl & pQ & pQP & E3 & Erl & P1 & P2 & R1 & R2 & R3); auto.
  rewrite E3. cbn [bind]. destruct (genRots_ok sk (r_rot (rnd id))) with (L := rots) (k := 0%nat) (rks := tc_rot tc) (pool := pQ) as (rks & pQ' & E4 & P3 & G1 & G2); auto.
  { rewrite Eid. exact Hsk. }
  rewrite E4. cbn [bind]. eexists. split; [reflexivity|]. rewrite Eid in *. constructor; cbn [fst snd tc_pp tc_sk tc_pk tc_rlk tc_rot]; auto; unfold AddSecretKey, AddPublicKey, AddRelinearizationKey; cbn [rs_keys rs_h0 rs_h1]; try rewrite Eid; try rewrite Epk; try rewrite Erl.
  - apply (mset_nodup _ seqb). exact I4.
  - intros id' sk' Hk. destruct (string_dec id' id) as [->|Hne].
    + rewrite (mget_mset_same _ seqb) in Hk. injection Hk as <-. auto.
    + rewrite (mget_mset_other _ seqb) in Hk by auto. auto.
  - intros id' Hid. destruct (string_dec id' id) as [->|Hne]; [exists sk; apply (mget_mset_same _ seqb)|]. rewrite (mget_mset_other _ seqb) by auto. apply in_snoc in Hid as [Hid|Hid]; [auto|congruence].
  - apply (sget_snoc _ don id pk (fun id pk => pk_ID pk = id /\ pk_is pp pk (s_of id) (smallpoly (r_pk (rnd id))) (pscale W (Au O)))); [exact I7|]. split; [exact Epk|]. split; [exact K1|exact K0].
  - apply (sget_snoc _ don id rl (fun id rl => rlk_valid pp g Au U B (s_of id) (r_of id) rl)); [exact I8|].
    exists (fun t => smallpoly (r_b (rnd id) t)), (fun t => smallpoly (r_d (rnd id) t)), (fun t => smallpoly (r_v (rnd id) t)). split; [|auto].
    intros t Ht. split; [|split]; apply smallpoly_norm; auto.
  - apply (sget_snoc _ don id (NewSwitchingKey pp0) (fun _ v => swk_ok pp v)); [exact I9|]. rewrite Hsw. apply NewSwk_ok.
  - apply (sget_snoc _ don id (NewSwitchingKey pp0) (fun _ v => swk_ok pp v)); [exact I10|]. rewrite Hsw. apply NewSwk_ok.
  - intros id' x Hid Hx. apply in_snoc in Hid as [Hid| ->]; [apply G2, I11; auto|apply G1; exact Hx].
Qed.
Lemma genParties_ok : forall ids don st, built don st -> (forall id, In id ids -> party_ok pp Bs B (rnd id)) -> exists st', foldM (genParty pp0 pp rots rnd) ids st = Ok st' /\ built (don ++ ids) st'.
Proof.
  induction ids as [|id ids IH]; intros don st Hb Hr.
  - exists st. rewrite app_nil_r. auto.
  - destruct (genParty_ok don st id Hb (Hr id (or_introl eq_refl))) as (st1 & E & Hb1). destruct (IH (don ++ [id]) st1 Hb1) as (st2 & E2 & Hb2); [intros; apply Hr; now right|].
    exists st2. cbn [foldM]. rewrite E. cbn [bind]. split; [exact E2|]. now rewrite <- app_assoc in Hb2.
Qed.
Lemma rgood_keys rks ct x : In x rots -> (forall id, party ct id -> rgood rks id x) -> rot_keys pp g B s_of ct x rks.
Proof.
  intros Hx H. exists (AR x), (gin x). pose proof (Hrots x Hx). destruct (gin_ok x ltac:(lia)) as [G1 G2]. split; [now apply HAR|]. split; [auto|]. split; [auto|].
  intros id Hid. destruct (H id Hid) as (rk & Hk & Hv). unfold keyat in Hk. destruct (sget rks id) as [m|] eqn:E; [|discriminate]. eauto.
Qed.
End K.
