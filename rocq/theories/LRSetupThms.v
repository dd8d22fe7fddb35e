(** The keys genTestParams generates are what the encrypted logistic regression needs. *)
From Coq Require Import Reals String DecimalString ZArith Znumtheory List Lia Lra Bool Permutation.
From Verif Require Import Spec SpecProofs Go GoProofs Lattigo LattigoProofs Arith NegRing NegRingProofs NTT NTTProofs F64 BasisExt BasisExtProofs RingOps RingOpsProofs Maps MapsProofs Params Elements KeySwitch KeySets KeyGen EncDec Evaluator KSProofs ParamsProofs Repr Crt Galois KeyGenProofs ParamsSpec SpecKeys KeySpec KeyThms SpecCt World SpecEnc EncProofs EncThms CkEncThms EncWorld SpecEv EvProofs EvThms SpecRot RotEvThms RotWorld SpecSlots SlotThms LR LREval SpecLREnc LRSetup SpecSetup LRSetupProofs.
Import ListNotations.
Local Open Scope Z_scope.

Lemma companyName_0 i : companyName i <> "0"%string.
Proof. unfold companyName. cbn [append]. discriminate. Qed.
Lemma companyNames_0 n : ~ In "0"%string (companyNames n).
Proof. unfold companyNames. rewrite in_map_iff. intros (i & E & _). exact (companyName_0 i E). Qed.
Lemma companyIDs_ok n : exists ids, companyIDs n = Ok ids /\ idset_ok ids /\ forall x, In x (mkeys ids) <-> In x (companyNames n).
Proof.
  destruct (idAdd_all (companyNames n) NewIDSet) as (ids & E & H1 & H2).
  - split; [constructor|intros []].
  - apply companyNames_0.
  - exists ids. split; [exact E|]. split; [exact H1|]. intros x. rewrite H2. cbn. tauto.
Qed.

(** ** the keys a rotation needs *)
Lemma listed_ready ce (He : env_ok (ce_env ce)) g Be s ct rks (L : list Z) k : let pp := e_pp (ce_env ce) in
  (forall i, 0 < i < Z.of_nat (pa_N pp) / 2 -> has_crs pp i -> In i L) -> (forall i, 0 <= i < Z.of_nat (pa_logN pp) - 1 -> In (2 ^ i) L) ->
  (forall x, In x L -> rot_keys pp g Be s ct x rks) ->
  exists n, 0 <= n <= Z.of_nat (pa_logN pp) - 1 /\ rot_ready pp g Be s ct rks (k mod (Z.of_nat (pa_N pp) / 2)) n.
Proof.
  intros pp Hd HL HK. pose proof (eo_pp _ He) as Hpp. assert (HlN : (1 <= pa_logN pp)%nat) by (apply (ro_log (ringQ pp) (po_rQ _ Hpp))). destruct (half_pos (pa_logN pp) HlN) as [Hh _]. change (deg (pa_logN pp)) with (pa_N pp) in *.
  pose proof (Z.mod_pos_bound k (Z.of_nat (pa_N pp) / 2) Hh) as Hb. set (r := k mod (Z.of_nat (pa_N pp) / 2)) in *.
  assert (HE : Z.of_nat (pa_N pp) / 2 = 2 ^ (Z.of_nat (pa_logN pp) - 1)).
  { unfold pa_N, deg. rewrite Nat2Z.inj_pow. change (Z.of_nat 2) with 2. replace (Z.of_nat (pa_logN pp)) with (Z.succ (Z.of_nat (pa_logN pp) - 1)) at 1 by lia. rewrite Z.pow_succ_r by lia. rewrite Z.mul_comm, Z.div_mul; lia. }
  destruct (Z.eq_dec r 0) as [->|Hnz]. { exists 0. split; [lia|constructor]. }
  assert (H2 : 2 <= Z.of_nat (pa_logN pp)). { destruct (Z.eq_dec (Z.of_nat (pa_logN pp)) 1) as [E|]; [|lia]. rewrite E in HE. cbn in HE. lia. }
  destruct (zget (pa_CRS pp) r) as [v|] eqn:Ev.
  - exists 1. split; [lia|]. apply rr_key; [lia|]. apply HK, Hd; [lia|]. exists v. exact Ev.
  - destruct r as [|p|p]; [lia| |lia]. exists (SpecRot.ones p). split. { pose proof (ones_le ce p (pa_logN pp - 1)) as X. rewrite Nat2Z.inj_sub in X by lia. rewrite HE in Hb. change (Z.of_nat 1) with 1 in X. lia. }
    apply rr_bits. { intros (v & E). congruence. }
    intros i Hi Hbit. apply HK, HL. split; [auto|]. destruct (Z.lt_ge_cases i (Z.of_nat (pa_logN pp) - 1)); auto. exfalso.
    assert (Z.log2 (Z.pos p) < i). { apply Z.log2_lt_pow2; [lia|]. eapply Z.lt_le_trans; [apply Hb|]. rewrite HE. apply Z.pow_le_mono_r; lia. }
    rewrite Z.bits_above_log2 in Hbit by lia. discriminate.
Qed.

Section T.
Context (logN : nat) (Q P psiQ psiP : list Z) (sc : f64) (lz : lazyf) (u : runRnd) (Bs B Dm : Z) (rots : list Z) (numCompany : nat).
Notation pb := (bare logN Q P psiQ psiP).
Context (H0 : params_ok pb) (HBs : bound_ok pb Bs) (HB : bound_ok pb B) (HDm0 : 0 <= Dm) (HDm : digit_bound pb Dm) (HS : samples_ok pb Bs B u).
Context (Hrots : forall x, In x rots -> 0 < x < Z.of_nat (pa_N pb) / 2) (Hc : (0 < numCompany)%nat).
Context (encode : poly -> list R -> poly) (ee : R) (Henc : encoder_ok pb sc encode ee).
Notation ids := (companyNames numCompany).
Notation s := (fun id => smallpoly (r_sk (u_party u id))).
Notation r := (fun id => smallpoly (r_r (u_party u id))).
Notation zeros := (repeat 0%R (pa_N pb / 2)).
Theorem setup_ok : exists pp0 is tc g A U pk, let cp := mkCkp (tc_pp tc) sc in
  NewParameters logN Q P psiQ psiP 2 (u_crs0 u) = Ok pp0 /\ companyIDs numCompany = Ok is /\ (forall x, In x (mkeys is) <-> In x ids) /\
  genTestParams (u_gen u) pp0 rots is (u_crs u) (u_party u) = Ok tc /\ same_rings pb (tc_pp tc) /\ params_ok (tc_pp tc) /\
  GetPublicKey (tc_pk tc) (companyName 0) = Ok pk /\ pk_ID pk = companyName 0 /\
  (exists e a, pk_is (tc_pp tc) pk (s (companyName 0)) e a /\ pnorm_le (pa_N (tc_pp tc)) e B) /\
  (forall ct, (forall id, party ct id -> In id ids) -> sks_ok (tc_pp tc) s ct (tc_sk tc) /\ forall id, party ct id -> has_key (tc_sk tc) id) /\
  forall en, encst_ok cp en -> let (ce, ev) := NewEvaluator (u_ev u) lz cp in e_pp (ce_env ce) = tc_pp tc /\ ce_scale ce = sc /\
    lr_setting ce g A U s r Bs B Dm (Z.of_nat logN - 1) ids (rs_keys (tc_rlk tc)) (tc_rot tc) (u_oo u) (u_zero u) pk encode zeros Bs B ee (mkLr ev (tc_rlk tc) en 0).
Proof.
  destruct (newParams_rows logN Q P psiQ psiP 2 H0 (u_crs0 u) (so_crs0 _ _ _ _ HS)) as (c & EP & C1 & C2).
  destruct (companyIDs_ok numCompany) as (is & EI & [I1 I2] & I3).
  destruct (addCRSs_ok logN Q P psiQ psiP 2 H0 (u_crs u) (so_crs _ _ _ _ HS) rots 0%nat c C1) as (c' & EA & C1' & C2').
  set (PP := PC logN Q P psiQ psiP 2) in *. set (pp := PP c') in *. assert (Hpp : params_ok pp) by (apply PC_ok; exact H0).
  assert (CRS : forall ix, In ix (crsIndices logN) \/ In ix rots -> exists A, crs_is pp ix A).
  { intros ix Hix. assert (exists v, zget c' ix = Some v) as (v & Hv) by (apply C2'; destruct Hix as [Hi|Hi]; [left; now apply C2|now right]). eapply rows_crs; [exact Hv|]. eapply C1'; exact Hv. }
  destruct (CRS 0) as (A & HA); [left; unfold crsIndices; cbn; auto|]. destruct (CRS (-1)) as (U & HU); [left; unfold crsIndices; cbn; auto|].
  destruct (gadget_exists pp Hpp) as (g & Hg).
  set (L := rots ++ map (fun i => 2 ^ Z.of_nat i) (seq 0 (logN - 1))).
  assert (HL0 : forall x, In x L -> 0 < x). { intros x. unfold L. rewrite in_app_iff, in_map_iff. intros [Hx|(i & <- & _)]; [apply Hrots in Hx; lia|lia]. }
  destruct (choose_list Z.eq_dec (fun _ : nat => pzero) (fun x A => crs_is pp x A) L) as (AR & HAR).
  { intros x. unfold L. rewrite in_app_iff. intros [Hx|Hx]; apply CRS; [now right|]. left. unfold crsIndices. rewrite in_app_iff. now right. }
  assert (BPP : forall X, bound_ok pb X -> bound_ok pp X) by (intros X HX; exact HX).
  assert (Hb0 : built pp g B (u_party u) A U L AR [] (mkTC pp [] [] NewRelinearizationKeyKeySet [], (ringPoly (ringQ pp), newQP pp))).
  { constructor; cbn [fst snd tc_pp tc_sk tc_pk tc_rlk tc_rot]; try (intros; contradiction); auto.
    - apply (newQP_shp pp). - apply newQP_shp. - constructor. - intros id sk; discriminate. }
  destruct (genParties_ok (PP c) pp Hpp eq_refl g Hg Bs B (BPP _ HBs) (BPP _ HB) (u_party u) A HA U HU L HL0 AR HAR (u_gen u 0%nat (mkeys is)) [] _ Hb0) as ([tc pools] & EG & HBu).
  { intros id _. exact (so_party _ _ _ _ HS id). }
  destruct HBu as [B1 B2 B3 B4 B5 B6 B7 B8 B9 B10 B11]. cbn [fst snd app] in *.
  assert (Hin : forall id, In id ids -> In id (u_gen u 0%nat (mkeys is))). { intros id Hid. eapply Permutation_in; [symmetry; apply (so_gen _ _ _ _ HS)|]. now apply I3. }
  assert (Hc0 : In (companyName 0) ids). { unfold companyNames. apply in_map, in_seq. lia. }
  destruct (B7 _ (Hin _ Hc0)) as (pk & Epk & Ipk & Hpk).
  exists (PP c), is, tc, g, A, U, pk. cbv zeta. rewrite !B1.
  split; [exact EP|]. split; [exact EI|]. split; [exact I3|]. split. { unfold genTestParams. rewrite EA. cbn [bind]. fold pp. change (pa_logN pp) with logN. fold L. rewrite EG. reflexivity. }
  split; [reflexivity|]. split; [exact Hpp|]. split; [unfold GetPublicKey; rewrite Epk; reflexivity|]. split; [exact Ipk|].
  assert (PN : forall e, small_ok (pa_N pp) B e -> pnorm_le (pa_N pp) (smallpoly e) B) by (intros; now apply smallpoly_norm).
  pose proof (so_party _ _ _ _ HS) as SP.
  assert (PK : exists e a, pk_is pp pk (s (companyName 0)) e a /\ pnorm_le (pa_N pp) e B). { exists (smallpoly (r_pk (u_party u (companyName 0)))), (pscale W (A O)). split; [exact Hpk|]. apply PN. exact (proj1 (proj2 (SP (companyName 0)))). }
  split; [exact PK|]. split.
  { intros ct Hct. split.
    - split; [exact B4|]. intros id sk Hk. destruct (B5 id sk Hk) as [X1 X2]. auto.
    - intros id Hid. destruct (B6 id (Hin _ (Hct _ Hid))) as (sk & Hk). eapply mget_key; [exact seqb|exact Hk]. }
  intros en Hen. destruct (NewEvaluator (u_ev u) lz (mkCkp pp sc)) as [ce ev] eqn:EN.
  pose proof (NewEvaluator_ok (u_ev u) lz (mkCkp pp sc) Hpp (so_ev _ _ _ _ HS)) as HE. rewrite EN in HE. destruct HE as (He & Epp & Esc & Hev). cbn [cp_pp cp_scale] in Epp, Esc, Hev.
  split; [exact Epp|]. split; [exact Esc|].
  assert (HlN : (1 <= pa_logN pp)%nat) by (apply (ro_log (ringQ pp) (po_rQ _ Hpp))).
  constructor; try rewrite !Epp; try rewrite !Esc.
  - exact He.
  - exact (proj1 (half_pos (pa_logN pp) HlN)).
  - constructor.
    + exact Hg.
    + exact HU.
    + exact HDm.
    + apply companyNames_0.
    + exact (proj1 HBs).
    + exact (proj1 HB).
    + exact HDm0.
    + intros id Hid. destruct (SP id) as (X1 & _ & X3 & _). split; apply smallpoly_norm; assumption.
    + intros id Hid. apply B8. auto.
    + intros ct k Hct. pose proof (listed_ready ce He g B s ct (tc_rot tc) L k) as HR. cbv zeta in HR. rewrite Epp in HR. apply HR.
      * intros i Hi (v & Hv). unfold L. rewrite in_app_iff. cbn [pa_CRS PC PP pp] in Hv. destruct (proj1 (C2' i) (ex_intro _ v Hv)) as [Hx|Hx]; [|now left]. right. apply C2 in Hx. unfold crsIndices in Hx. rewrite in_app_iff in Hx. destruct Hx as [Hx|Hx]; [cbn in Hx; lia|exact Hx].
      * intros i Hi. unfold L. rewrite in_app_iff. right. rewrite <- (Z2Nat.id i) by lia. apply (in_map (fun i => 2 ^ Z.of_nat i)), in_seq. change (pa_logN pp) with logN in Hi. lia.
      * intros x Hx. apply (rgood_keys pp g B (u_party u) L HL0 AR HAR); [exact Hx|]. intros id Hid. apply B11; auto.
  - exact (so_oo _ _ _ _ HS).
  - constructor; auto.
    + destruct PK as (e & a & K1 & K2). exists e, a. rewrite Ipk. auto.
    + rewrite Ipk. exact Hc0.
    + intros n. exact (so_zero _ _ _ _ HS n).
    + destruct (Henc zeros) as (_ & M & M1 & M2); [apply repeat_length|]. exists M. split; [exact M1|]. intros i Hi. specialize (M2 i Hi).
      assert (Ez : nth (Z.to_nat i) zeros 0%R = 0%R) by apply nth_repeat. rewrite Ez, Rmult_0_r in M2.
      replace (csub (slot (pa_N pb) M i) (creal 0)) with (slot (pa_N pb) M i) in M2; [exact M2|]. destruct (slot _ _ i). unfold csub, cadd, copp, creal. cbn [fst snd]. apply f_equal2; ring.
  - constructor; auto.
Qed.
End T.
