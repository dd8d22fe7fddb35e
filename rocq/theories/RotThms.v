(** What rotations and conjugation do to the encrypted polynomial. *)
From Coq Require Import String ZArith Znumtheory List Lia Setoid Morphisms Bool Permutation.
From Verif Require Import Spec SpecProofs Go GoProofs Lattigo LattigoProofs Arith Fermat NegRing NegRingProofs NTT NTTProofs F64 BasisExt BasisExtProofs ModDownProofs DecomposeProofs RingOps RingOpsProofs Maps MapsProofs Params Elements KeySwitch KeySets EncDec Utils Evaluator KSProofs KSMulProofs Crt ParamsProofs KSAlg KSNorm Repr SpecKeys KeySpec SpecCt KSSem MulThms SpecEnc EncProofs EncThms CkEncThms SpecEv EvProofs RescaleProofs EvThms AddThms MulEvThms Galois RotProofs SpecRot.
Import ListNotations.
Local Open Scope Z_scope.
Local Open Scope list_scope.

(** * the automorphisms *)
#[global] Instance psigma_proper N M e : Proper (peq N M ==> peq N M) (psigma N e).
Proof.
  intros a b H k Hk. unfold psigma. apply sumn_cong. intros i Hi. rewrite (H i Hi). reflexivity.
Qed.
Section Sigma.
Context (logN : nat).
Notation N := (deg logN).
Notation twoN := (2 * Z.of_nat N).
Let HN : (0 < N)%nat. Proof. apply deg_pos. Qed.
Lemma psigma_cong M e e' A : cong twoN e e' -> peq N M (psigma N e A) (psigma N e' A).
Proof.
  intros He k Hk. apply cong_eq. unfold psigma. apply sumn_ext. intros i Hi. f_equal. apply ext_cong2; [auto|].
  rewrite He. reflexivity.
Qed.
Lemma psigma_gi M e A : Z.Odd e -> peq N M (psigma N e A) (sigma_inv N (galInverse logN e) A).
Proof. intros He. apply psigma_inv; auto. now apply galInverse_ok. Qed.
Lemma psigma_comp M a b A : Z.Odd a -> Z.Odd b -> peq N M (psigma N a (psigma N b A)) (psigma N (a * b) A).
Proof.
  intros Ha Hb. destruct (galInverse_ok logN a Ha) as (_ & Oa & Ia). destruct (galInverse_ok logN b Hb) as (_ & Ob & Ib).
  rewrite (psigma_gi M a) by auto. rewrite (psigma_gi M b) by auto. rewrite sigma_comp by auto. symmetry. apply psigma_inv; auto.
  - rewrite <- Z.odd_spec in *. rewrite Z.odd_mul. now rewrite Ha, Hb.
  - replace (a * b * (galInverse logN a * galInverse logN b)) with ((a * galInverse logN a) * (b * galInverse logN b)) by ring. rewrite Ia, Ib. reflexivity.
Qed.
Lemma psigma_1 M A : peq N M (psigma N 1 A) A.
Proof. rewrite (psigma_inv N M 1 1); [|auto|exists 0; reflexivity|exists 0; reflexivity]. apply sigma_id; [auto|exists 0; reflexivity]. Qed.
Lemma psigma_add M e A B : peq N M (psigma N e (padd A B)) (padd (psigma N e A) (psigma N e B)).
Proof. intros k Hk. apply cong_eq. unfold psigma, padd. rewrite <- sumn_add. apply sumn_ext. intros; ring. Qed.
Lemma psigma_scale M e c A : peq N M (psigma N e (pscale c A)) (pscale c (psigma N e A)).
Proof. intros k Hk. apply cong_eq. unfold psigma, pscale. rewrite <- sumn_mul_l. apply sumn_ext. intros; ring. Qed.
Lemma pnorm_psigma e A B : Z.Odd e -> pnorm_le N A B -> pnorm_le N (psigma N e A) B.
Proof. intros He HA. eapply pnorm_peq; [symmetry; apply psigma_gi; auto|]. now apply pnorm_sigma. Qed.
End Sigma.

Lemma same_ct_of (F : string -> poly) (ct : ciphertext) keys : NoDup keys -> NoDup (mkeys ct) -> (forall id, In id (mkeys ct) <-> In id keys) ->
  (forall id, In id (mkeys ct) -> sget ct id = Some (F id)) -> same_ct ct (map (fun id => (id, F id)) keys).
Proof.
  intros H1 H2 H3 H4. assert (HK : mkeys (map (fun id => (id, F id)) keys) = keys) by (unfold mkeys; rewrite map_map; cbn; apply map_id).
  split; [auto|]. split; [now rewrite HK|]. intros id. destruct (in_dec string_dec id (mkeys ct)) as [Hin|Hn].
  - rewrite (H4 id Hin). apply H3 in Hin. clear - Hin. induction keys as [|a keys IH]; [destruct Hin|]. cbn. destruct (String.eqb_spec id a) as [->|Hne]; [reflexivity|].
    destruct Hin as [->|Hin]; [contradiction|]. apply IH; auto.
  - assert (G : forall m : ciphertext, ~ In id (mkeys m) -> sget m id = None). { intros m Hm. destruct (sget m id) eqn:E; auto. apply (mget_key _ seqb) in E. contradiction. }
    rewrite !G; auto. rewrite HK. intros Hk. apply Hn. now apply H3.
Qed.

Section T.
Context (env : kenv) (He : env_ok env).
Notation pp := (e_pp env).
Notation N := (pa_N pp).
Notation rQ := (ringQ pp).
Let Hpp := Hpp env He.

Lemma same_ct_ok l a b : same_ct a b -> ct_ok pp l b -> ct_ok pp l a.
Proof.
  intros (H1 & H2 & H3) [K1 K2 K3]. constructor; auto.
  - destruct (mget_ex _ seqb b _ K2) as (p & E). rewrite <- H3 in E. eapply (mget_key _ seqb); eauto.
  - intros id p E. rewrite H3 in E. eauto.
Qed.
Lemma same_party a b id : same_ct a b -> party a id <-> party b id.
Proof. intros H. unfold party. rewrite (same_ct_keys a b H id). tauto. Qed.

(** * one rotation *)
Lemma osrc_same l h a b id D : sget a id = sget b id -> osrc env l h a id D -> osrc env l h b id D.
Proof. intros E. unfold osrc. destruct h; [auto|]. now rewrite E. Qed.
Lemma crs_rows l k A : (l < QCount pp)%nat -> crs_is pp k A -> exists av, zget (pa_CRS pp) k = Some av /\ rowsb env l av A.
Proof.
  intros Hl (v & E & H1 & H2). exists v. split.
  - unfold getCRS, mptr in E. destruct (zget (pa_CRS pp) k) eqn:Ez; [congruence|discriminate].
  - apply (rowsb_of_krowsb env He l v A A Hl); [apply krows_krowsb; split; auto|]. intros; reflexivity.
Qed.
Lemma swkey_rows l g A Be sout sin v : (l < QCount pp)%nat -> swkey_valid pp g A Be sout sin v ->
  exists e, (forall t, (t < Beta pp l)%nat -> pnorm_le N (e t) Be) /\
    rowsb env l v (fun t => padd (psub (e t) (pmul N sout (A t))) (pscale (bigP pp) (pmul N (pconst (g t)) sin))).
Proof.
  intros Hl (e & Hn & HK). pose proof (Beta_max env He l Hl) as Hm. exists e. split; [intros t Ht; apply Hn; lia|].
  eapply rowsb_of_krowsb; [exact He|exact Hl|apply krows_krowsb, HK|]. intros t _. unfold gmsg. intros i _. unfold padd, psub. apply cong_eq. ring.
Qed.
Lemma rot_step g s Bs Be Dm ctIn li l rks rotidx m h0 : rot_setting pp g s Bs Dm ctIn li -> (l <= li)%nat ->
  0 <= m -> cong (Z.of_nat N / 2) rotidx m -> rot_keys pp g Be s ctIn (normNeg (pa_logN pp) rotidx) rks -> maybe_hoisted_at env li ctIn h0 ->
  exists cout, auto_result pp s l ctIn (5 ^ m) (step_noise pp l ctIn Bs Be Dm) cout /\
    forall ctIn' ctOut o h k, same_ct ctIn' ctIn -> ct_ok pp l ctOut -> same_keys ctOut ctIn -> order_ok o -> pool_ok pp k ->
      h = h0 \/ h0 = None /\ maybe_hoisted_at env l ctIn' h ->
      exists ct' k', RotateGen env o ctIn' rotidx h rks ctOut k = Ok (ct', k') /\ pool_ok pp k' /\ mkeys ct' = mkeys ctOut /\ same_ct ct' cout.
Proof.
  intros [HI HliQ Hg Hs HDm] Hll Hm Hcm (A & g' & HA & Hg'o & Hg'c & HK) Hh0.
  set (kk := normNeg (pa_logN pp) rotidx) in *. set (gal := galColumn (pa_logN pp) kk). set (gal' := galInverse (pa_logN pp) gal).
  assert (HN : (0 < N)%nat) by apply deg_pos. assert (Hl : (l < QCount pp)%nat) by lia.
  assert (HlN : (1 <= pa_logN pp)%nat) by (apply (ro_log rQ (po_rQ _ Hpp))).
  destruct (normNeg_ok (pa_logN pp) rotidx HlN) as [Hk0 Hkc]. fold kk in Hk0, Hkc. fold N in Hkc.
  destruct (galColumn_ok (pa_logN pp) kk) as [Hg1 Hg2]. fold gal in Hg1, Hg2.
  destruct (galInverse_ok (pa_logN pp) gal Hg2) as (Hg3 & Hg4 & Hg5). fold gal' in Hg3, Hg4, Hg5.
  assert (Hgk : cong (2 * Z.of_nat N) gal (5 ^ kk)) by (apply galColumn_cong; auto; reflexivity).
  assert (Hgm : cong (2 * Z.of_nat N) gal (5 ^ m)).
  { apply galColumn_cong; auto. rewrite <- Hkc. exact Hcm. }
  destruct (ct_lift env He li ctIn HliQ HI) as (f & Hf). set (L := ids_of_ct ctIn). pose proof (ids_of_ct_ok ctIn (ck_nd _ _ _ HI)) as HL. fold L in HL. destruct HL as [HLn HLi].
  destruct (dig_any env He li li l Dm ltac:(lia) ltac:(lia) HDm li ctIn h0 f ltac:(lia) HI Hf) as (D & HD). { destruct h0; [|exact I]. cbn in *. apply (hoisted_hoist_ok env He li li); auto; lia. }
  fold L in HD.
  set (s' := fun id => psigma N g' (s id)).
  destruct (choose_str (fun _ => pzero) L (fun id e => exists rk, GetRotationKey rks id kk = Ok rk /\ (forall t, (t < Beta pp l)%nat -> pnorm_le N (e t) Be) /\
    rowsb env l (rk_val rk) (fun t => padd (psub (e t) (pmul N (s' id) (A t))) (pscale (bigP pp) (pmul N (pconst (g t)) (s id)))))) as (e & He1).
  { intros id Hin. destruct (HK id) as (mm & rk & E1 & E2 & HV); [now apply HLi|]. destruct (swkey_rows l g A Be _ _ _ Hl HV) as (e & X1 & X2). exists e, rk.
    split; [|split; [exact X1|exact X2]]. unfold GetRotationKey. now rewrite E1, E2. }
  destruct (switch_sem env He l L f D g A s s' e Bs Be Dm) as (C & Ca & w & Hep & Hw & Hph); auto.
  { intros i Hi. apply (pnorm_psigma (pa_logN pp)); auto. apply Hs. now apply HLi. }
  { intros i t Hi Ht. destruct (He1 i Hi) as (rk & _ & X & _). auto. }
  { intros i t Hi Ht. now apply HD. } { intros i j Hi Hj. now apply HD. }
  destruct (crs_rows l kk A Hl HA) as (av & Hav & Havr).
  destruct (mget_ex _ seqb ctIn _ (ck_0 _ _ _ HI)) as (c0 & Hc0).
  set (F := rout env l rotidx f C Ca c0 L).
  set (cout := map (fun id => (id, F id)) (mkeys ctIn)).
  assert (HKc : mkeys cout = mkeys ctIn) by (unfold cout, mkeys; rewrite map_map; cbn; apply map_id).
  assert (Hsc : forall ct, NoDup (mkeys ct) -> (forall id, In id (mkeys ct) <-> In id (mkeys ctIn)) -> (forall id, In id (mkeys ct) -> sget ct id = Some (F id)) -> same_ct ct cout).
  { intros ct X1 X2 X3. apply same_ct_of; auto. apply HI. }
  assert (HFok : forall id, In id (mkeys ctIn) -> p_ntt (F id) = false /\ plen (F id) = (l + 1)%nat /\ prep rQ (fun q => q + 1) (l + 1) (p_co (F id)) (sigma_inv N gal' (rbody f C Ca L id))).
  { intros id Hin. apply (rout_ok env He ctIn li l rks rotidx f (swK env g A s s' e) D A C Ca gal' c0 L (conj HLn HLi) ltac:(lia) Hf Hc0); auto. intros x Hx. destruct (He1 x Hx) as (rk & X1 & _ & X2). exists rk. auto. }
  assert (Hget : forall id, In id (mkeys ctIn) -> sget cout id = Some (F id)).
  { intros id Hin. unfold cout. clear - Hin. induction (mkeys ctIn) as [|a K IH]; [destruct Hin|]. cbn. destruct (String.eqb_spec id a) as [->|]; [reflexivity|]. destruct Hin; [congruence|auto]. }
  exists cout. split; [split; [|split]|].
  - constructor; [rewrite HKc; apply HI|rewrite HKc; apply HI|]. intros id p Ep. assert (Hin : In id (mkeys ctIn)) by (rewrite <- HKc; eapply (mget_key _ seqb); eauto).
    rewrite (Hget id Hin) in Ep. injection Ep as <-. destruct (HFok id Hin) as (X1 & X2 & (_ & _ & X3)). split; [auto|]. split; [auto|]. intros j Hj. destruct (X3 j ltac:(lia)) as [Y1 Y2].
    split; [exact Y1|]. intros x Hx. destruct (Y2 x Hx) as [Y3 _]. cbn [r_mods ringQ] in Y3. lia.
  - intros id. now rewrite HKc.
  - exists (sigma_inv N gal' w). split.
    + unfold step_noise. rewrite <- (nparties_ok ctIn) by apply HI. fold L. eapply pnorm_peq; [apply sigma_scale|]. now apply pnorm_sigma.
    + intros j Hj. unfold modulus. set (q := nth j (pa_Q pp) 0).
      rewrite (phase_lift env l s cout (fun id => sigma_inv N gal' (rbody f C Ca L id)) j); [|rewrite HKc; apply HI| |auto].
      2:{ intros id Hin. rewrite HKc in Hin. exists (F id), (fun q => q + 1). split; [auto|]. now apply HFok. }
      rewrite (phase_lift env li s ctIn f j); [|apply HI|intros id Hin; destruct (Hf id Hin) as (p & Ep & HPr & _); eauto|lia].
      fold q. rewrite HKc. rewrite (phase_split env q s _ (mkeys ctIn) L) by (auto; apply HI). rewrite (phase_split env q s f (mkeys ctIn) L) by (auto; apply HI).
      unfold rbody at 1. cbn [String.eqb].
      assert (E1 : peq N q (psumL (fun id => pmul N (s id) (sigma_inv N gal' (rbody f C Ca L id))) L) (sigma_inv N gal' (psumL (fun id => pmul N (s' id) (Ca id)) L))).
      { rewrite <- psumL_sigma. apply psumL_ext. intros id Hin. rewrite sigma_mul; [|auto|auto|]. 2:{ apply (rel_prime_inv _ gal). exact Hg5. }
        unfold rbody. apply HLi in Hin as [_ Hne]. rewrite (proj2 (String.eqb_neq id "0") Hne). apply pmul_proper; [|reflexivity].
        unfold s'. rewrite <- (psigma_inv N q gal gal') by auto. rewrite (psigma_comp (pa_logN pp)) by auto. rewrite (psigma_cong (pa_logN pp) q (gal * g') 1).
        - symmetry. apply (psigma_1 (pa_logN pp)).
        - rewrite Hgk. exact Hg'c. }
      rewrite E1. rewrite <- sigma_add.
      assert (E2 : peq N q (padd (padd (f "0"%string) (psumL C L)) (psumL (fun id => pmul N (s' id) (Ca id)) L)) (padd (padd (f "0"%string) (psumL (fun i => pmul N (s i) (f i)) L)) w)).
      { specialize (Hph j Hj). fold q in Hph. transitivity (padd (f "0"%string) (psumL (fun i => padd (C i) (pmul N (s' i) (Ca i))) L)).
        - rewrite (psumL_add N q C). intros i _. apply cong_eq. unfold padd. ring.
        - rewrite Hph. intros i _. apply cong_eq. unfold padd. ring. }
      rewrite E2. rewrite sigma_add. apply padd_proper; [|reflexivity]. rewrite <- (psigma_inv N q gal gal') by auto. apply (psigma_cong (pa_logN pp)). exact Hgm.
  - intros ctIn' ctOut o h k Hsame HO Hko Ho Hk Hh. pose proof (same_ct_ok li ctIn' ctIn Hsame HI) as HI'. pose proof (same_ct_keys _ _ Hsame) as HK'.
    assert (HL' : ids_of ctIn' L) by (split; [auto|]; intros x; rewrite HLi, HK'; tauto).
    destruct (RotateGen_ok env He ctIn' ctOut li l rks rotidx av f (swK env g A s s' e) D A C Ca gal' c0 L HI' HL' HO ltac:(lia)) with (o := o) (h := h) (k := k) as (ct' & k' & E & Hk' & HK2 & HG); auto.
    + intros id. rewrite HK'. apply Hko.
    + intros id Hin. destruct Hsame as (_ & _ & Hgets). rewrite Hgets. apply Hf. now apply HK'.
    + destruct Hsame as (_ & _ & Hgets). now rewrite Hgets.
    + intros id Hin. destruct (He1 id Hin) as (rk & X1 & _ & X2). exists rk. auto.
    + intros id Hin. assert (HS0 : osrc env l h0 ctIn' id (D id)). { destruct Hsame as (_ & _ & Hgets). eapply osrc_same; [symmetry; apply Hgets|]. now apply HD. }
      destruct Hh as [->|[-> Hh]]; [auto|]. destruct h as [h|]; [|auto]. apply (hoisted_osrc env He l); auto. apply (same_party ctIn' ctIn id Hsame). now apply HLi.
    + exists ct', k'. split; [exact E|]. split; [auto|]. split; [auto|]. apply Hsc.
      * rewrite HK2. apply HO.
      * intros id. rewrite HK2. apply Hko.
      * intros id Hin. apply HG. now rewrite <- HK2.
Qed.
End T.
