(** What conjugation does to the encrypted polynomial. *)
From Coq Require Import String ZArith Znumtheory List Lia Setoid Morphisms Bool Permutation.
From Verif Require Import Spec SpecProofs Go GoProofs Lattigo LattigoProofs Arith Fermat NegRing NegRingProofs NTT NTTProofs F64 BasisExt BasisExtProofs ModDownProofs DecomposeProofs RingOps RingOpsProofs Maps MapsProofs Params Elements KeySwitch KeySets EncDec Utils Evaluator KSProofs KSMulProofs Crt ParamsProofs KSAlg KSNorm Repr SpecKeys KeySpec SpecCt KSSem MulThms SpecEnc EncProofs EncThms CkEncThms SpecEv EvProofs RescaleProofs EvThms AddThms MulEvThms Galois RotProofs SpecRot RotThms.
Import ListNotations.
Local Open Scope Z_scope.
Local Open Scope list_scope.

Section T.
Context (env : kenv) (He : env_ok env).
Notation pp := (e_pp env).
Notation N := (pa_N pp).
Notation rQ := (ringQ pp).
Let Hpp := Hpp env He.
Notation gal := (galRow (pa_logN pp)).

Lemma sigma_conj M A : peq N M (psigma N (-1) A) (sigma_inv N gal A).
Proof.
  destruct (galRow_ok (pa_logN pp)) as (H1 & H2 & H3).
  rewrite (psigma_cong (pa_logN pp) M (-1) gal). - apply psigma_inv; auto. apply deg_pos.
  - exists (-1). unfold galRow. ring.
Qed.
Lemma conj_step g s Bs Be Dm ctIn l cks : rot_setting pp g s Bs Dm ctIn l -> QCount pp = (l + 1)%nat -> conj_keys pp g Be s ctIn cks ->
  exists cout, auto_result pp s l ctIn (-1) (step_noise pp l ctIn Bs Be Dm) cout /\
    forall ctOut o k, ct_ok pp l ctOut -> same_keys ctOut ctIn -> order_ok o -> pool_ok pp k ->
      exists ct' k', Conjugate env o ctIn cks ctOut k = Ok (ct', k') /\ pool_ok pp k' /\ mkeys ct' = mkeys ctOut /\ same_ct ct' cout.
Proof.
  intros [HI Hl Hg Hs HDm] Hmax (A & HA & HK).
  assert (HN : (0 < N)%nat) by apply deg_pos.
  assert (HlN : (1 <= pa_logN pp)%nat) by (apply (ro_log rQ (po_rQ _ Hpp))).
  destruct (galRow_ok (pa_logN pp)) as (Hg1 & Hg2 & Hg3).
  destruct (ct_lift env He l ctIn Hl HI) as (f & Hf). set (L := ids_of_ct ctIn). pose proof (ids_of_ct_ok ctIn (ck_nd _ _ _ HI)) as HL. fold L in HL. assert (HLc := HL). destruct HL as [HLn HLi].
  set (f' := fun id => sigma_inv N gal (f id)). set (s' := fun id => psigma N (-1) (s id)).
  assert (Hpm : forall id p, In id (mkeys ctIn) -> sget ctIn id = Some p -> p_ntt (cperm env l p) = false /\ plen (cperm env l p) = (l + 1)%nat /\ prep rQ (fun q => q + 1) (l + 1) (p_co (cperm env l p)) (f' id)).
  { intros id p Hin Ep. apply (cperm_ok env He ctIn l f Hmax Hf id p Hin Ep). }
  destruct (choose_str (fun _ => pzero) L (fun id D => exists p, sget ctIn id = Some p /\ digits env l (p_co (cperm env l p)) D)) as (D & HD).
  { intros id Hin. apply HLi in Hin as [Hin _]. destruct (Hf id Hin) as (p & E & _). destruct (Hpm id p Hin E) as (P1 & P2 & P3). destruct (digits_exist env He l (p_co (cperm env l p)) Hl) as (D & HD).
    - apply (prep_input env l _ (f' id) (fun q => q + 1) Hl); [|exact P3|intros; lia]. unfold shp. apply Forall_forall. intros x Hx. apply (In_nth _ _ []) in Hx as (j & Hj & <-). unfold plen in P2. rewrite P2 in Hj. destruct P3 as (_ & _ & P3). pose proof (P3 j Hj) as X. split; [apply X|]. eapply lrep_words; [|exact X]. destruct (ring_q1 rQ j (po_rQ _ Hpp)) as [_ X2]; [cbn [r_mods ringQ]; unfold QCount in Hl; lia|]. cbn [r_mods ringQ] in *. destruct (ring_q1 rQ j (po_rQ _ Hpp)) as [X1 _]; [cbn [r_mods ringQ]; unfold QCount in Hl; lia|]. cbn [r_mods ringQ] in *. lia.
    - exists D, p. auto. }
  assert (HD' : forall id p, In id L -> sget ctIn id = Some p -> digits env l (p_co (cperm env l p)) (D id)).
  { intros id p Hin E. destruct (HD id Hin) as (p' & E' & H). rewrite E in E'. injection E' as <-. exact H. }
  destruct (choose_str (fun _ => pzero) L (fun id e => exists ck, GetConjugationKey cks id = Ok ck /\ (forall t, (t < Beta pp l)%nat -> pnorm_le N (e t) Be) /\
    rowsb env l (cj_val ck) (fun t => padd (psub (e t) (pmul N (s id) (A t))) (pscale (bigP pp) (pmul N (pconst (g t)) (s' id)))))) as (e & He1).
  { intros id Hin. destruct (HK id) as (ck & E1 & HV); [now apply HLi|]. destruct (swkey_rows env He l g A Be _ _ _ Hl HV) as (e & X1 & X2). exists e, ck.
    split; [|split; [exact X1|exact X2]]. unfold GetConjugationKey. now rewrite E1. }
  destruct (switch_sem env He l L f' D g A s' s e Bs Be Dm) as (C & Ca & w & Hep & Hw & Hph); auto.
  { intros i Hi. apply Hs. now apply HLi. }
  { intros i t Hi Ht. destruct (He1 i Hi) as (ck & _ & X & _). auto. }
  { intros i t Hi Ht. destruct (HD i Hi) as (p & E & Hd). eapply pnorm_le_trans; [apply (digit_bound_ok env He l Dm t HDm Hl Ht)|]. eapply (digits_norm env He); eauto. }
  { intros i j Hi Hj. destruct (HD i Hi) as (p & E & Hd). eapply (digits_cong env He l _ (D i) (f' i) j (fun q => q + 1)); [auto|exact Hd| |auto]. apply Hpm; [now apply HLi|auto]. }
  destruct (crs_rows env He l (-2) A Hl HA) as (av & Hav & Havr).
  destruct (mget_ex _ seqb ctIn _ (ck_0 _ _ _ HI)) as (c0 & Hc0).
  set (F := RotProofs.cout env l f C Ca L c0).
  set (cout := map (fun id => (id, F id)) (mkeys ctIn)).
  assert (HKc : mkeys cout = mkeys ctIn) by (unfold cout, mkeys; rewrite map_map; cbn; apply map_id).
  assert (Hsc : forall ct, NoDup (mkeys ct) -> (forall id, In id (mkeys ct) <-> In id (mkeys ctIn)) -> (forall id, In id (mkeys ct) -> sget ct id = Some (F id)) -> same_ct ct cout).
  { intros ct X1 X2 X3. apply same_ct_of; auto. apply HI. }
  assert (Hck : forall id, In id L -> exists ck, GetConjugationKey cks id = Ok ck /\ rowsb env l (cj_val ck) (swK env g A s' s e id)).
  { intros id Hin. destruct (He1 id Hin) as (ck & X1 & _ & X2). exists ck. auto. }
  assert (HDs : forall id p, In id L -> sget ctIn id = Some p -> dsrc env l (cperm env l p) (D id)).
  { intros id p Hin E. apply dsrc_coeff; [reflexivity|auto]. }
  assert (HFok : forall id, In id (mkeys ctIn) -> p_ntt (F id) = false /\ plen (F id) = (l + 1)%nat /\ prep rQ (fun q => q + 1) (l + 1) (p_co (F id)) (cbody env f C Ca L id)).
  { intros id Hin. apply (cout_ok env He ctIn l cks f (swK env g A s' s e) D A C Ca L HLc Hmax Hf Hck HDs Hep c0 id Hc0 Hin). }
  assert (Hget : forall id, In id (mkeys ctIn) -> sget cout id = Some (F id)).
  { intros id Hin. unfold cout. clear - Hin. induction (mkeys ctIn) as [|a K IH]; [destruct Hin|]. cbn. destruct (String.eqb_spec id a) as [->|]; [reflexivity|]. destruct Hin; [congruence|auto]. }
  exists cout. split; [split; [|split]|].
  - constructor; [rewrite HKc; apply HI|rewrite HKc; apply HI|]. intros id p Ep. assert (Hin : In id (mkeys ctIn)) by (rewrite <- HKc; eapply (mget_key _ seqb); eauto).
    rewrite (Hget id Hin) in Ep. injection Ep as <-. destruct (HFok id Hin) as (X1 & X2 & (_ & _ & X3)). split; [auto|]. split; [auto|]. intros j Hj. destruct (X3 j ltac:(lia)) as [Y1 Y2].
    split; [exact Y1|]. intros x Hx. destruct (Y2 x Hx) as [Y3 _]. cbn [r_mods ringQ] in Y3. lia.
  - intros id. now rewrite HKc.
  - exists w. split.
    + unfold step_noise. rewrite <- (nparties_ok ctIn) by apply HI. exact Hw.
    + intros j Hj. unfold modulus. set (q := nth j (pa_Q pp) 0).
      rewrite (phase_lift env l s cout (cbody env f C Ca L) j); [|rewrite HKc; apply HI| |auto].
      2:{ intros id Hin. rewrite HKc in Hin. exists (F id), (fun q => q + 1). split; [auto|]. now apply HFok. }
      rewrite (phase_lift env l s ctIn f j); [|apply HI|intros id Hin; destruct (Hf id Hin) as (p & Ep & HPr & _); eauto|lia].
      fold q. rewrite HKc. rewrite (phase_split env q s _ (mkeys ctIn) L) by (auto; apply HI). rewrite (phase_split env q s f (mkeys ctIn) L) by (auto; apply HI).
      change (cbody env f C Ca L "0"%string) with (padd (sigma_inv N gal (f "0"%string)) (psumL C L)).
      assert (E1 : peq N q (psumL (fun id => pmul N (s id) (cbody env f C Ca L id)) L) (psumL (fun id => pmul N (s id) (Ca id)) L)).
      { apply psumL_ext. intros id Hin. unfold cbody. apply HLi in Hin as [_ Hne]. rewrite (proj2 (String.eqb_neq id "0") Hne). reflexivity. }
      assert (E2 : peq N q (psumL (fun i => pmul N (s' i) (f' i)) L) (psigma N (-1) (psumL (fun i => pmul N (s i) (f i)) L))).
      { rewrite sigma_conj. rewrite <- psumL_sigma. apply psumL_ext. intros id Hin. rewrite sigma_mul; [|auto|auto|]. 2:{ apply (rel_prime_inv _ gal). exact Hg3. }
        apply pmul_proper; [|reflexivity]. apply sigma_conj. }
      specialize (Hph j Hj). fold q in Hph. rewrite E1. rewrite (psigma_add (pa_logN pp)). rewrite <- E2.
      transitivity (padd (psigma N (-1) (f "0"%string)) (psumL (fun i => padd (C i) (pmul N (s i) (Ca i))) L)).
      * rewrite (psumL_add N q C). rewrite sigma_conj. intros i _. apply cong_eq. unfold padd. ring.
      * rewrite Hph. change (deg (pa_logN pp)) with N. intros i _. apply cong_eq. unfold padd. ring.
  - intros ctOut o k HO Hko Ho Hk.
    destruct (Conjugate_ok env He ctIn ctOut l cks av f (swK env g A s' s e) D A C Ca L HI HLc HO Hmax Hko Hf Hav Havr Hck HDs Hep c0 o k Hc0 Ho Hk) as (ct' & k' & E & Hk' & HK2 & HG).
    exists ct', k'. split; [exact E|]. split; [auto|]. split; [auto|]. apply Hsc.
    + rewrite HK2. apply HO.
    + intros id. rewrite HK2. apply Hko.
    + intros id Hin. apply HG. now rewrite <- HK2.
Qed.

(** below the maximal level the permutation runs out of limbs *)
Lemma mapM_seq_panic {A} (F : nat -> res A) : forall n b m, (b <= m < b + n)%nat -> (forall j, F j = Panic PIndex \/ exists y, F j = Ok y) -> F m = Panic PIndex -> mapM F (seq b n) = Panic PIndex.
Proof.
  induction n as [|n IH]; intros b m Hm HF Hp; [lia|]. cbn [seq mapM]. destruct (HF b) as [E|(y & E)].
  - now rewrite E.
  - rewrite E. cbn [bind]. assert (b <> m) by (intros ->; congruence). rewrite (IH (S b) m); auto. lia.
Qed.
Lemma idx_some {A} (d : A) (x : list A) j : (j < length x)%nat -> idx x j = Ok (nth j x d).
Proof. intros H. unfold idx. now rewrite (nth_error_nth' x d H). Qed.
Lemma idx_none {A} (x : list A) j : (length x <= j)%nat -> idx x j = Panic PIndex.
Proof. intros H. unfold idx. now rewrite (proj2 (nth_error_None x j)). Qed.
Lemma idx_cases {A} (x : list A) j : idx x j = Panic PIndex \/ exists y, idx x j = Ok y.
Proof. unfold idx. destruct (nth_error x j); eauto. Qed.
Lemma Permute_panics a g d : (plen a < length (r_mods rQ))%nat \/ (plen d < length (r_mods rQ))%nat -> Permute rQ a g d = Panic PIndex.
Proof.
  intros H. unfold Permute, lvl3.
  assert (HL : (0 < length (r_mods rQ))%nat) by lia. replace (length (r_mods rQ) - 1 + 1)%nat with (length (r_mods rQ)) by lia.
  match goal with |- context [mapM ?F (seq 0 ?n)] => rewrite (mapM_seq_panic F n 0%nat (Nat.min (plen a) (plen d))) end; [reflexivity|lia| |].
  - intros j. destruct (idx_cases (r_mods rQ) j) as [->|(? & ->)]; [now left|]. cbn [bind].
    destruct (idx_cases (p_co a) j) as [->|(? & ->)]; [now left|]. cbn [bind]. destruct (idx_cases (p_co d) j) as [->|(? & ->)]; [now left|]. right. cbn [bind]. eauto.
  - destruct (idx_cases (r_mods rQ) (Nat.min (plen a) (plen d))) as [->|(? & ->)]; [reflexivity|]. cbn [bind]. unfold plen in *.
    unfold plen in *. destruct (Nat.min_dec (length (p_co a)) (length (p_co d))) as [E|E]; rewrite E in *.
    + now rewrite (idx_none (p_co a)).
    + destruct (idx_cases (p_co a) (length (p_co d))) as [->|(? & ->)]; [reflexivity|]. cbn [bind]. now rewrite (idx_none (p_co d)).
Qed.
Lemma conj_panics ctIn ctOut li l cks o k : ct_ok pp li ctIn -> ct_ok pp l ctOut -> same_keys ctOut ctIn -> (l <= li)%nat -> (l + 1 < QCount pp)%nat -> order_ok o ->
  Conjugate env o ctIn cks ctOut k = Panic PIndex.
Proof.
  intros HI HO Hk Hll Hl Ho. unfold Conjugate. rewrite (ct_level env l ctOut HO). cbn [bind].
  pose proof (ids_of_ct_ok ctIn (ck_nd _ _ _ HI)) as HL. destruct (ctIDSet_perm o ctIn _ Ho HL) as (ids & Ei & _). rewrite Ei. cbn [bind].
  rewrite (ct_level env li ctIn HI). cbn [bind]. rewrite (proj2 (Nat.ltb_ge li l)) by lia.
  assert (H0 : In "0"%string (o 1%nat (mkeys ctIn))) by (apply (order_in o 1%nat); auto; apply HI).
  assert (HS : forall x, In x (o 1%nat (mkeys ctIn)) -> In x (mkeys ctIn)) by (intros x; apply (order_in o 1%nat _ x Ho)).
  destruct (o 1%nat (mkeys ctIn)) as [|x xs]; [destruct H0|]. cbn [foldM]. pose proof (HS x (or_introl eq_refl)) as Hx.
  destruct (mget_ex _ seqb ctIn x Hx) as (a & Ea). destruct (mget_ex _ seqb ctOut x (proj2 (Hk x) Hx)) as (p & Ep). unfold mptr. rewrite Ea. cbn [bind].
  unfold ctUpd, mptr. rewrite Ep. cbn [bind]. rewrite Permute_panics; [reflexivity|]. right. destruct (ck_comp _ _ _ HO x p Ep) as (_ & E & _). rewrite E. exact Hl.
Qed.
End T.
