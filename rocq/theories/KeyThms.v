(** Key theorems in the form used by Props_Keys.v. *)
From Coq Require Import String ZArith Znumtheory List Lia Bool.
From Verif Require Import Spec SpecProofs Go GoProofs Lattigo LattigoProofs Arith NegRing NegRingProofs NTT NTTProofs F64 BasisExt BasisExtProofs ModDownProofs RingOps RingOpsProofs Maps MapsProofs Params Elements KeySwitch KeySets KeyGen KSProofs ParamsProofs Crt Galois KeyGenProofs ParamsSpec SpecKeys Shipped KeySpec KeyWitness.
Import ListNotations.
Local Open Scope Z_scope.

Lemma centred_min m x y : 0 < m -> cong m x y -> Z.abs (centred m x) <= Z.abs y.
Proof.
  intros Hm H. destruct H as [t Ht]. unfold centred. pose proof (Z.mod_pos_bound x m Hm). pose proof (Z.div_mod x m ltac:(lia)).
  assert (Hy : y = x mod m + m * (x / m - t)) by lia. set (u := x / m - t) in *. destruct (Z.ltb_spec m (2 * (x mod m))); destruct (Z_lt_le_dec u 0); destruct (Z_lt_le_dec 0 u); nia.
Qed.
Lemma stale_thm pp k g' smp pp' sk s A A' es B g poolQ rk poolQ' :
  params_ok pp -> 0 <= k -> crs_is pp k A -> sk_is pp sk s -> bound_ok pp B -> errs_ok pp B es -> gadget pp g -> pshp pp poolQ ->
  Z.Odd g' -> eqm (2 * Z.of_nat (pa_N pp)) (5 ^ k * g') 1 ->
  GenRotationKey pp k sk es poolQ = Ok (rk, poolQ') ->
  (forall i, uniform_sample pp (smp k i)) -> (forall i, qrep pp (maxLevel pp) (smp k i) (A' i)) -> AddCRS pp k smp = Ok pp' ->
  crs_is pp' k A' /\
  (forall E, krows pp' (rk_val rk) (fun t => psub (padd (E t) (gmsg pp' g t s)) (pmul (pa_N pp) (psigma (pa_N pp) g' s) (A' t))) <->
    forall t, (t < Beta pp (maxLevel pp))%nat ->
      peq (pa_N pp) (prodZ (pa_Q pp ++ pa_P pp)) (E t) (padd (smallpoly (es t)) (pmul (pa_N pp) (psigma (pa_N pp) g' s) (psub (A' t) (A t))))) /\
  (forall t i, (t < Beta pp (maxLevel pp))%nat -> (i < pa_N pp)%nat ->
     2 * B < Z.abs (centred (prodZ (pa_Q pp ++ pa_P pp)) (pmul (pa_N pp) (psigma (pa_N pp) g' s) (psub (A' t) (A t)) i)) ->
     ~ exists E : nat -> zpoly, Z.abs (E t i) <= B /\
         krows pp' (rk_val rk) (fun t => psub (padd (E t) (gmsg pp' g t s)) (pmul (pa_N pp) (psigma (pa_N pp) g' s) (A' t)))).
Proof.
  intros Hpp Hk HA Hs HB Hes Hg Hp Ho Hc EG HU HA' EA.
  destruct (AddCRS_ok (default_env pp) k smp (default_env_ok pp Hpp)) as (crs & E0 & Hpp' & _ & _ & H3). { intros i. apply uniform_ok; auto. }
  cbv zeta in E0, H3, Hpp'. change (e_pp (default_env pp)) with pp in *. assert (E0' := eq_trans (eq_sym EA) E0). clear E0. rename E0' into E0. injection E0 as ->.
  assert (Hn : k = normNeg (pa_logN pp) k) by (unfold normNeg; destruct (Z.ltb_spec k 0); lia).
  assert (Hm : mhas Z.eqb (pa_CRS pp) k = true). { destruct HA as (v & Hv & _). unfold getCRS, mptr in Hv. unfold mhas. destruct (mget Z.eqb (pa_CRS pp) k); [reflexivity|discriminate]. }
  destruct (rot_key_lemma pp Hpp k k g' sk s A es B g poolQ Hn Hm Hs HA HB Hes Hg Hp Ho) as (rk1 & p1 & E1 & _ & _ & _ & HR). { apply eqm_cong in Hc; [exact Hc|]. pose proof (deg_pos (pa_logN pp)). unfold pa_N. lia. }
  rewrite EG in E1. injection E1 as <- <-.
  assert (HI : forall E, krows (mkParams (pa_logN pp) (pa_Q pp) (pa_P pp) (pa_psiQ pp) (pa_psiP pp) (pa_gamma pp) crs) (rk_val rk) (fun t => psub (padd (E t) (gmsg (mkParams (pa_logN pp) (pa_Q pp) (pa_P pp) (pa_psiQ pp) (pa_psiP pp) (pa_gamma pp) crs) g t s)) (pmul (pa_N pp) (psigma (pa_N pp) g' s) (A' t))) <->
    forall t, (t < Beta pp (maxLevel pp))%nat ->
      peq (pa_N pp) (prodZ (pa_Q pp ++ pa_P pp)) (E t) (padd (smallpoly (es t)) (pmul (pa_N pp) (psigma (pa_N pp) g' s) (psub (A' t) (A t))))).
  { intros E. exact (stale_lemma pp Hpp (rk_val rk) (fun t => smallpoly (es t)) E g s (psigma (pa_N pp) g' s) A A' HR). }
  split; [exact (H3 A' HA')|]. split; [exact HI|]. intros t i Ht Hi Hgt (E & HE & HK).
  apply (proj1 (HI E)) with (t := t) (1 := HK) in Ht as HP. specialize (HP i Hi). unfold padd in HP.
  set (x := pmul _ _ _ i) in *. assert (HM : 0 < prodZ (pa_Q pp ++ pa_P pp)). { pose proof (po_good _ Hpp) as HC. apply prodZ_pos. apply Forall_app. split; eapply Forall_impl; try apply (gm_Q _ _ HC); try apply (gm_P _ _ HC); intros q; unfold mod61; lia. }
  pose proof (centred_min _ x (E t i - smallpoly (es t) i) HM) as HC. assert (cong (prodZ (pa_Q pp ++ pa_P pp)) x (E t i - smallpoly (es t) i)) as HX. { destruct HP as [u Hu]. exists (- u). lia. }
  specialize (HC HX). assert (Z.abs (smallpoly (es t) i) <= B). { specialize (Hes t Ht). destruct Hes as [HL HF]. unfold smallpoly. rewrite Forall_forall in HF.
    assert (Hin : In (nth i (es t) (true, 0)) (es t)) by (apply nth_In; now rewrite HL). specialize (HF _ Hin). destruct (nth i (es t) (true, 0)) as [[] c]; cbn in HF; lia. }
  lia.
Qed.
Lemma rotidx_thm pp rotidx sk s es B poolQ : let k := if rotidx <? 0 then rotidx mod (Z.of_nat (pa_N pp) / 2) else rotidx in
  params_ok pp -> (forall ix, mhas Z.eqb (pa_CRS pp) ix = true -> exists A, crs_is pp ix A) -> sk_is pp sk s -> bound_ok pp B -> errs_ok pp B es -> pshp pp poolQ ->
  (mhas Z.eqb (pa_CRS pp) rotidx = false -> GenRotationKey pp rotidx sk es poolQ = Panic (PMsg "Cannot GenRotationKey: CRS for given rot idx is not generated")) /\
  (mhas Z.eqb (pa_CRS pp) rotidx = true -> mhas Z.eqb (pa_CRS pp) k = true -> exists rk pool', GenRotationKey pp rotidx sk es poolQ = Ok (rk, pool') /\ rk_idx rk = k) /\
  (mhas Z.eqb (pa_CRS pp) rotidx = true -> mhas Z.eqb (pa_CRS pp) k = false -> GenRotationKey pp rotidx sk es poolQ = Panic PNil).
Proof.
  intros k Hpp HC Hs HB Hes Hp. split; [|split].
  - apply GenRotationKey_missing.
  - intros H1 H2. destruct (HC k H2) as (A & HA). destruct (gadget_exists pp Hpp) as (g & Hg).
    destruct (GenRotationKey_ok pp Hpp rotidx k sk s A es B g poolQ eq_refl H1 Hs HA HB Hes Hg Hp) as (rk & p & E & _ & Ek & _). eauto.
  - unfold k. intros H1 H2. destruct (Z.ltb_spec rotidx 0) as [Hn|Hn]; [|congruence]. exact (rot_nil_lemma pp Hpp rotidx sk s es B poolQ Hn H1 H2 Hs HB Hes Hp).
Qed.
Lemma toy_key_witness : exists pp sk, params_ok pp /\ pa_Q pp = toyQ /\ pa_P pp = toyP /\ pa_logN pp = 3%nat /\ pa_gamma pp = 2%nat /\
    bound_ok pp 1 /\ sk_is pp sk (smallpoly (ones (pa_N pp))) /\ errs_ok pp 1 (fun _ => ones (pa_N pp)) /\
    (forall ix, In ix (crsIndices (pa_logN pp)) -> crs_is pp ix (fun _ => pone)) /\
    (forall ix, mhas Z.eqb (pa_CRS pp) ix = true <-> In ix (crsIndices (pa_logN pp))) /\
    (exists g, gadget pp g) /\ pshp pp (qQ (newQP pp)) /\ qshp pp (newQP pp).
Proof. apply (key_witness (toy 2) 1 toy2_ok eq_refl); [vm_compute; reflexivity|lia]. Qed.
Lemma shipped_key_witness : exists pp sk, params_ok pp /\ pa_Q pp = shippedQ /\ pa_P pp = shippedP /\ pa_logN pp = 15%nat /\ pa_gamma pp = 2%nat /\
    bound_ok pp 19 /\ sk_is pp sk (smallpoly (ones (pa_N pp))) /\ errs_ok pp 19 (fun _ => ones (pa_N pp)) /\
    (forall ix, In ix (crsIndices (pa_logN pp)) -> crs_is pp ix (fun _ => pone)) /\
    (forall ix, mhas Z.eqb (pa_CRS pp) ix = true <-> In ix (crsIndices (pa_logN pp))) /\
    (exists g, gadget pp g) /\ pshp pp (qQ (newQP pp)) /\ qshp pp (newQP pp).
Proof. apply (key_witness shipped 19 shipped_ok eq_refl); [vm_compute; reflexivity|lia]. Qed.
Lemma stale_witness : exists pp sk s A A' g' smp g, params_ok pp /\ crs_is pp 1 A /\ sk_is pp sk s /\ bound_ok pp 1 /\ errs_ok pp 1 (fun _ => ones (pa_N pp)) /\
  gadget pp g /\ pshp pp (qQ (newQP pp)) /\ Z.Odd g' /\ eqm (2 * Z.of_nat (pa_N pp)) (5 ^ 1 * g') 1 /\
  (forall i, uniform_sample pp (smp 1 i)) /\ (forall i, qrep pp (maxLevel pp) (smp 1 i) (A' i)) /\
  2 * 1 < Z.abs (centred (prodZ (pa_Q pp ++ pa_P pp)) (pmul (pa_N pp) (psigma (pa_N pp) g' s) (psub (A' O) (A O)) O)).
Proof.
  destruct toy_key_witness as (pp & sk & H0 & EQ & EP & HL & _ & H1 & H2 & H3 & H4 & _ & (g & Hg) & H6 & _).
  destruct (const_sample pp 5 H0) as [U1 U2]. { rewrite EQ, EP. repeat (constructor; [lia|]). constructor. }
  exists pp, sk, (smallpoly (ones (pa_N pp))), (fun _ => pone), (fun _ => pconst 5), 13, (fun _ _ => constQP pp 5), g.
  split; [auto|]. split; [apply H4; rewrite HL; vm_compute; tauto|]. do 5 (split; [auto|]). split; [exists 6; reflexivity|].
  unfold pa_N. rewrite HL. split; [reflexivity|]. do 2 (split; [auto|]). rewrite EQ, EP. vm_compute. reflexivity.
Qed.
