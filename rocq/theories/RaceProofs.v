(** What MulRelinHoistedNew returns when the hoisting pools hold the digits of other operands. *)
From Coq Require Import String ZArith Znumtheory List Lia Setoid Morphisms Bool Permutation Ring.
From Verif Require Import Spec SpecProofs Go GoProofs Lattigo LattigoProofs Arith NegRing NegRingProofs NTT NTTProofs F64 BasisExt BasisExtProofs ModDownProofs DecomposeProofs RingOps RingOpsProofs Maps MapsProofs Params Elements KeySwitch KeySets EncDec Evaluator Repr KSProofs KSMulProofs KSAlg KSNorm Crt ParamsProofs KeyGenProofs SpecCt KSSem MulThms CkEncThms SpecEnc EncProofs SpecEv EvProofs RescaleProofs EvThms AddThms MulEvThms Conc SpecConc.
Import ListNotations.
Local Open Scope Z_scope.
Local Open Scope list_scope.

Section PR.
Context (N : nat) (M : Z) (HN : (0 < N)%nat).
Add Ring pringR : (peq_ring N M HN) (setoid (peq_equiv N M) (peq_ext N M)).
Lemma race_alg c0 c1 X Y fu fv a b e k w : peq N M (padd (padd (pmul N pzero pzero) e) k) (padd (pmul N (padd pzero fu) (padd pzero fv)) w) -> peq N M a (pmul N c1 X) -> peq N M b (pmul N c0 Y) ->
  peq N M (padd (padd (pmul N c0 c1) e) (padd (padd a b) k)) (padd (padd (psub (pmul N (padd c0 X) (padd c1 Y)) (pmul N X Y)) (pmul N fu fv)) w).
Proof.
  intros H Ha Hb. transitivity (padd (padd (pmul N c0 c1) (padd a b)) (padd e k)); [ring|]. rewrite Ha, Hb.
  assert (E : peq N M (padd e k) (padd (pmul N fu fv) w)). { transitivity (padd (padd (pmul N pzero pzero) e) k); [ring|]. rewrite H. ring. }
  rewrite E. ring.
Qed.
Lemma psub_padd_l a b : peq N M (psub (padd a b) a) b. Proof. ring. Qed.
Lemma pull c (F s : string -> zpoly) L : peq N M (psumL (fun i => pmul N (s i) (pmul N (F i) c)) L) (pmul N c (psumL (fun i => pmul N (s i) (F i)) L)).
Proof. induction L as [|a L IH]; cbn [psumL]; [ring|]. rewrite IH. ring. Qed.
Lemma pull' c (F s : string -> zpoly) L : peq N M (psumL (fun i => pmul N (s i) (pmul N c (F i))) L) (pmul N c (psumL (fun i => pmul N (s i) (F i)) L)).
Proof. induction L as [|a L IH]; cbn [psumL]; [ring|]. rewrite IH. ring. Qed.
Lemma zmul (E s f : string -> zpoly) L : peq N M (psumL (fun i => pmul N (s i) (padd (pmul N (f i) pzero) (E i))) L) (psumL (fun i => pmul N (s i) (E i)) L).
Proof. induction L as [|a L IH]; cbn [psumL]; [ring|]. rewrite IH. ring. Qed.
Lemma zmul' (E s f : string -> zpoly) L : peq N M (psumL (fun i => pmul N (s i) (padd (pmul N pzero (f i)) (E i))) L) (psumL (fun i => pmul N (s i) (E i)) L).
Proof. induction L as [|a L IH]; cbn [psumL]; [ring|]. rewrite IH. ring. Qed.
Lemma padd4 a b c d : peq N M (padd (padd a b) (padd c d)) (padd (padd a c) (padd b d)). Proof. ring. Qed.
Lemma pmul_dist (s a b : zpoly) : peq N M (pmul N s (padd a b)) (padd (pmul N s a) (pmul N s b)). Proof. ring. Qed.
End PR.

Section Env.
Context (env : kenv) (He : env_ok env).
Notation pp := (e_pp env).
Notation N := (pa_N pp).
Notation rQ := (ringQ pp).
Notation Bt := (Beta pp).
Section Main.
Context (op0 op1 u v ctOut : ciphertext) (l0 l1 l : nat) (rlks : rlkset) (g : nat -> Z) (A U : nat -> zpoly) (s r : string -> zpoly) (Bs Be Dm : Z).
Hypothesis HS : mul_setting pp g A U s r Bs Be Dm op0 op1 l0 l1 rlks.
Hypothesis Hu : ct_ok pp l0 u.
Hypothesis Hv : ct_ok pp l1 v.
Hypothesis Ku : forall id, In id (mkeys u) <-> In id (mkeys op0).
Hypothesis Kv : forall id, In id (mkeys v) <-> In id (mkeys op1).
Hypothesis HO : mul_receiver pp op0 op1 l0 l1 l ctOut.
Context (h0 h1 : hoisted).
Hypothesis Hh0 : hoisted_at env l0 u h0.
Hypothesis Hh1 : hoisted_at env l1 v h1.
Let L0 := ids_of_ct op0.
Let L1 := ids_of_ct op1.
Lemma mask_lift lc ct c f L j : (lc < QCount pp)%nat -> ct_ok pp lc ct -> NoDup L -> (forall id, In id L <-> In id (mkeys ct) /\ id <> "0"%string) ->
  (forall id, In id (mkeys ct) -> exists p, sget ct id = Some p /\ prep rQ c (lc + 1) (p_co p) (f id)) -> (j <= lc)%nat ->
  peq N (nth j (pa_Q pp) 0) (mask N s ct j) (psumL (fun id => pmul N (s id) (f id)) L).
Proof.
  intros Hl Hc NL HL Hf Hj. unfold mask. assert (HN : (0 < N)%nat) by apply deg_pos.
  rewrite (phase_lift env lc s ct f j); [|apply Hc|intros id Hi; destruct (Hf id Hi) as (p & E & P); eauto|auto].
  rewrite (phase_split env (nth j (pa_Q pp) 0) s f (mkeys ct) L); [|apply Hc|apply Hc|auto|exact HL].
  destruct (Hf "0"%string (ck_0 _ _ _ Hc)) as (p & E & P). rewrite (limb_prep env lc c ct "0"%string p (f "0"%string) j E P Hj). now apply psub_padd_l.
Qed.
Lemma mul_race : exists ct' w,
  pnorm_le N (pscale (bigP pp) w) (mul_noise_bound N (nparties op0) (nparties op1) (Z.of_nat (Bt l)) Bs Be Dm (bigP pp)) /\
  ct_ok pp l ct' /\ reduced pp l ct' /\ mkeys ct' = mkeys ctOut /\
  (forall j, (j <= l)%nat -> peq N (modulus (pa_Q pp) j) (phase N s ct' j) (padd (mixed N s op0 op1 u v j) w)) /\
  forall o k, order_ok o -> pool_ok pp k -> exists k', MulAndRelinHoisted env o op0 op1 (Some h0) (Some h1) rlks ctOut k = Ok (ct', k') /\ pool_ok pp k'.
Proof.
  destruct HS as [M0 M1 Q0 Q1 Hg HU Hs Hrl HD]. destruct HO as (HOk & Hl0 & Hl1 & Hk). assert (HN : (0 < N)%nat) by apply deg_pos. assert (Hl : (l < QCount pp)%nat) by lia.
  destruct (ct_lift env He l0 op0 Q0 M0) as (f0 & Hf0). destruct (ct_lift env He l1 op1 Q1 M1) as (f1 & Hf1).
  destruct (ct_lift env He l0 u Q0 Hu) as (fu & Hfu). destruct (ct_lift env He l1 v Q1 Hv) as (fv & Hfv).
  destruct (dig_any env He l0 l1 l Dm ltac:(lia) ltac:(lia) HD l0 u (Some h0) fu ltac:(lia) Hu Hfu) as (D0 & HD0'). { cbn. apply (hoisted_hoist_ok env He l0 l0); auto; lia. }
  destruct (dig_any env He l0 l1 l Dm ltac:(lia) ltac:(lia) HD l1 v (Some h1) fv ltac:(lia) Hv Hfv) as (D1 & HD1'). { cbn. apply (hoisted_hoist_ok env He l1 l1); auto; lia. }
  pose proof (ids_of_ct_ok op0 (ck_nd _ _ _ M0)) as [N0 I0]. pose proof (ids_of_ct_ok op1 (ck_nd _ _ _ M1)) as [N1 I1]. fold L0 in N0, I0. fold L1 in N1, I1.
  pose proof (ids_of_ct_ok u (ck_nd _ _ _ Hu)) as [_ Iu]. pose proof (ids_of_ct_ok v (ck_nd _ _ _ Hv)) as [_ Iv].
  assert (HD0 : dig_ok env l (Some h0) u fu D0 Dm L0). { intros id Hi. apply HD0'. apply Iu. apply I0 in Hi. now rewrite Ku. }
  assert (HD1 : dig_ok env l (Some h1) v fv D1 Dm L1). { intros id Hi. apply HD1'. apply Iv. apply I1 in Hi. now rewrite Kv. }
  assert (HP : forall id, In id L0 \/ In id L1 -> party op0 id \/ party op1 id) by (intros id [H|H]; [left; now apply I0|right; now apply I1]).
  destruct (choose_str (fun _ => (pzero, (pzero, pzero))) (L0 ++ L1) (fun id E => exists rl, sget rlks id = Some rl /\
     (forall t, (t < Bt (maxLevel pp))%nat -> pnorm_le N (fst (E t)) Be /\ pnorm_le N (fst (snd (E t))) Be /\ pnorm_le N (snd (snd (E t))) Be) /\
     krows pp (rl_b rl) (fun t => psub (fst (E t)) (pmul N (s id) (A t))) /\
     krows pp (rl_d rl) (fun t => psub (padd (fst (snd (E t))) (gmsg pp g t (s id))) (pmul N (r id) (A t))) /\
     krowsb pp (rl_v rl) (fun t => popp (padd (padd (snd (snd (E t))) (gmsg pp g t (r id))) (pmul N (s id) (U t)))))) as (E & HE).
  { intros id Hin. apply in_app_or in Hin. destruct (Hrl id (HP id Hin)) as (rl & Er & eb & ed & ev & He1 & He2). exists (fun t => (eb t, (ed t, ev t))), rl. auto. }
  set (eb := fun id t => fst (E id t)). set (ed := fun id t => fst (snd (E id t))). set (ev := fun id t => popp (snd (snd (E id t)))).
  pose proof (Beta_max env He l Hl) as Hbm.
  destruct (mul_sem env He l L0 L1 fu fv D0 D1 g A U s r eb ed ev Bs Be Dm) as (E1 & Zv & E2 & E3 & DZ & w & HM & Hw & Hph); auto.
  { intros i t Hi Ht. destruct (HE i) as (rl & _ & Hn & _); [now apply in_or_app|]. destruct (Hn t ltac:(lia)) as (P1 & P2 & P3). split; [auto|]. split; [auto|]. now apply pnorm_opp. }
  { intros i t Hi Ht. now apply HD0. } { intros i t Hi Ht. now apply HD1. } { intros i j Hi Hj. now apply HD0. } { intros i j Hi Hj. now apply HD1. }
  destruct HU as (usk & Eu & Hu1 & Hu2).
  assert (Hrk : rlks_ok env l rlks (L0 ++ L1) (bK env A s eb) (dK env g A s r ed) (vK env g U s r ev)).
  { intros id Hin. destruct (HE id Hin) as (rl & Er & _ & K1 & K2 & K3). exists rl. split; [auto|]. split; [|split].
    - eapply rowsb_of_krowsb; [exact He|exact Hl|apply krows_krowsb, K1|]. intros t _. reflexivity.
    - eapply rowsb_of_krowsb; [exact He|exact Hl|apply krows_krowsb, K2|]. intros t _. unfold dK, gmsg. intros i _. unfold padd, psub. apply cong_eq. unfold ed. ring.
    - eapply rowsb_of_krowsb; [exact He|exact Hl|exact K3|]. intros t _. unfold vK, gmsg. intros i _. unfold padd, psub, popp. apply cong_eq. unfold ev, popp. ring. }
  assert (Hu3 : rowsb env l usk U). { apply (rowsb_of_krowsb env He l usk U U Hl); [apply krows_krowsb; split; auto|]. intros; reflexivity. }
  assert (Hf0' : forall id, id = "0"%string \/ In id L0 -> oprep env l op0 id (f0 id)).
  { intros id Hid. destruct (Hf0 id) as (p & Ep & HPp & _). { destruct Hid as [->|Hid]; [apply M0|now apply I0]. } exists p, (fun q => q + 1). split; [auto|]. apply (prep_le rQ _ (l0 + 1)); [lia|auto]. }
  assert (Hf1' : forall id, id = "0"%string \/ In id L1 -> oprep env l op1 id (f1 id)).
  { intros id Hid. destruct (Hf1 id) as (p & Ep & HPp & _). { destruct Hid as [->|Hid]; [apply M1|now apply I1]. } exists p, (fun q => q + 1). split; [auto|]. apply (prep_le rQ _ (l1 + 1)); [lia|auto]. }
  assert (Hct : ctout_ok l (mkeys ctOut) ctOut).
  { split; [reflexivity|]. split; [apply HOk|]. intros id Hin. destruct (mget_ex _ seqb ctOut id Hin) as (p & Ep). exists p. split; [auto|]. destruct (ck_comp _ _ _ HOk id p Ep) as (_ & -> & _). lia. }
  assert (Hk2 : forall id, In id (mkeys ctOut) <-> id = "0"%string \/ In id L0 \/ In id L1).
  { intros id. rewrite Hk, I0, I1. destruct (string_dec id "0") as [->|Hne]; [|tauto]. split; [auto|]. intros _. left. apply M0. }
  pose proof (ct_level env l ctOut HOk) as HlO. pose proof (ct_level env l0 op0 M0) as Hlev0.
  set (G := fun (id : string) p => base l ctOut id p /\ prep rQ (fun q => q) (l + 1) (p_co p) (mulout env f0 f1 E1 E2 E3 L0 L1 id)).
  assert (HU2 : forall ct1 ct2, ctall (mkeys ctOut) ct1 G -> ctall (mkeys ctOut) ct2 G -> ct1 = ct2).
  { intros ct1 ct2 [K1 C1] [K2 C2]. apply mget_eq; [congruence|rewrite K1; apply HOk|]. intros id Hin. rewrite K1 in Hin.
    destruct (C1 id Hin) as (p1 & Ep1 & (b1 & Eb1 & W1) & P1). destruct (C2 id Hin) as (p2 & Ep2 & (b2 & Eb2 & W2) & P2). rewrite Ep1, Ep2. rewrite Eb1 in Eb2. injection Eb2 as <-.
    f_equal. destruct (ck_comp _ _ _ HOk id b1 Eb1) as (_ & HLb & _). destruct W1 as (F1 & F2 & _), W2 as (F3 & F4 & _). destruct p1 as [n1 c1], p2 as [n2 c2]. cbn in *. subst n1 n2. f_equal. unfold plen in *. cbn in *.
    apply (nth_ext _ _ [] []); [lia|]. intros j Hj. apply (prep_unique rQ (l + 1) c1 c2 _ _ j P1 P2); [lia|reflexivity]. }
  assert (HX : forall o k, order_ok o -> pool_ok pp k -> exists ct' k', MulAndRelinHoisted env o op0 op1 (Some h0) (Some h1) rlks ctOut k = Ok (ct', k') /\ pool_ok pp k' /\ ctall (mkeys ctOut) ct' G).
  { intros o k Ho Hkk. apply (MulRelinH_ok env He o l l0 op0 op1 ctOut L0 L1 (mkeys ctOut) rlks usk f0 f1 D0 D1 _ _ _ DZ U E1 Zv E2 E3 k Ho Hl HlO Hlev0 ltac:(lia) (conj N0 I0) (conj N1 I1) Hf0' Hf1' Hrk Eu Hu3 HM Hct Hk2 Hkk (Some h0) (Some h1)); intros id Hi; [apply (HD0 id Hi)|apply (HD1 id Hi)]. }
  destruct (HX (fun _ x => x) (snd (NewKeySwitcher (e_lz env) pp)) (fun _ _ => Permutation_refl _) (NewKS_pool env (e_lz env))) as (ct' & _ & _ & _ & HC). pose proof HC as [Hk' Hc'].
  exists ct', w. unfold L0, L1 in Hw. rewrite !nparties_ok in Hw by (apply M0 || apply M1). split; [exact Hw|]. split; [|split; [|split; [exact Hk'|split]]].
  - constructor; [rewrite Hk'; apply HOk|rewrite Hk'; apply HOk|]. intros id p Ep. assert (Hin : In id (mkeys ctOut)) by (rewrite <- Hk'; eapply (mget_key _ seqb); eauto).
    destruct (Hc' id Hin) as (p' & Ep' & (p0 & E0 & Hb) & HPr). rewrite Ep in Ep'. injection Ep' as <-. destruct (ck_comp _ _ _ HOk id p0 E0) as (B1 & B2 & _).
    split; [destruct Hb as (-> & _); auto|]. split; [rewrite (wrote_len Hb); auto|]. intros j Hj. destruct HPr as (_ & _ & HPr). destruct (HPr j ltac:(lia)) as [G1 G2]. split; [exact G1|].
    intros x Hx. destruct (G2 x Hx) as [G3 _]. cbn [r_mods ringQ] in G3. lia.
  - intros id p Ep j x Hj Hx. assert (Hin : In id (mkeys ctOut)) by (rewrite <- Hk'; eapply (mget_key _ seqb); eauto).
    destruct (Hc' id Hin) as (p' & Ep' & _ & (_ & _ & HPr)). rewrite Ep in Ep'. injection Ep' as <-. destruct (HPr j ltac:(lia)) as [_ G2]. destruct (G2 x Hx) as [G3 _]. cbn [r_mods ringQ] in G3. lia.
  - intros j Hj. unfold modulus. set (q := nth j (pa_Q pp) 0).
    assert (HL0u : forall id, In id L0 <-> In id (mkeys u) /\ id <> "0"%string) by (intros id; rewrite Ku; apply I0).
    assert (HL1v : forall id, In id L1 <-> In id (mkeys v) /\ id <> "0"%string) by (intros id; rewrite Kv; apply I1).
    assert (lift : forall f ct lc, (forall id, In id (mkeys ct) -> exists p, sget ct id = Some p /\ prep rQ (fun q => q + 1) (lc + 1) (p_co p) (f id) /\ p_ntt p = false /\ plen p = (lc + 1)%nat /\ shp N (p_co p)) ->
       forall id, In id (mkeys ct) -> exists p, sget ct id = Some p /\ prep rQ (fun q => q + 1) (lc + 1) (p_co p) (f id)). { intros f ct lc H id Hi. destruct (H id Hi) as (p & X1 & X2 & _). eauto. }
    unfold mixed. rewrite (mask_lift l0 op0 (fun q => q + 1) f0 L0 j Q0 M0 N0 I0 (lift f0 op0 l0 Hf0) ltac:(lia)), (mask_lift l1 op1 (fun q => q + 1) f1 L1 j Q1 M1 N1 I1 (lift f1 op1 l1 Hf1) ltac:(lia)).
    rewrite (mask_lift l0 u (fun q => q + 1) fu L0 j Q0 Hu N0 HL0u (lift fu u l0 Hfu) ltac:(lia)), (mask_lift l1 v (fun q => q + 1) fv L1 j Q1 Hv N1 HL1v (lift fv v l1 Hfv) ltac:(lia)).
    rewrite (phase_lift env l s ct' (mulout env f0 f1 E1 E2 E3 L0 L1) j); [|rewrite Hk'; apply HOk|intros id Hin; rewrite Hk' in Hin; destruct (Hc' id Hin) as (p & Ep & _ & HPr); eauto|auto].
    rewrite (phase_lift env l0 s op0 f0 j); [|apply M0|intros id Hin; destruct (Hf0 id Hin) as (p & Ep & HPr & _); eauto|lia].
    rewrite (phase_lift env l1 s op1 f1 j); [|apply M1|intros id Hin; destruct (Hf1 id Hin) as (p & Ep & HPr & _); eauto|lia].
    fold q. rewrite Hk'. rewrite (phase_split env q s f0 (mkeys op0) L0) by (auto; apply M0). rewrite (phase_split env q s f1 (mkeys op1) L1) by (auto; apply M1).
    pose proof (ids_of_ct_ok ctOut (ck_nd _ _ _ HOk)) as [NO IO]. rewrite (phase_split env q s _ (mkeys ctOut) (ids_of_ct ctOut)) by (auto; apply HOk).
    assert (HI0 : incl L0 (ids_of_ct ctOut)) by (intros x Hx; apply IO; rewrite Hk2; split; [auto|now apply I0]).
    assert (HI1 : incl L1 (ids_of_ct ctOut)) by (intros x Hx; apply IO; rewrite Hk2; split; [auto|now apply I1]).
    pose proof (Hph pzero pzero j Hj) as HZ. fold q in HZ. rewrite (zmul N q HN E3 s fu L0), (zmul' N q HN E1 s fv L1) in HZ.
    rewrite <- (race_alg N q HN (f0 "0"%string) (f1 "0"%string) (psumL (fun id => pmul N (s id) (f0 id)) L0) (psumL (fun id => pmul N (s id) (f1 id)) L1) _ _ _ _ _ _ w HZ (pull N q HN (f1 "0"%string) f0 s L0) (pull' N q HN (f0 "0"%string) f1 s L1)).
    apply padd_proper; [unfold mulout, tens; cbn [String.eqb]; reflexivity|]. rewrite (padd4 N q HN).
    rewrite <- (psumL_add N q). rewrite <- (psumL_add N q).
    transitivity (padd (psumL (fun i => pmul N (s i) (padd (pmul N (f0 i) (f1 "0"%string)) (E3 i))) L0) (psumL (fun i => pmul N (s i) (padd (pmul N (f0 "0"%string) (f1 i)) (E1 i))) L1)).
    + rewrite <- (psumL_restrict_mul env q s (fun i => padd (pmul N (f0 i) (f1 "0"%string)) (E3 i)) (ids_of_ct ctOut) L0 NO N0 HI0).
      rewrite <- (psumL_restrict_mul env q s (fun i => padd (pmul N (f0 "0"%string) (f1 i)) (E1 i)) (ids_of_ct ctOut) L1 NO N1 HI1).
      rewrite <- psumL_add. apply psumL_ext. intros x Hx. apply IO in Hx as [_ Hne]. rewrite <- (KSSem.pmul_padd_r N q HN).
      apply pmul_proper; [reflexivity|]. unfold mulout, tens. rewrite (proj2 (String.eqb_neq x "0") Hne).
      destruct (inb x L0), (inb x L1); intros i _; unfold padd, pzero; apply cong_eq; ring.
    + apply padd_proper; apply psumL_ext; intros i _; now apply pmul_dist.
  - intros o k Ho Hkk. destruct (HX o k Ho Hkk) as (ct2 & k' & EQ & Hk'' & HC2). exists k'. split; [|auto]. rewrite EQ. now rewrite (HU2 ct' ct2 HC HC2).
Qed.
End Main.
End Env.

Section C.
Context (ce : ckenv) (He : env_ok (ce_env ce)).
Notation pp := (e_pp (ce_env ce)).
Notation N := (pa_N pp).
Let Hpp : params_ok pp := eo_pp _ He.
Lemma race_new g A U s r Bs Be Dm op0 op1 u v sc0 sc1 l0 l1 n rlks h0 h1 o st :
  mul_setting pp g A U s r Bs Be Dm op0 op1 l0 l1 rlks -> ct_ok pp l0 u -> ct_ok pp l1 v -> (forall id, In id (mkeys u) <-> In id (mkeys op0)) -> (forall id, In id (mkeys v) <-> In id (mkeys op1)) ->
  hoisted_at (ce_env ce) l0 u h0 -> hoisted_at (ce_env ce) l1 v h1 -> order_ok o -> ev_ok pp st -> rescale_steps (pa_Q pp) (Nat.min l0 l1) (fmul sc0 sc1) (ce_scale ce) n ->
  exists out st', MulRelinHoistedNew ce o (mkCk op0 sc0) (mkCk op1 sc1) (Some h0) (Some h1) rlks st = Ok (out, st') /\ ev_ok pp st' /\ mixed_result pp s Bs Be Dm op0 op1 u v (Nat.min l0 l1) n (fmul sc0 sc1) out.
Proof.
  intros HS Hu Hv Ku Kv Hh0 Hh1 Ho Hst Hn. pose proof HS as [M0 M1 L0 L1 _ _ Hs _ _]. set (l := Nat.min l0 l1) in *. assert (Hl : (l < QCount pp)%nat) by lia.
  unfold MulRelinHoistedNew, mulRelinHoisted. destruct (binary_ids ce o op0 op1 sc0 sc1 l0 l1 Ho M0 M1) as (ids & -> & K). cbn [bind c_ct c_scale].
  fold l. set (z := NewCiphertext o pp ids l). pose proof (fresh_ok ce He o ids l Hl Ho) as Hz. fold z in Hz.
  rewrite (ct_level (ce_env ce) l0 op0 M0), (ct_level (ce_env ce) l1 op1 M1), (ct_level (ce_env ce) l z Hz). cbn [bind]. fold l. rewrite Nat.min_id, Nat.ltb_irrefl. cbn [bind c_ct].
  assert (Kz : forall id, In id (mkeys z) <-> In id (mkeys op0) \/ In id (mkeys op1)). { intros id. destruct (NewCiphertext_ok o pp ids l Ho) as (_ & B2 & _). fold z in B2. rewrite B2, K. destruct (string_dec id "0"%string) as [->|]; [|tauto]. pose proof (ck_0 _ _ _ M0). tauto. }
  destruct (mul_race (ce_env ce) He op0 op1 u v z l0 l1 l rlks g A U s r Bs Be Dm HS Hu Hv Ku Kv) with (h0 := h0) (h1 := h1) as (ct & w & Hw & Hc & Hr & Hk & Hp & Hrun); auto. { split; [auto|]. split; [lia|]. split; [lia|auto]. }
  destruct (Hrun o (ev_k st) Ho (eo_k _ _ Hst)) as (k' & E & Hk'). rewrite E. cbn [bind].
  assert (Kc : forall id, In id (mkeys ct) <-> In id (mkeys op0) \/ In id (mkeys op1)) by (intros id; rewrite Hk; apply Kz).
  pose proof (set_k_ok ce st k' Hst Hk') as Hst1. destruct (lifts_ex ce He l ct Hl Hc) as (f & Hf). pose proof (steps_le ce _ _ _ _ Hn) as Hnl.
  destruct (rescale_here ce He l n ct f (fmul sc0 sc1) (ce_scale ce) o (set_k k' st) Hl Hc Hf Ho) as (e & st' & Er & Hst'); auto.
  rewrite Er. cbn [bind]. destruct (rs_out_rescaled ce He l n ct f ct Hl Hnl Hc Hf (ck_nd _ _ _ Hc)) as [HR _]; [tauto|auto|].
  assert (Hsec : secrets_le pp s Bs ct). { intros id [Hi Hne]. apply Kc in Hi. apply Hs. unfold party. tauto. }
  destruct (rescaled_phase pp Hpp l n ct (rs_out ce l n f ct) s Bs Hnl Hl (ck_nd _ _ _ Hc) (ck_0 _ _ _ Hc) HR Hsec) as (w' & Hw' & Hp').
  eexists _, st'. split; [reflexivity|]. split; [auto|]. exists w, w'. cbn [c_ct c_scale]. split; [apply HR|]. split; [now apply rs_out_reduced|]. split. { intros id. rewrite rs_out_keys. apply Kc. } split; [reflexivity|]. split; [exact Hw|]. split.
  - unfold nparties in *. rewrite rs_out_keys. exact Hw'.
  - eapply divided_ext; [exact Hp'| |reflexivity]. intros j Hj. apply (Hp j ltac:(lia)).
Qed.
End C.
