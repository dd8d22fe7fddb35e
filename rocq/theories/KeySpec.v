(** C36-C40 from the lemmas about the key generator. *)
From Coq Require Import String ZArith Znumtheory List Lia Bool Setoid Permutation.
From Verif Require Import Spec SpecProofs Go GoProofs Lattigo LattigoProofs Arith NegRing NegRingProofs NTT NTTProofs F64 BasisExt BasisExtProofs ModDownProofs DecomposeProofs RingOps RingOpsProofs Maps MapsProofs Params Elements KeySwitch KeySets KeyGen KSProofs ParamsProofs Crt Galois KeyGenProofs ParamsSpec SpecKeys Shipped.
Import ListNotations.
Local Open Scope Z_scope.

(** * the automorphism *)
Lemma psigma_inv N M g g' A : (0 < N)%nat -> Z.Odd g -> cong (2 * Z.of_nat N) (g * g') 1 -> peq N M (psigma N g A) (sigma_inv N g' A).
Proof.
  intros HN Ho Hg k Hk. apply cong_eq. unfold psigma. set (n := Z.of_nat N) in *.
  assert (Ho' : Z.Odd g').
  { destruct Hg as [u Hu]. destruct (Z.Even_or_Odd g') as [[v Hv]|]; auto. exfalso. subst g'.
    assert (2 * (g * v - u * n) = 1) by (rewrite Z.mul_sub_distr_l; lia). lia. }
  assert (Hr : rel_prime g' n).
  { apply bezout_rel_prime. destruct Hg as [u Hu]. apply Bezout_intro with (u := g) (v := - (2 * u)). lia. }
  set (f := fun z => ext N A z * ext N pone (Z.of_nat k - g * z)).
  transitivity (sumn N (fun i => f (Z.of_nat i))).
  { apply sumn_ext. intros i Hi. unfold f. now rewrite ext_small by auto. }
  rewrite <- (sum_scale N HN f g'); auto.
  2:{ intros z. unfold f. rewrite (ext_anti N HN A z). fold n. destruct Ho as [h Hh].
      replace (Z.of_nat k - g * (z + n)) with ((Z.of_nat k - g * z - (n + n)) + n + (- h) * (2 * n) - 0) by (rewrite Hh; ring). rewrite Z.sub_0_r.
      unfold n. rewrite (ext_periodic2 N HN). rewrite (ext_anti N HN pone). fold n.
      replace (Z.of_nat k - g * z - (n + n)) with (Z.of_nat k - g * z + (-1) * (2 * n)) by ring. unfold n. rewrite (ext_periodic2 N HN). ring. }
  transitivity (pmul N (sigma_inv N g' A) pone k).
  { unfold pmul. apply sumn_ext. intros i Hi. unfold f. f_equal.
    apply (ext_cong2 N HN). fold n. replace (g * (g' * Z.of_nat i)) with (g * g' * Z.of_nat i) by ring. rewrite Hg. apply cong_eq. ring. }
  pose proof (pmul_comm N HN 0 (sigma_inv N g' A) pone k Hk) as H1. pose proof (pmul_const_l N HN 0 1 (sigma_inv N g' A) k Hk) as H2.
  apply cong_0 in H1. fold pone in H2. apply cong_0 in H2. rewrite H1, H2. unfold pscale. ring.
Qed.

Section S.
Context (pp : params) (Hpp : params_ok pp).
Notation N := (pa_N pp).
Notation lv := (maxLevel pp).
Notation bt := (Beta pp (maxLevel pp)).

(** two polynomials represented by the same words agree modulo every modulus *)
Lemma nrep_det r n co A B j : ring_ok r -> nrep r n co A -> nrep r n co B -> (j < n)%nat -> peq (r_N r) (qj r j) A B.
Proof.
  intros Hr (H1 & _ & H2) (_ & _ & H3) Hj. apply (nttf_inj (r_logN r) _ (psij r j) (ro_nm r Hr j ltac:(lia))).
  intros i Hi. destruct (H2 j Hj) as [_ H4]. destruct (H3 j Hj) as [_ H5]. destruct (H4 i Hi) as [_ H6]. destruct (H5 i Hi) as [_ H7]. now rewrite <- H6, <- H7.
Qed.
Lemma qrep_det x A B : qrep pp lv x A -> qrep pp lv x B -> peq N (prodZ (pa_Q pp ++ pa_P pp)) A B.
Proof.
  intros [A1 A2] [B1 B2] i Hi. apply crt_cong; [apply good_all, Hpp|]. apply Forall_forall. intros q Hq.
  apply in_app_or in Hq as [Hq|Hq]; apply (In_nth _ _ 0) in Hq as (j & Hj & <-).
  - apply (nrep_det (ringQ pp) (lv + 1) _ A B j (po_rQ _ Hpp) A1 B1); [|exact Hi]. pose proof (lvQ1 pp Hpp). unfold QCount in *. lia.
  - apply (nrep_det (ringP pp) (PCount pp) _ A B j (po_rP _ Hpp) A2 B2); [exact Hj|exact Hi].
Qed.
Lemma qrep_of_det x A B : qrep pp lv x A -> peq N (prodZ (pa_Q pp ++ pa_P pp)) A B -> qrep pp lv x B.
Proof.
  intros [A1 A2] HE.
  assert (G : forall q, In q (pa_Q pp ++ pa_P pp) -> peq N q A B).
  { intros q Hq. eapply peq_divide; [|exact HE]. now apply prodZ_divide. }
  split; (eapply nrep_peq; [apply Hpp| |eassumption]); intros j Hj; apply G, in_or_app; [left|right]; apply nth_In; cbn [r_mods ringQ ringP]; pose proof (lvQ1 pp Hpp); unfold QCount, PCount in *; lia.
Qed.

(** ** C36 *)
Lemma rot_key_lemma rotidx k g' sk s A es B g poolQ : k = normNeg (pa_logN pp) rotidx -> mhas Z.eqb (pa_CRS pp) rotidx = true ->
  sk_is pp sk s -> crs_is pp k A -> bound_ok pp B -> errs_ok pp B es -> gadget pp g -> pshp pp poolQ ->
  Z.Odd g' -> cong (2 * Z.of_nat N) (5 ^ k * g') 1 ->
  exists rk poolQ', GenRotationKey pp rotidx sk es poolQ = Ok (rk, poolQ') /\ rk_ID rk = sk_ID sk /\ rk_idx rk = k /\ pshp pp poolQ' /\
    krows pp (rk_val rk) (fun t => psub (padd (smallpoly (es t)) (gmsg pp g t s)) (pmul N (psigma N g' s) (A t))).
Proof.
  intros Hk Hm Hs HA HB He Hg Hp Ho Hgg. destruct (GenRotationKey_ok pp Hpp rotidx k sk s A es B g poolQ Hk Hm Hs HA HB He Hg Hp) as (rk & pool' & E & H1 & H2 & H3 & H4 & H5).
  exists rk, pool'. do 5 (split; [assumption|]). intros t Ht. eapply (gq_peq pp Hpp); [|apply (H5 t Ht)]. intros q.
  assert (Hl : (1 <= pa_logN pp)%nat) by (pose proof (ro_log _ (po_rQ _ Hpp)) as X; cbn in X; lia).
  assert (Hk0 : 0 <= k) by (subst k; now apply normNeg_ok).
  assert (HE : peq N q (sigma_inv N (galColumn (pa_logN pp) k) s) (psigma N g' s)).
  { symmetry. apply psigma_inv; [apply deg_pos|auto|]. fold N. pose proof (galColumn_cong (pa_logN pp) k k Hl Hk0 (cong_refl _ _)) as Hc. unfold pa_N. rewrite Hc. rewrite (Z.mul_comm g'). exact Hgg. }
  now rewrite HE.
Qed.
Lemma conj_key_lemma sk s A es B g poolQ : sk_is pp sk s -> crs_is pp (-2) A -> bound_ok pp B -> errs_ok pp B es -> gadget pp g -> pshp pp poolQ ->
  exists ck poolQ', GenConjugationKey pp sk es poolQ = Ok (ck, poolQ') /\ cj_ID ck = sk_ID sk /\ pshp pp poolQ' /\
    krows pp (cj_val ck) (fun t => psub (padd (smallpoly (es t)) (gmsg pp g t (psigma N (-1) s))) (pmul N s (A t))).
Proof.
  intros Hs HA HB He Hg Hp. destruct (GenConjugationKey_ok pp Hpp sk s A es B g poolQ Hs HA HB He Hg Hp) as (ck & pool' & E & H1 & H3 & H4 & H5).
  exists ck, pool'. do 4 (split; [assumption|]). intros t Ht. eapply (gq_peq pp Hpp); [|apply (H5 t Ht)]. intros q.
  assert (HE : peq N q (sigma_inv N (galRow (pa_logN pp)) s) (psigma N (-1) s)).
  { symmetry. apply psigma_inv; [apply deg_pos|exists (-1); reflexivity|]. unfold galRow, pa_N. exists (-1). ring. }
  unfold gmsg. now rewrite HE.
Qed.

(** ** C37 *)
Lemma rot_nil_lemma rotidx sk s es B poolQ : rotidx < 0 -> mhas Z.eqb (pa_CRS pp) rotidx = true ->
  mhas Z.eqb (pa_CRS pp) (rotidx mod (Z.of_nat N / 2)) = false ->
  sk_is pp sk s -> bound_ok pp B -> errs_ok pp B es -> pshp pp poolQ ->
  GenRotationKey pp rotidx sk es poolQ = Panic PNil.
Proof.
  intros Hn Hm H2 Hs HB He Hp. apply (GenRotationKey_nil pp Hpp rotidx sk s es B poolQ); auto; [|apply (gadget_exists pp Hpp)].
  unfold normNeg. destruct (Z.ltb_spec rotidx 0); [exact H2|lia].
Qed.

(** ** C38 *)
Lemma centred_unique m x y : 0 < m -> 2 * Z.abs y < m -> cong m x y -> centred m x = y.
Proof.
  intros Hm Hy Hc. unfold centred. assert (E : x mod m = y mod m) by (apply cong_mod_eq; [lia|exact Hc] || (destruct Hc as [k Hk]; replace x with (y + k * m) by lia; apply Z.mod_add; lia)).
  rewrite E. destruct (Z.le_gt_cases 0 y).
  - rewrite Z.mod_small by lia. destruct (Z.ltb_spec m (2 * y)); lia.
  - replace (y mod m) with (y + m). 2:{ apply (Z.mod_unique_pos y m (-1)); lia. } destruct (Z.ltb_spec m (2 * (y + m))); lia.
Qed.
Lemma W_pos : 0 < W. Proof. rewrite W_val. lia. Qed.
Lemma leak_lemma sk r s r0 A U e eb ed ev B poolQ poolQP pk rlk pools X Y :
  sk_is pp sk s -> sk_is pp r r0 -> crs_is pp 0 A -> crs_is pp (-1) U -> bound_ok pp B -> small_ok N B e -> errs_ok pp B eb -> errs_ok pp B ed -> errs_ok pp B ev ->
  pshp pp poolQ -> qshp pp poolQP ->
  GenPublicKey pp sk e = Ok pk -> GenRelinearizationKey pp sk r eb ed ev poolQ poolQP = Ok (rlk, pools) ->
  2 * B < W -> 2 * ((W + 1) * B) < prodZ (pa_Q pp ++ pa_P pp) ->
  qrep pp lv (pk_0 pk) X -> qrep pp lv (nth 0 (rl_b rlk) dqp) Y ->
  (forall i, (i < N)%nat -> let D := centred (prodZ (pa_Q pp ++ pa_P pp)) (Y i - X i) in
     smallpoly e i = - centred W D /\ smallpoly (eb O) i = (D - centred W D) / W) /\
  peq N (prodZ (pa_Q pp ++ pa_P pp)) (pscale W (pmul N s (A O))) (psub (pscale W (smallpoly (eb O))) Y).
Proof.
  intros Hs Hr HA HU HB He Heb Hed Hev Hp1 Hp2 Ek Er HBW HBM HX HY. destruct (gadget_exists pp Hpp) as (g & Hg).
  destruct (GenPublicKey_ok pp Hpp sk s A e B Hs HA HB He) as (pk' & Ek' & _ & _ & _ & HX' & _). rewrite Ek in Ek'. injection Ek' as <-.
  destruct (GenRelinearizationKey_ok pp Hpp sk r s r0 A U eb ed ev B g poolQ poolQP Hs Hr HA HU HB Heb Hed Hev Hg Hp1 Hp2) as (rlk' & q1 & q2 & Er' & _ & _ & _ & [_ HY'] & _).
  rewrite Er in Er'. injection Er' as <- _. specialize (HY' O (beta_pos pp Hpp)). set (M := prodZ (pa_Q pp ++ pa_P pp)) in *.
  pose proof (qrep_det _ _ _ HX HX') as EX. pose proof (qrep_det _ _ _ HY HY') as EY. fold M in EX, EY.
  assert (HN0 : (0 < N)%nat) by apply deg_pos.
  assert (ED : peq N M (psub Y X) (psub (pscale W (smallpoly (eb O))) (smallpoly e))).
  { rewrite EX, EY. rewrite pscale_mul_r. intros i Hi. apply cong_eq. unfold psub, pscale. ring. }
  pose proof W_pos as HW. assert (HMp : 0 < M) by (assert (0 <= (W + 1) * B) by (apply Z.mul_nonneg_nonneg; [lia|apply HB]); lia). pose proof (smallpoly_norm N B e He) as Ne. pose proof (smallpoly_norm N B (eb O) (Heb O (beta_pos pp Hpp))) as Nb.
  split.
  - intros i Hi D. specialize (Ne i Hi). specialize (Nb i Hi). set (x := smallpoly e i) in *. set (y := smallpoly (eb O) i) in *.
    assert (HD : D = W * y - x). { apply centred_unique; [lia| |]. - assert (Z.abs (W * y - x) <= (W + 1) * B) by nia. lia. - apply (ED i Hi). }
    assert (HC : centred W D = - x). { apply centred_unique; [lia|lia|]. rewrite HD. exists y. ring. }
    rewrite HC. split; [lia|]. rewrite HD. replace (W * y - x - - x) with (y * W) by ring. now rewrite Z.div_mul by lia.
  - rewrite EY. intros i Hi. apply cong_eq. unfold psub, pscale. ring.
Qed.

(** ** C39 *)
Lemma rot0_lemma sk s A es eb B g t V X Y : crs_is pp 0 A -> sk_is pp sk s -> bound_ok pp B -> errs_ok pp B es -> errs_ok pp B eb -> gadget pp g ->
  (t < bt)%nat -> forall poolQ rk pool' b, pshp pp poolQ -> GenRotationKey pp 0 sk es poolQ = Ok (rk, pool') ->
  krows pp b (fun t => psub (smallpoly (eb t)) (pmul N s (A t))) ->
  qrep pp lv (nth t (rk_val rk) dqp) X -> qrep pp lv (nth t b dqp) Y ->
  peq N (prodZ (pa_Q pp ++ pa_P pp)) (psub X Y) (pscale W (padd (gmsg pp g t s) (psub (smallpoly (es t)) (smallpoly (eb t))))) /\
  forall j, (j < QCount pp)%nat -> (j / Alpha pp = t)%nat -> let q := nth j (pa_Q pp) 0 in
    eqm q (V * W) 1 ->
    (forall c, c = 1 \/ c = 2 -> 4 * B < Z.abs (centred q (bigP pp * c))) -> 2 * (4 * B) < q ->
    forall i c, (i < N)%nat -> Z.abs (s i) <= 1 -> Z.abs c <= 1 ->
      (Z.abs (centred q (V * (X i - Y i) - bigP pp * c)) <= 2 * B <-> c = s i).
Proof.
  intros HA Hs HB Hes Heb Hg Ht poolQ rk pool' b Hp E [_ Hb] HX HY.
  assert (Hm : mhas Z.eqb (pa_CRS pp) 0 = true).
  { destruct HA as (v & Hv & _). unfold getCRS, mptr in Hv. unfold mhas. destruct (mget Z.eqb (pa_CRS pp) 0); [reflexivity|discriminate]. }
  destruct (rot_key_lemma 0 0 1 sk s A es B g poolQ) as (rk' & p' & E' & _ & _ & _ & _ & HR); auto; [exists 0; reflexivity|exists 0; reflexivity|].
  rewrite E in E'. injection E' as <- _. assert (HN0 : (0 < N)%nat) by apply deg_pos.
  assert (ED : peq N (prodZ (pa_Q pp ++ pa_P pp)) (psub X Y) (pscale W (padd (gmsg pp g t s) (psub (smallpoly (es t)) (smallpoly (eb t)))))).
  { rewrite (qrep_det _ _ _ HX (HR t Ht)), (qrep_det _ _ _ HY (Hb t Ht)).
    assert (HI : peq N (prodZ (pa_Q pp ++ pa_P pp)) (psigma N 1 s) s).
    { rewrite (psigma_inv N _ 1 1) by (auto; exists 0; reflexivity). apply sigma_id; [auto|exists 0; reflexivity]. }
    rewrite HI. intros i Hi. apply cong_eq. unfold psub, padd, pscale. ring. }
  split; [exact ED|]. intros j Hj Hjt q HV HP HBq i c Hi Hsi Hc.
  assert (Hq1 : 1 < q) by (apply (ring_q1 (ringQ pp) j (po_rQ _ Hpp)); exact Hj). apply eqm_cong in HV; [|lia].
  assert (HD : cong q (V * (X i - Y i)) (bigP pp * s i + (smallpoly (es t) i - smallpoly (eb t) i))).
  { assert (H : cong q (X i - Y i) (W * (gmsg pp g t s i + (smallpoly (es t) i - smallpoly (eb t) i)))).
    { apply (peq_divide N q (prodZ (pa_Q pp ++ pa_P pp)) _ _) in ED; [exact (ED i Hi)|]. apply prodZ_divide, in_or_app. left. now apply nth_In. }
    rewrite H. rewrite (gmsg_q pp Hpp g t s j Hg Ht Hj i Hi). fold q. rewrite (proj2 (Nat.eqb_eq _ _) Hjt). unfold pscale.
    replace (V * (W * (bigP pp * s i + (smallpoly (es t) i - smallpoly (eb t) i)))) with (V * W * (bigP pp * s i + (smallpoly (es t) i - smallpoly (eb t) i))) by ring.
    rewrite HV. apply cong_eq. ring. }
  pose proof (smallpoly_norm N B _ (Hes t Ht) i Hi) as N1. pose proof (smallpoly_norm N B _ (Heb t Ht) i Hi) as N2.
  set (d := smallpoly (es t) i - smallpoly (eb t) i) in *. assert (Hd : Z.abs d <= 2 * B) by (unfold d; lia).
  split.
  - intros Hz. destruct (Z.eq_dec c (s i)) as [|Hne]; [auto|exfalso]. set (z := centred q (V * (X i - Y i) - bigP pp * c)) in *.
    assert (Hzc : cong q z (V * (X i - Y i) - bigP pp * c)).
    { unfold z, centred. cbv zeta. destruct (q <? 2 * ((V * (X i - Y i) - bigP pp * c) mod q)).
      - pose proof (cong_mod q (V * (X i - Y i) - bigP pp * c) ltac:(lia)) as [k Hk]. exists (k - 1). rewrite Z.mul_sub_distr_r, <- Hk. ring.
      - apply cong_mod. lia. }
    rewrite HD in Hzc. assert (HPc : cong q (bigP pp * (s i - c)) (z - d)) by (rewrite Hzc; apply cong_eq; ring).
    assert (Hcase : exists c', (c' = 1 \/ c' = 2) /\ exists w, cong q (bigP pp * c') w /\ Z.abs w <= 4 * B).
    { exists (Z.abs (s i - c)). split; [lia|]. destruct (Z.abs_spec (s i - c)) as [[_ ->]|[_ ->]].
      - exists (z - d). split; [auto|lia].
      - exists (- (z - d)). split; [|lia]. rewrite <- HPc. apply cong_eq. ring. }
    destruct Hcase as (c' & Hc' & w & Hw & Hwb). specialize (HP c' Hc'). rewrite (centred_unique q _ w) in HP; auto; lia.
  - intros ->. rewrite (centred_unique q _ d); auto; try lia. rewrite HD. apply cong_eq. ring.
Qed.

(** ** C40, second part *)
Lemma stale_lemma v (e E : nat -> zpoly) g s tau A A' : krows pp v (fun t => psub (padd (e t) (gmsg pp g t s)) (pmul N tau (A t))) ->
  (krows pp v (fun t => psub (padd (E t) (gmsg pp g t s)) (pmul N tau (A' t))) <->
   forall t, (t < bt)%nat -> peq N (prodZ (pa_Q pp ++ pa_P pp)) (E t) (padd (e t) (pmul N tau (psub (A' t) (A t))))).
Proof.
  intros [H1 H2]. assert (HN0 : (0 < N)%nat) by apply deg_pos. set (M := prodZ (pa_Q pp ++ pa_P pp)).
  assert (HD : forall t, peq N M (pmul N tau (psub (A' t) (A t))) (psub (pmul N tau (A' t)) (pmul N tau (A t)))).
  { intros t. rewrite (pmul_comm N HN0 M tau), (pmul_comm N HN0 M tau (A' t)), (pmul_comm N HN0 M tau (A t)). intros i Hi. apply cong_eq.
    unfold pmul, psub. rewrite <- Z.add_opp_r, <- sumn_opp, <- sumn_add. apply sumn_ext. intros x Hx. ring. }
  split.
  - intros [_ H3] t Ht. pose proof (qrep_det _ _ _ (H2 t Ht) (H3 t Ht)) as HE. fold M in HE. rewrite HD. intros i Hi. specialize (HE i Hi).
    assert (HW : cong M (e t i + gmsg pp g t s i - pmul N tau (A t) i) (E t i + gmsg pp g t s i - pmul N tau (A' t) i)).
    { apply (crt_cong (pa_Q pp ++ pa_P pp)); [apply good_all, Hpp|]. apply Forall_forall. intros q Hq.
      assert (Hq' : okmod q). { apply in_app_or in Hq as [Hq|Hq]; apply (In_nth _ _ 0) in Hq as (j & Hj & <-); [apply (ring_okm (ringQ pp) j (po_rQ _ Hpp) Hj)|apply (ring_okm (ringP pp) j (po_rP _ Hpp) Hj)]. }
      apply W_cancel; [auto|]. rewrite !(Z.mul_comm _ W). eapply Z.divide_trans; [apply prodZ_divide, Hq|]. exact HE. }
    unfold padd, psub in *. destruct HW as [k Hk]. exists (- k). lia.
  - intros H3. split; [auto|]. intros t Ht. apply (qrep_of_det _ _ _ (H2 t Ht)). fold M. rewrite (H3 t Ht). rewrite HD. intros i Hi. apply cong_eq. unfold pscale, padd, psub. ring.
Qed.
End S.
