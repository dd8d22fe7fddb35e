(** Keys for which MulAndRelin into one of its operands returns zero instead of the product (shipped parameters). *)
From Coq Require Import String ZArith Znumtheory List Lia Setoid Morphisms Bool Permutation Arith.
From Verif Require Import Spec SpecProofs Go GoProofs Lattigo LattigoProofs Arith NegRing NegRingProofs NTT NTTProofs F64 BasisExt BasisExtProofs ModDownProofs RingOps RingOpsProofs Maps MapsProofs Params Elements KeySwitch KeySets KeyGen EncDec Utils Evaluator Repr KSProofs ParamsProofs Crt Galois KeyGenProofs ParamsSpec SpecKeys Shipped KeySpec KeyWitness SpecCt KSSem Conc SpecConc RaceWorld Alias AliasProofs AliasMul.
Import ListNotations.
Local Open Scope Z_scope.
Local Open Scope list_scope.

(** the constant c in NTT form, c any integer *)
Definition climbs (r : ringd) (c : Z) : list (list Z) := map (fun q => repeat (c mod q) (r_N r)) (r_mods r).
Lemma climbs_nrep r c : ring_ok r -> nrep r (length (r_mods r)) (climbs r c) (pconst c).
Proof.
  intros Hr. split; [lia|]. unfold climbs. split; [now rewrite map_length|]. intros j Hj. rewrite (nth_mapl _ _ _ 0) by auto. split; [apply repeat_length|]. intros i Hi.
  rewrite nth_rep by auto. pose proof (ring_q1 r j Hr Hj) as [Hq _]. split; [apply Z.mod_pos_bound; lia|].
  unfold nttf, peval. pose proof (deg_pos (r_logN r)). rewrite (sumn_single _ 0); [|auto|intros [|k] _ Hk; [lia|reflexivity]].
  cbn [pconst Z.of_nat]. rewrite Z.pow_0_r, Z.mul_1_r. apply cong_mod. lia.
Qed.
Lemma climbs_shp r c : ring_ok r -> shp (r_N r) (climbs r c).
Proof.
  intros Hr. apply Forall_of_nth with (d := []). unfold climbs. rewrite map_length. intros j Hj. rewrite (nth_mapl _ _ _ 0) by auto. split; [apply repeat_length|]. apply Forall_forall. intros x Hx. apply repeat_spec in Hx as ->.
  pose proof (ring_q1 r j Hr Hj) as [H1 H2]. pose proof (Z.mod_pos_bound c (nth j (r_mods r) 0) ltac:(lia)). cbv beta. lia.
Qed.
Definition cqp (pp : params) (c : Z) : qp := mkQP (mkPoly true (climbs (ringQ pp) c)) (mkPoly true (climbs (ringP pp) c)).
Lemma cqp_ok pp c : params_ok pp -> qrep pp (maxLevel pp) (cqp pp c) (pconst c) /\ qshp pp (cqp pp c).
Proof.
  intros Hpp. split.
  - split; cbn [cqp qQ qP p_co]; [rewrite (lvQ1 pp Hpp); apply (climbs_nrep (ringQ pp) c (po_rQ _ Hpp))|apply (climbs_nrep (ringP pp) c (po_rP _ Hpp))].
  - unfold qshp, cqp, plen. cbn [qQ qP p_co]. split; split; try (unfold climbs; rewrite map_length; reflexivity); [apply (climbs_shp (ringQ pp))|apply (climbs_shp (ringP pp))]; apply Hpp.
Qed.
(** parameters whose CRS[0] rows are the constants a_t, keys of a party with secret and second secret 1 + X + ... and no errors *)
Lemma zero_keys pp0 (a : (nat -> Z) -> nat -> Z) : params_ok pp0 -> pa_CRS pp0 = [] -> bound_b pp0 19 = true ->
  exists pp g rl, params_ok pp /\ pa_Q pp = pa_Q pp0 /\ pa_P pp = pa_P pp0 /\ pa_logN pp = pa_logN pp0 /\ pa_gamma pp = pa_gamma pp0 /\ gadget pp g /\
    let s := smallpoly (ones (pa_N pp)) in let A := fun t => pconst (a g t) in
    crs_is pp 0 A /\ crs_is pp (-1) (fun _ => pone) /\ rlk_valid pp g A (fun _ => pone) 1 s s rl /\
    krows pp (rl_b rl) (fun t => psub (smallpoly (zeros (pa_N pp))) (pmul (pa_N pp) s (A t))) /\
    krows pp (rl_d rl) (fun t => psub (padd (smallpoly (zeros (pa_N pp))) (gmsg pp g t s)) (pmul (pa_N pp) s (A t))).
Proof.
  intros Hok HC HB. destruct pp0 as [logN Q P pq pP gm c]. cbn in HC. subst c. set (pp0 := mkParams logN Q P pq pP gm []) in *. destruct (gadget_exists pp0 Hok) as (g & Hg).
  set (A := fun t => pconst (a g t)). set (smp := fun (ix : Z) (i : nat) => if ix =? 0 then cqp pp0 (a g i) else cqp pp0 1).
  destruct (NewParameters_ok logN Q P pq pP gm smp Hok) as (crs & _ & Hpp & _ & _ & Hcrs).
  { intros ix i. unfold smp. destruct (ix =? 0); eexists; apply cqp_ok, Hok. }
  set (pp := mkParams logN Q P pq pP gm crs) in *. cbv zeta.
  assert (C0 : crs_is pp 0 A). { apply Hcrs; [unfold crsIndices; cbn; auto|]. intros i. apply (cqp_ok pp0 _ Hok). }
  assert (C1 : crs_is pp (-1) (fun _ => pone)). { apply Hcrs; [unfold crsIndices; cbn; auto|]. intros i. apply (cqp_ok pp0 1 Hok). }
  assert (HBp : bound_ok pp 19) by (apply bound_b_ok; exact HB).
  destruct (genSecretKey_ok pp Hpp (ones (pa_N pp)) 19 "a" HBp (ones_ok _ 19 ltac:(lia))) as (sk & _ & _ & Hs).
  assert (Z0 : forall B, 0 <= B -> small_ok (pa_N pp) B (zeros (pa_N pp))). { intros B HB0. split; [apply repeat_length|]. apply Forall_forall. intros x Hx. apply repeat_spec in Hx as ->. cbn. lia. }
  set (ze := fun _ : nat => zeros (pa_N pp)). assert (HE : errs_ok pp 19 ze) by (intros t _; apply Z0; lia). pose proof (newQP_shp pp) as Hn.
  destruct (GenRelinearizationKey_ok pp Hpp sk sk (smallpoly (ones (pa_N pp))) (smallpoly (ones (pa_N pp))) A (fun _ => pone) ze ze ze 19 g (qQ (newQP pp)) (newQP pp))
    as (rl & ? & ? & _ & _ & _ & _ & K1 & K2 & K3); auto. { apply Hn. }
  exists pp, g, rl. do 5 (split; [auto|]). split; [exact Hg|]. split; [exact C0|]. split; [exact C1|]. split; [|split; [exact K1|exact K2]].
  exists (fun t => smallpoly (ze t)), (fun t => smallpoly (ze t)), (fun t => smallpoly (ze t)). split; [|auto].
  intros t _. assert (pnorm_le (pa_N pp) (smallpoly (ze t)) 1) by (apply smallpoly_norm, Z0; lia). auto.
Qed.
Lemma krows_peq pp v B B' : params_ok pp -> krows pp v B -> (forall t, peq (pa_N pp) 0 (B t) (B' t)) -> krows pp v B'.
Proof.
  intros Hpp [H1 H2] HE. split; [auto|]. intros t Ht. set (env := fst (NewKeySwitcher (fun _ _ _ => false) pp)). assert (He : env_ok env) by (constructor; auto).
  apply (qrep_peq env He) with (A := pscale W (B t)); [now rewrite (HE t)|auto].
Qed.
Lemma zeros_peq N M : peq N M (smallpoly (zeros N)) pzero.
Proof. intros i Hi. unfold smallpoly, zeros. rewrite nth_rep by auto. reflexivity. Qed.

Lemma crt_zero q0 q1 x B : Z.gcd q0 q1 = 1 -> 0 < q0 -> 0 < q1 -> B < q0 * q1 -> cong q0 0 x -> cong q1 0 x -> - B <= x <= B -> x = 0.
Proof.
  intros HG H0 H1 HB [t0 E0] [t1 E1] Hx. assert (R : rel_prime q0 q1) by now apply Zgcd_1_rel_prime.
  assert (D : (q0 | q1 * t1)). { exists t0. lia. } apply Gauss in D as [y D]; [|exact R]. subst t1.
  assert (x = - (q0 * q1) * y) by (rewrite (Z.mul_comm q0); nia). assert (y = 0) by nia. nia.
Qed.
Lemma shipped_digits pp : pa_Q pp = shippedQ -> pa_P pp = shippedP -> pa_gamma pp = 2%nat -> digit_bound pp raceDm.
Proof.
  intros HQ HP Hgm t Ht. unfold maxLevel, QCount in *. rewrite HQ in *. unfold Alpha, PCount in *. rewrite HP, Hgm in *.
  change (length shippedP / 2)%nat with 1%nat. change (length shippedQ - 1)%nat with 20%nat. unfold raceDm.
  assert (Ht' : (t < 21)%nat). { revert Ht. unfold Beta, Alpha, PCount. rewrite HP, Hgm. change (length shippedP / 2)%nat with 1%nat. change (length shippedQ - 1)%nat with 20%nat. intros Ht. eapply Nat.lt_le_trans; [exact Ht|]. vm_compute. lia. }
  clear - Ht'. do 21 (destruct t as [|t]; [vm_compute; discriminate|]). lia.
Qed.
(** what the product of [cct 0 b] with itself is *)
Lemma not_zero pp s (ct' : ciphertext) : pa_Q pp = shippedQ -> pa_logN pp = 15%nat -> s = (fun _ => smallpoly (ones (pa_N pp))) ->
  (forall j, (j <= 20)%nat -> peq (pa_N pp) (modulus (pa_Q pp) j) (phase (pa_N pp) s ct' j) pzero) -> let op := cct (pa_N pp) 20 0 (2 ^ 37) in
  ~ exists w, pnorm_le (pa_N pp) w (2 ^ 70) /\ forall j, (j <= 20)%nat -> peq (pa_N pp) (modulus (pa_Q pp) j) (phase (pa_N pp) s ct' j)
    (padd (pmul (pa_N pp) (phase (pa_N pp) s op j) (phase (pa_N pp) s op j)) w).
Proof.
  intros HQ Hlog Es HZ op (w & Hw & HX). set (N := pa_N pp) in *. assert (HN : (0 < N)%nat) by apply deg_pos.
  assert (EN : Z.of_nat N = 32768) by (unfold N, pa_N; rewrite deg_Z, Hlog; reflexivity).
  assert (G : forall j, (j <= 20)%nat -> cong (modulus (pa_Q pp) j) 0 (2 ^ 89 + w (N - 1)%nat)).
  { intros j Hj. specialize (HX j Hj). rewrite (HZ j Hj) in HX. unfold op in HX. rewrite !(cct_phase N 20 HN s 0 (2 ^ 37) j _ Hj) in HX. rewrite Es in HX.
    assert (EP : peq N (modulus (pa_Q pp) j) (padd (pconst 0) (pscale (2 ^ 37) (smallpoly (ones N)))) (pscale (2 ^ 37) (smallpoly (ones N)))). { intros [|i] Hi; apply cong_eq; reflexivity. }
    rewrite !EP in HX. rewrite pscale_mul_l, pscale_mul_r in HX. specialize (HX (N - 1)%nat ltac:(lia)). unfold padd, pscale, pzero in HX. rewrite (ones_square N HN), EN in HX. change (2 ^ 37 * (2 ^ 37 * 32768)) with (2 ^ 89) in HX. exact HX. }
  specialize (Hw (N - 1)%nat ltac:(lia)). pose proof (G 0%nat ltac:(lia)) as G0. pose proof (G 1%nat ltac:(lia)) as G1. rewrite HQ in G0, G1.
  change (modulus shippedQ 0) with 36028797019488257 in G0. change (modulus shippedQ 1) with 274879414273 in G1.
  assert (X : 2 ^ 89 + w (N - 1)%nat = 0). { apply (crt_zero 36028797019488257 274879414273 _ (2 ^ 89 + 2 ^ 70)); auto; try reflexivity. clear - Hw. lia. }
  clear - X Hw. lia.
Qed.
Lemma mul_in_place_wrong : forall first second : bool, first || second = true -> exists env g A U s r op0 op1 rlks, let pp := e_pp env in
  env_ok env /\ pa_Q pp = shippedQ /\ pa_P pp = shippedP /\ pa_logN pp = 15%nat /\ crs_is pp 0 A /\ (first = true -> second = true -> op0 = op1) /\
  mul_setting pp g A U s r 1 1 raceDm op0 op1 20 20 rlks /\
  mul_noise_bound (pa_N pp) (nparties op0) (nparties op1) (Z.of_nat (Beta pp 20)) 1 1 raceDm (bigP pp) <= bigP pp * 2 ^ 64 /\
  forall o k, order_ok o -> pool_ok pp k -> exists ct' k',
    MulAndRelinPlainAt env o (if first then None else Some op0) (if second then None else Some op1) rlks (if first then op0 else op1) k = Ok (ct', k') /\
    ~ exists w, pnorm_le (pa_N pp) w (2 ^ 70) /\ forall j, (j <= 20)%nat ->
        peq (pa_N pp) (modulus (pa_Q pp) j) (phase (pa_N pp) s ct' j) (padd (pmul (pa_N pp) (phase (pa_N pp) s op0 j) (phase (pa_N pp) s op1 j)) w).
Proof.
  intros first second Hfs.
  destruct (zero_keys shipped (fun g t => if second then 0 else prodZ shippedP * g t) shipped_ok eq_refl ltac:(vm_compute; reflexivity)) as (pp & g & rl & Hpp & HQ & HP & Hlog & Hgm & Hg & C0 & C1 & HV & Kb & Kd).
  change (pa_Q shipped) with shippedQ in HQ. change (pa_P shipped) with shippedP in HP. change (pa_logN shipped) with 15%nat in Hlog. change (pa_gamma shipped) with 2%nat in Hgm. cbv zeta in *.
  set (A := fun t => pconst (if second then 0 else prodZ shippedP * g t)) in *. set (env := fst (NewKeySwitcher (fun _ _ _ => false) pp)). assert (He : env_ok env) by (constructor; auto).
  assert (HN : (0 < pa_N pp)%nat) by apply deg_pos. assert (EN : Z.of_nat (pa_N pp) = 32768) by (unfold pa_N; rewrite deg_Z, Hlog; reflexivity).
  set (s := fun _ : string => smallpoly (ones (pa_N pp))). set (op := cct (pa_N pp) 20 0 (2 ^ 37)).
  assert (HL : (20 < QCount pp)%nat) by (unfold QCount; rewrite HQ; cbn; lia).
  assert (Hok : ct_ok pp 20 op).
  { apply cct_ok; [exact HN|]. intros j Hj. rewrite HQ. unfold modulus. assert (HF : Forall (fun q => 2 ^ 37 <= q) shippedQ) by (unfold shippedQ; repeat (constructor; [lia|]); constructor).
    assert (Hj' : (j < length shippedQ)%nat) by (cbn; lia). rewrite Forall_forall in HF. specialize (HF (nth j shippedQ 0) (nth_In _ _ Hj')). clear - HF. lia. }
  assert (HA1 : Alpha pp = 1%nat) by (unfold Alpha, PCount; rewrite HP, Hgm; reflexivity).
  assert (Hset : mul_setting pp g A (fun _ => pone) s s 1 1 raceDm op op 20 20 [("a"%string, rl)]).
  { constructor; auto.
    - intros id _. split; apply smallpoly_norm, ones_ok; lia.
    - intros id [Hid|Hid]; apply cct_party in Hid; subst id; exists rl; (split; [reflexivity|exact HV]).
    - now apply shipped_digits. }
  exists env, g, A, (fun _ => pone), s, s, op, op, [("a"%string, rl)]. change (e_pp env) with pp. cbv zeta.
  split; [exact He|]. do 4 (split; [auto|]). split; [auto|]. split; [exact Hset|]. split.
  { assert (EB : Z.of_nat (Beta pp 20) = 21). { unfold Beta, Alpha, PCount. rewrite HP, Hgm. vm_compute. reflexivity. }
    rewrite EB. change (nparties op) with 1. unfold mul_noise_bound, ks_noise, bigP. rewrite HP, EN. unfold raceDm. vm_compute. discriminate. }
  intros o k Ho Hk. assert (Er : (if first then op else op) = op) by (now destruct first). rewrite Er.
  assert (Erd : forall b : bool, rd (if b then None else Some op) op = op) by (intros []; reflexivity).
  assert (One : forall id rl', sget [("a"%string, rl)] id = Some rl' -> rl' = rl). { intros id rl'. unfold mget. destruct (String.eqb id "a"); [intros E; now injection E|discriminate]. }
  assert (Sec : forall x M, peq (pa_N pp) M (pmul (pa_N pp) (smallpoly (ones (pa_N pp))) (pconst x)) (pscale x (smallpoly (ones (pa_N pp))))).
  { intros x M. rewrite (pmul_comm (pa_N pp) HN M). apply (pmul_const_l (pa_N pp) HN M). }
  destruct (mul_zero env He g A (fun _ => pone) s s 1 1 raceDm (if first then None else Some op) (if second then None else Some op) op 20 20 20 [("a"%string, rl)]) with (o := o) (k := k) as (ct' & k' & E & _ & _ & _ & HZ); auto.
  - rewrite !Erd. exact Hset.
  - intros id. rewrite !Erd. tauto.
  - intros j Hj. rewrite !Erd. destruct (cct_limb (pa_N pp) 20 0 (2 ^ 37) j (modulus (pa_Q pp) j) Hj) as [H1 _]. assert (HZ0 : peq (pa_N pp) (modulus (pa_Q pp) j) (pconst 0) pzero) by (intros [|i] Hi; reflexivity). rewrite HZ0 in H1. split; exact H1.
  - destruct second; [now left|right]. intros id rl' Hrl'. apply One in Hrl'. subst rl'. eapply (krows_peq pp); [exact Hpp|exact Kd|]. intros t. cbv beta. rewrite zeros_peq. unfold A. rewrite Sec. unfold gmsg, bigP. rewrite HP.
    rewrite (pmul_const_l (pa_N pp) HN 0). intros i Hi. apply cong_eq. unfold psub, padd, pscale, pzero. ring.
  - destruct first; [now left|right]. cbn [orb] in Hfs. subst second. intros id rl' Hrl'. apply One in Hrl'. subst rl'. eapply (krows_peq pp); [exact Hpp|exact Kb|]. intros t. cbv beta. rewrite zeros_peq. unfold A. rewrite Sec.
    intros i Hi. apply cong_eq. unfold psub, pscale, pzero. ring.
  - exists ct', k'. split; [exact E|]. apply (not_zero pp s ct'); auto.
Qed.
Lemma mul_plain_other env o op0 op1 rlks ctOut k : MulAndRelinPlainAt env o (Some op0) (Some op1) rlks ctOut k = MulAndRelin env o op0 op1 rlks ctOut k.
Proof. reflexivity. Qed.
Lemma square_in_place_zero env : env_ok env -> forall g A U s r Bs Be Dm ct l rlks, Alpha (e_pp env) = 1%nat ->
  mul_setting (e_pp env) g A U s r Bs Be Dm ct ct l l rlks ->
  (forall j, (j <= l)%nat -> peq (pa_N (e_pp env)) (modulus (pa_Q (e_pp env)) j) (limb ct "0"%string j) pzero) ->
  forall o k, order_ok o -> pool_ok (e_pp env) k -> exists ct' k', MulAndRelinPlainAt env o None None rlks ct k = Ok (ct', k') /\ pool_ok (e_pp env) k' /\
    ct_ok (e_pp env) l ct' /\ mkeys ct' = mkeys ct /\
    forall j, (j <= l)%nat -> peq (pa_N (e_pp env)) (modulus (pa_Q (e_pp env)) j) (phase (pa_N (e_pp env)) s ct' j) pzero.
Proof.
  intros He g A U s r Bs Be Dm ct l rlks Ha Hs Hz o k Ho Hk. apply (mul_zero env He g A U s r Bs Be Dm None None ct l l l rlks); auto.
  - apply Hs.
  - intros id. cbn [rd]. tauto.
Qed.
Lemma square_case : exists env g A U s r ct rlks, env_ok env /\ Alpha (e_pp env) = 1%nat /\ pa_Q (e_pp env) = shippedQ /\ pa_P (e_pp env) = shippedP /\ pa_logN (e_pp env) = 15%nat /\
  mul_setting (e_pp env) g A U s r 1 1 raceDm ct ct 20 20 rlks /\
  (forall j, (j <= 20)%nat -> peq (pa_N (e_pp env)) (modulus (pa_Q (e_pp env)) j) (limb ct "0"%string j) pzero) /\
  ~ (forall j, (j <= 20)%nat -> peq (pa_N (e_pp env)) (modulus (pa_Q (e_pp env)) j) (pmul (pa_N (e_pp env)) (phase (pa_N (e_pp env)) s ct j) (phase (pa_N (e_pp env)) s ct j)) pzero).
Proof.
  destruct race_world as (ce & st & rs & g & A & U & r & He & _ & _ & HQ & HP & Hlog & Hgm & HC). cbv zeta in *. set (env := ce_env ce) in *. set (pp := e_pp env) in *. set (s := fun _ : string => smallpoly (ones (pa_N pp))) in *.
  destruct (co_set _ _ _ _ _ _ _ _ _ _ _ _ _ _ (HC 0%nat)) as [_ _ Hl0 Hl1 Hg HU Hs Hrl HD]. assert (HN : (0 < pa_N pp)%nat) by apply deg_pos.
  exists env, g, A, U, s, r, (cct (pa_N pp) 20 0 (2 ^ 37)), (rs_keys rs). fold pp. split; [exact He|]. split; [unfold Alpha, PCount; rewrite HP, Hgm; reflexivity|]. do 3 (split; [auto|]).
  assert (Hz : forall j, (j <= 20)%nat -> peq (pa_N pp) (modulus (pa_Q pp) j) (limb (cct (pa_N pp) 20 0 (2 ^ 37)) "0"%string j) pzero).
  { intros j Hj. destruct (cct_limb (pa_N pp) 20 0 (2 ^ 37) j (modulus (pa_Q pp) j) Hj) as [H1 _]. assert (HZ0 : peq (pa_N pp) (modulus (pa_Q pp) j) (pconst 0) pzero) by (intros [|i] Hi; reflexivity). rewrite HZ0 in H1. exact H1. }
  assert (Hok : ct_ok pp 20 (cct (pa_N pp) 20 0 (2 ^ 37))).
  { apply cct_ok; [exact HN|]. intros j Hj. rewrite HQ. unfold modulus. assert (HF : Forall (fun q => 2 ^ 37 <= q) shippedQ) by (unfold shippedQ; repeat (constructor; [lia|]); constructor).
    assert (Hj' : (j < length shippedQ)%nat) by (cbn; lia). rewrite Forall_forall in HF. specialize (HF (nth j shippedQ 0) (nth_In _ _ Hj')). clear - HF. lia. }
  split; [|split; [exact Hz|]].
  - constructor; auto.
  - intros HX. apply (not_zero pp s [] HQ Hlog eq_refl). { intros j Hj. unfold phase. reflexivity. }
    exists pzero. split; [intros i Hi; unfold pzero; cbn; lia|]. intros j Hj. rewrite (HX j Hj). intros i Hi. apply cong_eq. unfold phase, padd, pzero. cbn. reflexivity.
Qed.
