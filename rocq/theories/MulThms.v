(** Statements about multiplication with relinearisation, from KSSem. *)
From Coq Require Import String ZArith Znumtheory List Lia Setoid Morphisms Bool Permutation.
From Verif Require Import Spec SpecProofs Go GoProofs Lattigo LattigoProofs Arith NegRing NegRingProofs NTT NTTProofs F64 BasisExt BasisExtProofs ModDownProofs DecomposeProofs RingOps RingOpsProofs Maps MapsProofs Params Elements KeySwitch Repr KSProofs KSMulProofs KSAlg KSNorm Crt ParamsProofs KeyGenProofs SpecCt KSSem.
Import ListNotations.
Local Open Scope Z_scope.
Local Open Scope list_scope.

Lemma nparties_ok ct : NoDup (mkeys ct) -> In "0"%string (mkeys ct) -> Z.of_nat (length (ids_of_ct ct)) = nparties ct.
Proof.
  intros H1 H2. destruct (ids_of_ct_ok ct H1) as [N0 I0]. unfold nparties. assert (HP : Permutation (mkeys ct) ("0"%string :: ids_of_ct ct)).
  { apply NoDup_Permutation; [auto|constructor; [intros H; apply I0 in H; tauto|auto]|]. intros x. cbn. rewrite I0. destruct (string_dec x "0") as [->|]; [tauto|]. intuition congruence. }
  apply Permutation_length in HP. cbn in HP. unfold ids_of_ct in *. lia.
Qed.
Section T.
Context (env : kenv) (He : env_ok env).
Notation pp := (e_pp env).
Notation N := (pa_N pp).

Lemma hoisted_osrc l op h id D : (l < QCount pp)%nat -> hoisted_at env l op h -> party op id -> osrc env l None op id D -> osrc env l (Some h) op id D.
Proof.
  intros Hl Hh Hp (p & E & HD). destruct (Hh id Hp) as (p' & s0 & s & k & k' & E' & Es & Hs0 & Hk & HDc). rewrite E in E'. injection E' as <-.
  destruct (Decompose_ok env He l p D s0 k Hl HD Hs0 Hk) as (ad & k2 & E2 & HR & _). rewrite E2 in HDc. injection HDc as <- _. exists ad. auto.
Qed.
Lemma hoisted_hoist_ok l lo op h : (l <= lo < QCount pp)%nat -> ct_ok pp lo op -> hoisted_at env l op h ->
  forall id p, sget op id = Some p -> id <> "0"%string -> exists s D, sget h id = Some s /\ digits env l (p_co p) D /\ rows env l s D.
Proof.
  intros Hl Hc Hh id p E Hne. assert (Hp : party op id) by (split; [eapply (mget_key _ seqb); eauto|auto]).
  destruct (ct_lift env He lo op ltac:(lia) Hc) as (f & Hf). destruct (Hf id (proj1 Hp)) as (p' & E' & HP & Hn & _ & Hs). rewrite E in E'. injection E' as <-.
  destruct (digits_exist env He l (p_co p)) as (D & HD); [lia| |].
  { apply (prep_input env l (p_co p) (f id) (fun q => q + 1) ltac:(lia) Hs); [|intros; lia]. apply (prep_le (ringQ pp) _ (lo + 1)); [lia|auto]. }
  destruct (hoisted_osrc l op h id D ltac:(lia) Hh Hp) as (s & Es & HR). { exists p. split; [auto|]. now apply dsrc_coeff. } exists s, D. auto.
Qed.

Lemma mul_correct g A U s r Bs Be Dm op0 op1 l0 l1 l rlks ctOut h0 h1 :
  mul_setting pp g A U s r Bs Be Dm op0 op1 l0 l1 rlks -> mul_receiver pp op0 op1 l0 l1 l ctOut ->
  maybe_hoisted_at env l0 op0 h0 -> maybe_hoisted_at env l1 op1 h1 ->
  exists ct' w,
    pnorm_le N (pscale (bigP pp) w) (mul_noise_bound N (nparties op0) (nparties op1) (Z.of_nat (Beta pp l)) Bs Be Dm (bigP pp)) /\
    ct_ok pp l ct' /\ reduced pp l ct' /\ mkeys ct' = mkeys ctOut /\
    (forall j, (j <= l)%nat -> peq N (modulus (pa_Q pp) j) (phase N s ct' j) (padd (pmul N (phase N s op0 j) (phase N s op1 j)) w)) /\
    forall o k, order_ok o -> pool_ok pp k ->
      exists k', MulAndRelinHoisted env o op0 op1 h0 h1 rlks ctOut k = Ok (ct', k') /\ pool_ok pp k'.
Proof.
  intros [M0 M1 L0 L1 Hg HU Hs Hrl HD] (HO & Hl0 & Hl1 & Hk) Hh0 Hh1.
  destruct (ct_lift env He l0 op0 L0 M0) as (f0 & Hf0). destruct (ct_lift env He l1 op1 L1 M1) as (f1 & Hf1).
  destruct (dig_any env He l0 l1 l Dm ltac:(lia) ltac:(lia) HD l0 op0 h0 f0 ltac:(lia) M0 Hf0) as (D0 & HD0). { destruct h0; [|exact I]. cbn in *. apply (hoisted_hoist_ok l0 l0); auto; lia. }
  destruct (dig_any env He l0 l1 l Dm ltac:(lia) ltac:(lia) HD l1 op1 h1 f1 ltac:(lia) M1 Hf1) as (D1 & HD1). { destruct h1; [|exact I]. cbn in *. apply (hoisted_hoist_ok l1 l1); auto; lia. }
  destruct (mul_main env He op0 op1 l0 l1 l rlks g A U s r Bs Be Dm M0 M1 ltac:(lia) ltac:(lia) Hg HU Hs Hrl HD ctOut HO Hk h0 h1 f0 f1 D0 D1 Hf0 Hf1 HD0 HD1) as (ct' & w & Hw & (G1 & G2 & G3 & G4) & HS).
  exists ct', w. rewrite !nparties_ok in Hw by (apply M0 || apply M1). split; [exact Hw|]. split; [auto|]. split; [exact G3|]. split; [auto|]. split; [exact G4|].
  intros o k Ho Hp. destruct (HS o k Ho Hp) as [HS1 _]. apply HS1; intros id Hin; [now apply HD0|now apply HD1].
Qed.

(** the digits of a component do not depend on the hoisted form they are read from *)
Lemma dig_fixed l lh op f Dm : (l <= lh < QCount pp)%nat -> digit_bound pp Dm -> ct_ok pp lh op ->
  (forall id, In id (mkeys op) -> exists p, sget op id = Some p /\ prep (ringQ pp) (fun q => q + 1) (lh + 1) (p_co p) (f id) /\ p_ntt p = false /\ plen p = (lh + 1)%nat /\ shp N (p_co p)) ->
  exists D, forall h, hoisted_at env lh op h -> dig_ok env l (Some h) op f D Dm (ids_of_ct op).
Proof.
  intros Hl HD Hc Hf. destruct (ids_of_ct_ok op (ck_nd _ _ _ Hc)) as [_ I0].
  destruct (choose_str (fun _ => pzero) (ids_of_ct op) (fun id D => exists p, sget op id = Some p /\ p_ntt p = false /\ digits env lh (p_co p) D)) as (D & HDd).
  { intros id Hin. apply I0 in Hin as [Hin _]. destruct (Hf id Hin) as (p & E & HP & Hn & _ & Hs). destruct (digits_exist env He lh (p_co p) ltac:(lia)) as (D & Hd).
    - apply (prep_input env lh (p_co p) (f id) (fun q => q + 1) ltac:(lia) Hs HP). intros; lia.
    - exists D, p. auto. }
  exists D. intros h Hh. apply (dig_hoist env He l lh); auto; try lia. intros id Hin. destruct (HDd id Hin) as (p & E & Hn & Hd). apply I0 in Hin as Hp.
  destruct (Hf id (proj1 Hp)) as (p' & E' & HP & _). rewrite E in E'. injection E' as <-.
  destruct (hoisted_osrc lh op h id (D id) ltac:(lia) Hh Hp) as (s & Es & HR). { exists p. split; [auto|]. now apply dsrc_coeff. } exists p, s. auto.
Qed.
(** h is a hoisted form of op exactly when the reference r is one *)
Definition hoisted_like (lh : nat) (op : ciphertext) (r h : option hoisted) : Prop :=
  match r with None => h = None | Some _ => exists h', h = Some h' /\ hoisted_at env lh op h' end.
Lemma dig_like l lh op f Dm r : (l <= lh < QCount pp)%nat -> digit_bound pp Dm -> ct_ok pp lh op -> maybe_hoisted_at env lh op r ->
  (forall id, In id (mkeys op) -> exists p, sget op id = Some p /\ prep (ringQ pp) (fun q => q + 1) (lh + 1) (p_co p) (f id) /\ p_ntt p = false /\ plen p = (lh + 1)%nat /\ shp N (p_co p)) ->
  exists D, forall h, hoisted_like lh op r h -> dig_ok env l h op f D Dm (ids_of_ct op).
Proof.
  intros Hl HD Hc Hr Hf. destruct r as [r|].
  - destruct (dig_fixed l lh op f Dm Hl HD Hc Hf) as (D & H). exists D. intros h (h' & -> & Hh). now apply H.
  - destruct (dig_any env He lh lh l Dm Hl Hl HD lh op None f Hl Hc Hf I) as (D & H). exists D. intros h ->. exact H.
Qed.
Lemma hoisted_like_refl lh op r : maybe_hoisted_at env lh op r -> hoisted_like lh op r r.
Proof. destruct r as [r|]; cbn; [|auto]. intros H. exists r. auto. Qed.
(** the result, whatever the receiver, the hoisted forms, the orders and the scratch space *)
Lemma mul_uniform g A U s r Bs Be Dm op0 op1 l0 l1 l rlks r0 r1 :
  mul_setting pp g A U s r Bs Be Dm op0 op1 l0 l1 rlks -> (l <= l0)%nat -> (l <= l1)%nat ->
  maybe_hoisted_at env l0 op0 r0 -> maybe_hoisted_at env l1 op1 r1 ->
  exists F w, pnorm_le N (pscale (bigP pp) w) (mul_noise_bound N (nparties op0) (nparties op1) (Z.of_nat (Beta pp l)) Bs Be Dm (bigP pp)) /\
    forall ctOut, mul_receiver pp op0 op1 l0 l1 l ctOut -> exists ct', 
      ct_ok pp l ct' /\ reduced pp l ct' /\ mkeys ct' = mkeys ctOut /\
      (forall j, (j <= l)%nat -> peq N (modulus (pa_Q pp) j) (phase N s ct' j) (padd (pmul N (phase N s op0 j) (phase N s op1 j)) w)) /\
      (forall id, In id (mkeys ctOut) -> exists p, sget ct' id = Some p /\ prep (ringQ pp) (fun q => q) (l + 1) (p_co p) (F id)) /\
      forall o k h0 h1, order_ok o -> pool_ok pp k -> hoisted_like l0 op0 r0 h0 -> hoisted_like l1 op1 r1 h1 ->
        exists k', MulAndRelinHoisted env o op0 op1 h0 h1 rlks ctOut k = Ok (ct', k') /\ pool_ok pp k'.
Proof.
  intros [M0 M1 L0 L1 Hg HU Hs Hrl HD] Hl0 Hl1 Hh0 Hh1.
  destruct (ct_lift env He l0 op0 L0 M0) as (f0 & Hf0). destruct (ct_lift env He l1 op1 L1 M1) as (f1 & Hf1).
  destruct (dig_like l l0 op0 f0 Dm r0 ltac:(lia) HD M0 Hh0 Hf0) as (D0 & HD0). destruct (dig_like l l1 op1 f1 Dm r1 ltac:(lia) HD M1 Hh1 Hf1) as (D1 & HD1).
  destruct (mul_all env He op0 op1 l0 l1 l rlks g A U s r Bs Be Dm M0 M1 ltac:(lia) ltac:(lia) Hg HU Hs Hrl HD r0 r1 f0 f1 D0 D1 Hf0 Hf1 (HD0 _ (hoisted_like_refl _ _ _ Hh0)) (HD1 _ (hoisted_like_refl _ _ _ Hh1))) as (F & w & Hw & HF).
  exists F, w. rewrite !nparties_ok in Hw by (apply M0 || apply M1). split; [exact Hw|]. intros ctOut (HO & _ & _ & Hk).
  destruct (HF ctOut HO Hk) as (ct' & (G1 & G2 & G3 & G4) & HS & G5). exists ct'. split; [auto|]. split; [exact G3|]. split; [auto|]. split; [exact G4|]. split; [exact G5|].
  intros o k h0 h1 Ho Hp K0 K1. destruct (HS o k Ho Hp) as [HS1 _]. apply HS1; intros id Hin; [now apply (HD0 h0 K0)|now apply (HD1 h1 K1)].
Qed.

(** the hoisted form of the output level *)
Lemma mul_same g A U s r Bs Be Dm op0 op1 l0 l1 l rlks ctOut h0 h1 :
  mul_setting pp g A U s r Bs Be Dm op0 op1 l0 l1 rlks -> mul_receiver pp op0 op1 l0 l1 l ctOut ->
  hoisted_at env l op0 h0 -> hoisted_at env l op1 h1 ->
  exists ct', forall o k, order_ok o -> pool_ok pp k ->
      (exists k', MulAndRelin env o op0 op1 rlks ctOut k = Ok (ct', k')) /\
      forall x0 x1, In x0 [None; Some h0] -> In x1 [None; Some h1] -> exists k', MulAndRelinHoisted env o op0 op1 x0 x1 rlks ctOut k = Ok (ct', k').
Proof.
  intros [M0 M1 L0 L1 Hg HU Hs Hrl HD] (HO & Hl0 & Hl1 & Hk) Hh0 Hh1.
  destruct (ct_lift env He l0 op0 L0 M0) as (f0 & Hf0). destruct (ct_lift env He l1 op1 L1 M1) as (f1 & Hf1).
  destruct (dig_any env He l0 l1 l Dm ltac:(lia) ltac:(lia) HD l0 op0 None f0 ltac:(lia) M0 Hf0 I) as (D0 & HD0).
  destruct (dig_any env He l0 l1 l Dm ltac:(lia) ltac:(lia) HD l1 op1 None f1 ltac:(lia) M1 Hf1 I) as (D1 & HD1).
  destruct (mul_main env He op0 op1 l0 l1 l rlks g A U s r Bs Be Dm M0 M1 ltac:(lia) ltac:(lia) Hg HU Hs Hrl HD ctOut HO Hk None None f0 f1 D0 D1 Hf0 Hf1 HD0 HD1) as (ct' & w & _ & _ & HS).
  exists ct'. intros o k Ho Hp. destruct (HS o k Ho Hp) as [HS1 HS2].
  assert (E0 : forall id, In id (ids_of_ct op0) -> osrc env l None op0 id (D0 id)) by (intros; now apply HD0).
  assert (E1 : forall id, In id (ids_of_ct op1) -> osrc env l None op1 id (D1 id)) by (intros; now apply HD1).
  destruct (ids_of_ct_ok op0 (ck_nd _ _ _ M0)) as [_ I0]. destruct (ids_of_ct_ok op1 (ck_nd _ _ _ M1)) as [_ I1].
  split. { destruct HS2 as (k' & E & _); auto. exists k'. exact E. }
  intros x0 x1 H0 H1. destruct (HS1 x0 x1) as (k' & E & _); [| |now exists k'].
  - intros id Hin. destruct H0 as [<-|[<-|[]]]; [auto|]. apply hoisted_osrc; auto; [lia|now apply I0].
  - intros id Hin. destruct H1 as [<-|[<-|[]]]; [auto|]. apply hoisted_osrc; auto; [lia|now apply I1].
Qed.
(** C29 *)
Lemma hoist_recombines l lh op h g Dm : (l <= lh < QCount pp)%nat -> ct_ok pp lh op -> hoisted_at env lh op h -> gadget pp g -> digit_bound pp Dm ->
  forall id, party op id -> exists s D, sget h id = Some s /\
    (forall t, (t < Beta pp l)%nat -> (t < length s)%nat /\ qrep pp l (nth t s dqp) (D t) /\ pnorm_le N (D t) Dm) /\
    forall j, (j <= l)%nat -> peq N (modulus (pa_Q pp) j) (psumL (fun t => pmul N (pconst (g t)) (D t)) (seq 0 (Beta pp l))) (limb op id j).
Proof.
  intros Hl Hc Hh Hg HD id Hp. destruct (ct_lift env He lh op ltac:(lia) Hc) as (f & Hf). destruct (Hf id (proj1 Hp)) as (p & E & HP & _).
  destruct (hoisted_hoist_ok lh lh op h ltac:(lia) Hc Hh id p E (proj2 Hp)) as (s & D & Es & Hd & HR).
  destruct (dig_hoist env He l lh op h f (fun _ => D) Dm [id] ltac:(lia) ltac:(lia) HD) with (id := id) as (HS & HN & HC).
  { intros id' [<-|[]]. exists p, s. auto. } { now left. }
  cbn in HS. destruct HS as (s' & Es' & HR'). rewrite Es in Es'. injection Es' as <-. exists s, D. split; [auto|]. split.
  - intros t Ht. destruct (HR' t Ht) as [G1 G2]. auto.
  - intros j Hj. assert (HN0 : (0 < N)%nat) by apply deg_pos. rewrite (limb_prep env lh (fun q => q + 1) op id p (f id) j E HP ltac:(lia)). rewrite <- (HC j Hj).
    assert (Ht : (j / Alpha pp < Beta pp l)%nat) by (apply (Beta_cover env He l j); lia).
    apply (recombine N HN0 (modulus (pa_Q pp) j) (seq 0 (Beta pp l)) (j / Alpha pp)%nat (fun t => pconst (g t)) D); [apply seq_NoDup|apply in_seq; lia| |reflexivity].
    intros t Hin. apply in_seq in Hin. apply (gadget_row env He l g ltac:(lia) Hg); auto; lia.
Qed.
End T.
