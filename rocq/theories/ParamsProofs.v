(** Shape of the gadget and of the common reference strings (params.go). *)
From Coq Require Import String ZArith Znumtheory List Lia Bool Permutation.
From Verif Require Import Go GoProofs Lattigo LattigoProofs Arith NegRing NegRingProofs NTT NTTProofs F64 BasisExt BasisExtProofs ModDownProofs DecomposeProofs RingOps RingOpsProofs Maps MapsProofs Params Elements KeySwitch KSProofs.
From Verif Require Export Repr.
Import ListNotations.
Local Open Scope Z_scope.

Lemma Beta_exact pp l : (1 <= Alpha pp)%nat -> Z.of_nat l + 1 < 2 ^ 53 -> Z.of_nat (PCount pp) < 2 ^ 53 ->
  Beta pp l = ((l + Alpha pp) / Alpha pp)%nat.
Proof.
  intros Ha Hl HP. unfold Beta. assert (Hb : Z.of_nat (Alpha pp) < 2 ^ 53).
  { unfold Alpha in *. destruct (pa_gamma pp); [cbn in Ha; lia|]. assert (PCount pp / S n <= PCount pp)%nat by (apply Nat.div_le_upper_bound; nia). lia. }
  rewrite ceil_div_f_exact by lia. replace (Z.of_nat l + 1 + Z.of_nat (Alpha pp) - 1) with (Z.of_nat (l + Alpha pp)) by lia.
  now rewrite <- Nat2Z.inj_div, Nat2Z.id.
Qed.
(** the two inequalities that characterise a ceiling *)
Lemma Beta_ceiling pp l : (1 <= Alpha pp)%nat -> Z.of_nat l + 1 < 2 ^ 53 -> Z.of_nat (PCount pp) < 2 ^ 53 ->
  (1 <= Beta pp l /\ l + 1 <= Alpha pp * Beta pp l /\ Alpha pp * (Beta pp l - 1) < l + 1)%nat.
Proof.
  intros Ha Hl HP. rewrite Beta_exact by auto. pose proof (Nat.div_mod (l + Alpha pp) (Alpha pp) ltac:(lia)) as E.
  pose proof (Nat.mod_upper_bound (l + Alpha pp) (Alpha pp) ltac:(lia)) as Hm.
  assert (1 <= (l + Alpha pp) / Alpha pp)%nat by (apply Nat.div_le_lower_bound; lia).
  set (b := ((l + Alpha pp) / Alpha pp)%nat) in *. set (a := Alpha pp) in *. clearbody a b. split; [lia|]. split; nia.
Qed.
Lemma Beta_monotone pp l l' : (1 <= Alpha pp)%nat -> Z.of_nat l' + 1 < 2 ^ 53 -> Z.of_nat (PCount pp) < 2 ^ 53 -> (l <= l')%nat -> (Beta pp l <= Beta pp l')%nat.
Proof. intros. rewrite !Beta_exact by (auto; lia). apply Nat.div_le_mono; lia. Qed.

(** a sampler returns reduced polynomials of the shape of the ring QP *)
Definition sample_ok (pp : params) (x : qp) : Prop :=
  exists A, qrep pp (maxLevel pp) x A /\ qshp pp x.

Lemma genCRS_ok env b smp : env_ok env -> (forall i, (i < b)%nat -> qshp (e_pp env) (smp i)) -> (forall i, (i < b)%nat -> exists A, qrep (e_pp env) (maxLevel (e_pp env)) (smp i) A) ->
  exists v, genCRS (e_pp env) b smp = Ok v /\ length v = b /\ Forall (qshp (e_pp env)) v /\
    forall i A, (i < b)%nat -> qrep (e_pp env) (maxLevel (e_pp env)) (smp i) A -> qrep (e_pp env) (maxLevel (e_pp env)) (nth i v dqp) (pscale W A).
Proof.
  intros He Hs HA. pose proof (eo_pp _ He) as Hpp. assert (Hm : (maxLevel (e_pp env) < QCount (e_pp env))%nat) by (unfold maxLevel; pose proof (po_Q _ Hpp); lia).
  unfold genCRS.
  destruct (mapM_seq_spec (fun i => MFormQP (e_pp env) (maxLevel (e_pp env)) (levelP (e_pp env)) (smp i) (smp i))
     (fun i d => qshp (e_pp env) d /\ forall A, qrep (e_pp env) (maxLevel (e_pp env)) (smp i) A -> qrep (e_pp env) (maxLevel (e_pp env)) d (pscale W A)) b 0%nat) as (v & E & Hl & Hv).
  { intros i Hi. destruct (HA i ltac:(lia)) as (A & HA'). destruct (MFormQP_ok env He _ _ (smp i) A Hm HA' (Hs i ltac:(lia))) as (d & Ed & Hd & Hsd).
    exists d. split; [exact Ed|]. split; [auto|]. intros A1 HA1.
    destruct (MFormQP_ok env He _ _ (smp i) A1 Hm HA1 (Hs i ltac:(lia))) as (d' & Ed' & Hd' & _). rewrite Ed in Ed'. injection Ed' as ->. auto. }
  exists v. split; [exact E|]. split; [auto|]. split.
  - apply Forall_forall. intros x Hx. apply (In_nth _ _ dqp) in Hx as (i & Hi & <-). apply (Hv dqp i). lia.
  - intros i A Hi. apply (Hv dqp i). auto.
Qed.

Definition default_env (pp : params) : kenv := fst (NewKeySwitcher (fun _ _ _ => false) pp).
Lemma default_env_ok pp : params_ok pp -> env_ok (default_env pp).
Proof. intros H. constructor; auto. Qed.
Lemma params_ok_crs logN Q P pq pP g c c' : params_ok (mkParams logN Q P pq pP g c) -> params_ok (mkParams logN Q P pq pP g c').
Proof. intros []. constructor; auto. Qed.

Lemma Beta_maxlevel pp : (1 <= QCount pp)%nat ->
  Z.to_nat (ceil_div_f (Z.of_nat (QCount pp)) (Z.of_nat (Alpha pp))) = Beta pp (maxLevel pp).
Proof. intros H. unfold Beta, maxLevel. do 2 f_equal. lia. Qed.

Lemma NewParameters_ok logN Q P psiQ psiP gamma smp :
  let pp0 := mkParams logN Q P psiQ psiP gamma [] in
  params_ok pp0 -> (forall ix i, sample_ok pp0 (smp ix i)) ->
  exists crs, let pp := mkParams logN Q P psiQ psiP gamma crs in
    NewParameters logN Q P psiQ psiP gamma smp = Ok pp /\ params_ok pp /\
    (forall ix, In ix (crsIndices logN) <-> exists v, getCRS pp ix = Ok v) /\
    (forall ix v, getCRS pp ix = Ok v -> swk_ok pp v) /\
    (forall ix A, In ix (crsIndices logN) -> (forall i, qrep pp0 (maxLevel pp0) (smp ix i) (A i)) -> crs_is pp ix A).
Proof.
  intros pp0 Hpp Hs. pose proof (default_env_ok pp0 Hpp) as He. set (bt := Beta pp0 (maxLevel pp0)).
  assert (HG : forall ix, exists v, genCRS pp0 bt (smp ix) = Ok v /\ length v = bt /\ Forall (qshp pp0) v /\
     forall i A, (i < bt)%nat -> qrep pp0 (maxLevel pp0) (smp ix i) A -> qrep pp0 (maxLevel pp0) (nth i v dqp) (pscale W A)).
  { intros ix. apply (genCRS_ok (default_env pp0) bt (smp ix) He).
    - intros i _. destruct (Hs ix i) as (A & H1 & H2). exact H2.
    - intros i _. destruct (Hs ix i) as (A & H1 & H2). exists A. exact H1. }
  unfold NewParameters. destruct (Nat.eqb_spec gamma 0) as [->|Hg]; [pose proof (po_gamma _ Hpp) as Hx; cbn in Hx; lia|].
  fold pp0. destruct (Nat.eqb_spec (Alpha pp0) 0) as [H0|Ha]; [pose proof (po_alpha _ Hpp); lia|].
  rewrite (Beta_maxlevel pp0 (po_Q _ Hpp)) || (change (length Q) with (QCount pp0); rewrite (Beta_maxlevel pp0 (po_Q _ Hpp))). fold bt.
  destruct (foldM_inv (fun m ix => let* v := genCRS pp0 bt (smp ix) in Ok (zset m ix v))
     (fun don m => forall ix, match zget m ix with Some v => In ix don /\ genCRS pp0 bt (smp ix) = Ok v | None => ~ In ix don end) (crsIndices logN) []) as (crs & E & HI).
  { intros don ix rest m _ HI. destruct (HG ix) as (v & Ev & _). rewrite Ev. cbn [bind]. eexists. split; [reflexivity|].
    intros iy. destruct (Z.eqb_spec iy ix) as [->|Hne].
    - rewrite (mget_mset_same Z.eqb Z.eqb_eq). split; [apply in_app_iff; right; left; auto|]. exact Ev.
    - rewrite (mget_mset_other Z.eqb Z.eqb_eq) by auto. specialize (HI iy). destruct (zget m iy).
      + destruct HI; split; auto. apply in_app_iff; auto.
      + rewrite in_app_iff. cbn. intros [H|[H|[]]]; auto. }
  { intros ix. cbn. easy. }
  exists crs. cbv zeta. rewrite E. cbn [bind]. split; [reflexivity|].
  set (pp := mkParams logN Q P psiQ psiP gamma crs). split; [eapply params_ok_crs; exact Hpp|].
  unfold getCRS, mptr. cbn [pa_CRS pp]. split; [|split].
  - intros ix. specialize (HI ix). destruct (zget crs ix) as [v|] eqn:Ez.
    + split; [eauto|]. intros _. apply HI.
    + split; [contradiction|]. intros (v & Hv). discriminate.
  - intros ix v Hv. specialize (HI ix). destruct (zget crs ix) as [v'|] eqn:Ez; [|discriminate]. injection Hv as ->. destruct HI as [_ HI].
    destruct (HG ix) as (v2 & E2 & L2 & F2 & _). rewrite E2 in HI. injection HI as ->. split; auto.
  - intros ix A Hin HA. specialize (HI ix). unfold crs_is, getCRS, mptr. cbn [pa_CRS pp]. destruct (zget crs ix) as [v'|] eqn:Ez; [|contradiction].
    destruct HI as [_ HI]. destruct (HG ix) as (v2 & E2 & L2 & F2 & R2). rewrite E2 in HI. injection HI as ->. exists v'.
    split; [auto|]. split; [split; auto|]. intros t Ht. apply R2; auto.
Qed.

Lemma AddCRS_ok env ix smp : let pp := e_pp env in env_ok env -> (forall i, sample_ok pp (smp ix i)) ->
  exists crs, let pp' := mkParams (pa_logN pp) (pa_Q pp) (pa_P pp) (pa_psiQ pp) (pa_psiP pp) (pa_gamma pp) crs in
    AddCRS pp ix smp = Ok pp' /\ params_ok pp' /\
    (forall iy, iy <> ix -> getCRS pp' iy = getCRS pp iy) /\
    (exists v, getCRS pp' ix = Ok v /\ swk_ok pp' v) /\
    (forall A, (forall i, qrep pp (maxLevel pp) (smp ix i) (A i)) -> crs_is pp' ix A).
Proof.
  intros pp He Hs. pose proof (eo_pp _ He) as Hpp. unfold AddCRS.
  destruct (genCRS_ok env (Beta pp (maxLevel pp)) (smp ix) He) as (v & Ev & Lv & Fv & Rv).
  - intros i _. destruct (Hs i) as (A & H1 & H2). exact H2.
  - intros i _. destruct (Hs i) as (A & H1 & H2). exists A. exact H1.
  - fold pp in Ev. rewrite Ev. cbn [bind]. eexists. cbv zeta. split; [reflexivity|].
    assert (Hpp' : forall c, params_ok (mkParams (pa_logN pp) (pa_Q pp) (pa_P pp) (pa_psiQ pp) (pa_psiP pp) (pa_gamma pp) c)).
    { intros c. unfold pp in *. destruct (e_pp env). eapply params_ok_crs. exact Hpp. }
    split; [apply Hpp'|]. unfold crs_is, getCRS, mptr. cbn [pa_CRS]. split; [|split].
    + intros iy Hne. now rewrite (mget_mset_other Z.eqb Z.eqb_eq).
    + rewrite (mget_mset_same Z.eqb Z.eqb_eq). exists v. split; [reflexivity|]. split; [exact Lv|exact Fv].
    + intros A HA. rewrite (mget_mset_same Z.eqb Z.eqb_eq). exists v. split; [reflexivity|]. split; [split; [exact Lv|exact Fv]|].
      intros t Ht. apply Rv; auto.
Qed.
