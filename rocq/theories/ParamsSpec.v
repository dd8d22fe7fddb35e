(** C11 and C40 restated. *)
From Coq Require Import String ZArith Znumtheory List Lia Bool.
From Verif Require Import Spec SpecProofs Go GoProofs Lattigo LattigoProofs Arith NegRing NegRingProofs NTT NTTProofs F64 BasisExt BasisExtProofs ModDownProofs DecomposeProofs RingOps RingOpsProofs Maps MapsProofs Params Elements KeySwitch KSProofs ParamsProofs Crt.
Import ListNotations.
Local Open Scope Z_scope.

(** what a uniform sampler over the ring QP returns *)
Definition uniform_sample (pp : params) (x : qp) : Prop :=
  residues (pa_Q pp) (pa_N pp) (p_co (qQ x)) /\ residues (pa_P pp) (pa_N pp) (p_co (qP x)).
Lemma residues_shp r N co : ring_ok r -> residues (r_mods r) N co -> length co = length (r_mods r) /\ shp N co /\ reduced (r_mods r) N co.
Proof.
  intros Hr [HL H]. split; [auto|]. split; [|exact H]. apply Forall_of_nth with (d := []). intros j Hj. rewrite HL in Hj. destruct (H j Hj) as [H1 H2].
  split; [auto|]. apply Forall_forall. intros w Hw. apply (In_nth _ _ 0) in Hw as (x & Hx & <-). destruct (H2 x ltac:(lia)) as [H3 H4].
  unfold word, modulus in *. destruct (ring_q1 r j Hr Hj). lia.
Qed.
Lemma uniform_ok pp x : params_ok pp -> uniform_sample pp x -> sample_ok pp x.
Proof.
  intros Hpp [HQ HP]. apply (residues_shp (ringQ pp)) in HQ as (L1 & S1 & R1); [|apply Hpp]. apply (residues_shp (ringP pp)) in HP as (L2 & S2 & R2); [|apply Hpp].
  destruct (qp_lift pp x) as (A & HA); auto. exists A. split; [auto|]. split; split; auto.
Qed.

Lemma C11_beta_lemma pp l : (1 <= Alpha pp)%nat -> Z.of_nat l + 1 < 2 ^ 53 -> Z.of_nat (PCount pp) < 2 ^ 53 ->
  (l + 1 <= Alpha pp * Beta pp l /\ Alpha pp * (Beta pp l - 1) < l + 1 /\ forall l', (l' <= l)%nat -> (Beta pp l' <= Beta pp l)%nat)%nat.
Proof.
  intros. destruct (Beta_ceiling pp l) as (_ & H2 & H3); auto. split; [auto|]. split; [auto|]. intros l' Hl'. apply Beta_monotone; auto.
Qed.
Lemma C11_alpha_lemma pp : (0 < pa_gamma pp)%nat -> (pa_gamma pp * Alpha pp <= PCount pp < pa_gamma pp * (Alpha pp + 1))%nat.
Proof.
  intros Hg. unfold Alpha. pose proof (Nat.div_mod (PCount pp) (pa_gamma pp) ltac:(lia)). pose proof (Nat.mod_upper_bound (PCount pp) (pa_gamma pp) ltac:(lia)). nia.
Qed.
Lemma C11_crs_lemma logN Q P psiQ psiP gamma smp :
  let pp0 := mkParams logN Q P psiQ psiP gamma [] in
  params_ok pp0 -> (forall ix i, uniform_sample pp0 (smp ix i)) ->
  exists pp, NewParameters logN Q P psiQ psiP gamma smp = Ok pp /\
    (pa_logN pp, pa_Q pp, pa_P pp, pa_psiQ pp, pa_psiP pp, pa_gamma pp) = (logN, Q, P, psiQ, psiP, gamma) /\
    (forall ix, (exists v, getCRS pp ix = Ok v) <-> In ix [0; -1; -2; -3; -4] \/ exists i, (i < logN - 1)%nat /\ ix = 2 ^ Z.of_nat i) /\
    (forall ix v, getCRS pp ix = Ok v -> List.length v = Beta pp (maxLevel pp) /\ forall l, (l <= maxLevel pp)%nat -> (Beta pp l <= List.length v)%nat) /\
    List.length (NewSwitchingKey pp) = Beta pp (maxLevel pp).
Proof.
  intros pp0 Hpp HS. destruct (NewParameters_ok logN Q P psiQ psiP gamma smp Hpp) as (crs & E & Hpp' & Hix & Hsh & _); [intros; now apply uniform_ok|].
  eexists. split; [exact E|]. split; [reflexivity|]. split; [|split].
  - intros ix. rewrite <- Hix. unfold crsIndices. rewrite in_app_iff, in_map_iff. setoid_rewrite in_seq. split; (intros [H|H]; [left; exact H|right]).
    + destruct H as (i & <- & Hi). exists i. split; [lia|reflexivity].
    + destruct H as (i & Hi & ->). exists i. split; [reflexivity|lia].
  - intros ix v Hv. destruct (Hsh ix v Hv) as [HL _]. split; [exact HL|]. intros l Hl. rewrite HL. apply Beta_monotone; auto.
    + pose proof (po_alpha _ Hpp'). lia.
    + unfold maxLevel. pose proof (po_Q52 _ Hpp'). lia.
    + pose proof (po_P _ Hpp'). lia.
  - apply repeat_length.
Qed.
Lemma C11_panic_lemma logN Q P psiQ psiP gamma smp : (gamma = 0 \/ List.length P < gamma)%nat -> exists p, NewParameters logN Q P psiQ psiP gamma smp = Panic p.
Proof.
  intros H. unfold NewParameters. destruct (Nat.eqb_spec gamma 0); [eauto|]. destruct H as [H|H]; [contradiction|].
  match goal with |- context [Nat.eqb ?a 0] => destruct (Nat.eqb_spec a 0) as [|Hne] end; [eauto|]. exfalso. apply Hne. unfold Alpha, PCount. cbn. now apply Nat.div_small.
Qed.
Lemma C40_lemma pp ix smp : params_ok pp -> (forall i, uniform_sample pp (smp ix i)) ->
  exists pp', AddCRS pp ix smp = Ok pp' /\
    (pa_logN pp', pa_Q pp', pa_P pp', pa_psiQ pp', pa_psiP pp', pa_gamma pp') = (pa_logN pp, pa_Q pp, pa_P pp, pa_psiQ pp, pa_psiP pp, pa_gamma pp) /\
    (forall iy, iy <> ix -> getCRS pp' iy = getCRS pp iy) /\
    (exists v, getCRS pp' ix = Ok v /\ List.length v = Beta pp' (maxLevel pp')) /\
    (forall A, (forall i, qrep pp (maxLevel pp) (smp ix i) (A i)) -> crs_is pp' ix A).
Proof.
  intros Hpp HS. destruct (AddCRS_ok (default_env pp) ix smp (default_env_ok pp Hpp)) as (crs & E & _ & H1 & H2 & H3).
  { intros i. apply uniform_ok; auto. }
  eexists. split; [exact E|]. split; [reflexivity|]. split; [exact H1|]. split; [|exact H3].
  destruct H2 as (v & Hv & [HL _]). exists v. split; [exact Hv|exact HL].
Qed.
