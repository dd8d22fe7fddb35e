(** MulAndRelin into one of its own operands, when component "0" of both operands is zero. *)
From Coq Require Import String ZArith Znumtheory List Lia Setoid Morphisms Bool Permutation Arith.
From Verif Require Import Spec SpecProofs Go GoProofs Lattigo LattigoProofs Arith NegRing NegRingProofs NTT NTTProofs F64 BasisExt BasisExtProofs ModDownProofs DecomposeProofs RingOps RingOpsProofs Maps MapsProofs Params Elements KeySwitch KeySets KeyGen EncDec Utils Evaluator Repr KSProofs KSMulProofs ParamsProofs KeyGenProofs SpecCt KSSem Alias AliasProofs AliasZero.
Import ListNotations.
Local Open Scope Z_scope.
Local Open Scope list_scope.

Section Env.
Context (env : kenv) (He : env_ok env).
Notation pp := (e_pp env).
Notation N := (pa_N pp).
Notation rQ := (ringQ pp).
Notation rP := (ringP pp).
Notation Bt := (Beta pp).
Notation lvP := (levelP pp).
Let Hpp := Hpp env He.
Let HQ := HrQ env He.
Notation z := "0"%string.

Lemma nrep_zero_prep n co : nrep rQ n co pzero -> prep rQ (fun q => q) n co pzero.
Proof.
  intros (H1 & H2 & H3). split; [auto|]. split; [auto|]. intros j Hj. destruct (H3 j Hj) as [HL HX]. split; [auto|]. intros i Hi. destruct (HX i Hi) as [HB HC]. split; [exact HB|].
  rewrite HC. apply cong_eq. unfold nttf, peval. apply sumn_0. intros; reflexivity.
Qed.
(** some polynomial is represented *)
Definition anyrep (l : nat) (p : poly) : Prop := exists A b, prep rQ b (l + 1) (p_co p) A.
Definition zrep (l : nat) (p : poly) : Prop := nrep rQ (l + 1) (p_co p) pzero.
Lemma zrep_any l p : zrep l p -> anyrep l p.
Proof. intros H. exists pzero, (fun q => q). now apply nrep_zero_prep. Qed.
Definition inv (l : nat) (ct0 : ciphertext) (id : string) (p : poly) : Prop := base l ct0 id p /\ anyrep l p.
(** the operand can be read at every point of the run *)
Definition readable (l : nat) (keys : list string) (ct0 : ciphertext) (s : option ciphertext) (ids : list string) : Prop :=
  forall c id, ctall keys c (inv l ct0) -> In id ids -> exists p, sget (rd s c) id = Some p /\ anyrep l p.
Lemma prefl : peq N 0 pzero pzero. Proof. reflexivity. Qed.
Lemma nrep0_l n co A B : peq N 0 A pzero -> nrep rQ n co (pmul N A B) -> nrep rQ n co pzero.
Proof. intros H. apply (nrep_p0 env He). rewrite H, pmul_comm by apply (HN0 env). apply pmul_zero_r, (HN0 env). Qed.

Lemma tensorAt_zero o l (ids0 ids1 : idset) s0 s1 ct keys k : order_ok o -> (l < QCount pp)%nat -> idset_ok ids0 -> idset_ok ids1 ->
  readable l keys ct s0 (mkeys ids0) -> readable l keys ct s1 (mkeys ids1) ->
  (exists p b, sget (rd s0 ct) z = Some p /\ prep rQ b (l + 1) (p_co p) pzero) -> (exists p b, sget (rd s1 ct) z = Some p /\ prep rQ b (l + 1) (p_co p) pzero) ->
  ctall keys ct (fun _ p => anyrep l p) ->
  ctout_ok l keys ct -> (forall id, In id keys <-> id = z \/ In id (mkeys ids0) \/ In id (mkeys ids1)) -> pool_ok pp k ->
  exists ct' k', tensorAt env o l ids0 ids1 s0 s1 ct k = Ok (ct', k') /\ pool_ok pp k' /\
    ctall keys ct' (fun id p => base l ct id p /\ prep rQ (fun q => q) (l + 1) (p_co p) pzero).
Proof.
  intros Ho Hl [Hd0 Hz0] [Hd1 Hz1] G0 G1 (a0 & b0 & E0 & R0) (a1 & b1 & E1 & R1) Hany Hct Hkeys Hk. unfold tensorAt.
  pose proof (kp_q0 _ _ Hk) as K0. pose proof (kp_q1 _ _ Hk) as K1. pose proof (kp_q2 _ _ Hk) as K2.
  unfold mptr at 1. rewrite E0. cbn [bind].
  destruct (NTTLvl_ok rQ HQ _ l a0 (k_q0 k) _ R0) as (q0 & Eq0 & Wq0 & Nq0); [destruct K0 as [-> _]; auto|]. rewrite Eq0. cbn [bind].
  pose proof (pshp_wroten env He l _ _ _ K0 Wq0 Nq0) as S0. destruct Wq0 as (Fq0 & _).
  unfold mptr at 1. rewrite E1. cbn [bind].
  destruct (NTTLvl_ok rQ HQ _ l a1 (k_q1 k) _ R1) as (q1 & Eq1 & Wq1 & Nq1); [destruct K1 as [-> _]; auto|]. rewrite Eq1. cbn [bind].
  pose proof (pshp_wroten env He l _ _ _ K1 Wq1 Nq1) as S1. destruct Wq1 as (Fq1 & _).
  destruct (MFormLvl_ok rQ HQ l q0 q0 _ Nq0) as (q0' & Eq0' & Wq0' & Nq0'); [destruct S0 as [-> _]; auto|]. rewrite Eq0'. cbn [bind].
  pose proof (pshp_wroten env He l _ _ _ S0 Wq0' Nq0') as S0'. destruct Wq0' as (Fq0' & _).
  assert (Hz : In z keys) by (apply Hkeys; auto).
  assert (HB : ctall keys ct (inv l ct)). { pose proof (ctall_base l keys ct Hct) as [HB1 HB2]. split; [auto|]. intros id Hid. destruct (HB2 id Hid) as (p & Ep & Bp). destruct (proj2 Hany id Hid) as (p' & Ep' & Ap). rewrite Ep in Ep'. injection Ep' as <-. exists p. split; [auto|]. now split. }
  destruct (proj2 HB z Hz) as (p0 & Ep0 & Bp0 & Ap0).
  destruct (MulMont_ok rQ HQ l q0' q1 p0 _ _ (pmul N pzero pzero) (nrep_nrepb _ _ _ _ Nq0') Nq1) as (d0 & Ed0 & Wd0 & Nd0);
    [eapply base_len; eauto|apply montprod_l|]. apply (nrep0_l _ _ _ _ prefl) in Nd0.
  erewrite ctUpd_ok; [|exact Ep0|exact Ed0]. cbn [bind].
  destruct (MFormLvl_ok rQ HQ l q1 q1 _ Nq1) as (q1' & Eq1' & Wq1' & Nq1'); [destruct S1 as [-> _]; auto|]. rewrite Eq1'. cbn [bind].
  pose proof (pshp_wroten env He l _ _ _ S1 Wq1' Nq1') as S1'. destruct Wq1' as (Fq1' & _).
  match goal with |- context [foldM ?f (o 2%nat (mkeys ids0)) ?s] =>
    destruct (foldM_inv f (fun don '(c, q2) => ctall keys c (fun id p => inv l ct id p /\ (id = z \/ In id don -> zrep l p)) /\ pshp pp q2 /\ p_ntt q2 = false) (o 2%nat (mkeys ids0)) s)
      as ([c1 q2] & EL & HL1 & HL2 & HL3) end.
  { intros don id rest [c q2] El (HC & S2 & F2).
    assert (Hin : In id (mkeys ids0)) by (rewrite <- (order_in o 2%nat _ id Ho), El; apply in_elt).
    assert (Hik : In id keys) by (apply Hkeys; auto).
    assert (HCi : ctall keys c (inv l ct)) by (eapply ctall_impl; [exact HC|]; cbn; tauto).
    destruct (G0 c id HCi Hin) as (a & Ea & A & b & Ra). unfold mptr. rewrite Ea. cbn [bind].
    destruct (NTTLvl_ok rQ HQ _ l a q2 _ Ra) as (q2' & Eq2 & Wq2 & Nq2); [destruct S2 as [-> _]; auto|]. rewrite Eq2. cbn [bind].
    destruct (proj2 HCi id Hik) as (p & Ep & Bp & _).
    destruct (MulMont_ok rQ HQ l q1' q2' p _ _ (pmul N pzero A) (nrep_nrepb _ _ _ _ Nq1') Nq2) as (d & Ed & Wd & Nd);
      [eapply base_len; eauto|apply montprod_l|]. apply (nrep0_l _ _ _ _ prefl) in Nd.
    erewrite ctUpd_ok; [|exact Ep|exact Ed]. cbn [bind]. exists (sset c id d, q2'). split; [reflexivity|].
    split; [|split; [exact (pshp_wroten env He l _ _ _ S2 Wq2 Nq2)|destruct Wq2 as (-> & _); auto]].
    eapply ctall_set; [exact HC|auto| |].
    - split; [|auto]. split; [eapply base_wrote; eauto|]. apply zrep_any, Nd.
    - intros x px Hne Hxk (J1 & J2). split; [auto|]. rewrite in_app_iff. cbn. intros [Hx|[Hx|[Hx|[]]]]; auto. congruence. }
  { split; [|split; [auto|apply Hk]]. eapply ctall_set; [exact HB|auto| |].
    - split; [|auto]. split; [eapply base_wrote; eauto|]. apply zrep_any, Nd0.
    - intros x px Hne Hxk J. split; [auto|]. intros [Hx|[]]; contradiction. }
  rewrite EL. cbn [bind].
  match goal with |- context [foldM ?f (o 3%nat (mkeys ids1)) ?s] =>
    destruct (foldM_inv f (fun don '(c, q2) => ctall keys c (fun id p => inv l ct id p /\ (id = z \/ In id (mkeys ids0) \/ In id don -> zrep l p)) /\ pshp pp q2 /\ p_ntt q2 = false) (o 3%nat (mkeys ids1)) s)
      as ([c2 q3] & EM & HM1 & HM2 & HM3) end.
  { intros don id rest [c q3] El (HC & S2 & F2).
    assert (Hin : In id (mkeys ids1)) by (rewrite <- (order_in o 3%nat _ id Ho), El; apply in_elt).
    assert (Hik : In id keys) by (apply Hkeys; auto).
    assert (HCi : ctall keys c (inv l ct)) by (eapply ctall_impl; [exact HC|]; cbn; tauto).
    destruct (G1 c id HCi Hin) as (a & Ea & A & b & Ra). unfold mptr. rewrite Ea. cbn [bind].
    destruct (NTTLvl_ok rQ HQ _ l a q3 _ Ra) as (q2' & Eq2 & Wq2 & Nq2); [destruct S2 as [-> _]; auto|]. rewrite Eq2. cbn [bind].
    destruct (proj2 HC id Hik) as (p & Ep & (Bp & _) & G3).
    assert (HS : exists d, (if idHas ids0 id then MulCoeffsMontgomeryAndAddLvl rQ l q0' q2' p else MulCoeffsMontgomeryLvl rQ l q0' q2' p) = Ok d /\ wrote (l + 1) p d /\ zrep l d).
    { destruct (idHas ids0 id) eqn:Eh.
      - apply idHas_In in Eh. specialize (G3 (or_intror (or_introl Eh))).
        destruct (MulMontAdd_ok rQ HQ l q0' q2' p _ _ _ (pmul N pzero A) (nrep_nrepb _ _ _ _ Nq0') Nq2 G3) as (d & Ed & Wd & Nd); [apply montprod_l|].
        exists d. split; [auto|]. split; [auto|]. eapply (nrep_p0 env He); [|exact Nd]. rewrite pmul_comm, pmul_zero_r by apply (HN0 env). intros i Hi. unfold padd, pzero. apply cong_eq. ring.
      - destruct (MulMont_ok rQ HQ l q0' q2' p _ _ (pmul N pzero A) (nrep_nrepb _ _ _ _ Nq0') Nq2) as (d & Ed & Wd & Nd);
          [eapply base_len; eauto|apply montprod_l|].
        exists d. split; [auto|]. split; [auto|]. exact (nrep0_l _ _ _ _ prefl Nd). }
    destruct HS as (d & Ed & Wd & Nd).
    erewrite ctUpd_ok; [|exact Ep|exact Ed]. cbn [bind]. exists (sset c id d, q2'). split; [reflexivity|].
    split; [|split; [exact (pshp_wroten env He l _ _ _ S2 Wq2 Nq2)|destruct Wq2 as (-> & _); auto]].
    eapply ctall_set; [exact HC|auto| |].
    - split; [|auto]. split; [eapply base_wrote; eauto|]. apply zrep_any, Nd.
    - intros x px Hne Hxk (J1 & J2). split; [auto|]. rewrite in_app_iff. cbn. intros [Hx|[Hx|[Hx|[Hx|[]]]]]; auto. congruence. }
  { split; [|split; auto]. eapply ctall_impl; [exact HL1|]. intros x px Hx (A1 & A2). split; [auto|].
    intros [Hx0|[Hx0|[]]]; apply A2; auto. right. now apply order_in. }
  rewrite EM. cbn [bind].
  assert (HT : ctall keys c2 (fun id p => base l ct id p /\ zrep l p)).
  { eapply ctall_impl; [exact HM1|]. intros x px Hx ((A1 & _) & A2). split; [auto|]. apply A2. apply Hkeys in Hx as [Hx|[Hx|Hx]]; auto. right. right. now apply order_in. }
  match goal with |- context [foldM ?f (o 4%nat (mkeys c2)) ?s] =>
    destruct (foldM_inv f (fun don c => ctall keys c (fun id p => base l ct id p /\ (~ In id don -> zrep l p) /\ (In id don -> prep rQ (fun q => q) (l + 1) (p_co p) pzero))) (o 4%nat (mkeys c2)) s)
      as (c3 & EN & HN1) end.
  { intros don id rest c El HC. rewrite (proj1 HT) in El.
    assert (Hik : In id keys) by (rewrite <- (order_in o 4%nat _ id Ho), El; apply in_elt).
    assert (Hnd : ~ In id don).
    { assert (HND : NoDup (don ++ id :: rest)) by (rewrite <- El; apply order_nodup; auto; apply Hct). apply NoDup_remove_2 in HND. rewrite in_app_iff in HND. tauto. }
    destruct (proj2 HC id Hik) as (p & Ep & Bp & G2 & _).
    destruct (InvNTTLvl_ok rQ HQ l p p _ (G2 Hnd)) as (d & Ed & Wd & Nd); [eapply base_len; eauto|].
    erewrite ctUpd_ok; [|exact Ep|exact Ed]. exists (sset c id d). split; [reflexivity|].
    eapply ctall_set; [exact HC|auto| |].
    - split; [eapply base_wrote; eauto|]. split; [rewrite in_app_iff; cbn; tauto|auto].
    - intros x px Hne Hxk (A1 & A2 & A3). split; [auto|]. rewrite in_app_iff. cbn. split; [tauto|]. intros [|[->|[]]]; auto. contradiction. }
  { eapply ctall_impl; [exact HT|]. intros x px Hx (A1 & A2). split; [auto|]. split; [auto|intros []]. }
  rewrite EN. cbn [bind]. eexists _, _. split; [reflexivity|]. split.
  - destruct Hk. constructor; auto; cbn; congruence.
  - eapply ctall_impl; [exact HN1|]. intros x px Hx (A1 & A2 & A3). split; [auto|]. apply A3. apply order_in; auto. rewrite (proj1 HT). auto.
Qed.

(** zero components stay zero when zero is added to them *)
Definition zall (l : nat) (keys : list string) (ct0 c : ciphertext) : Prop :=
  ctall keys c (fun id p => base l ct0 id p /\ prep rQ (fun q => q) (l + 1) (p_co p) pzero).
Lemma add_zero l keys ct0 c id q : ctout_ok l keys ct0 -> zall l keys ct0 c -> In id keys -> prep rQ (fun q => q) (l + 1) (p_co q) pzero ->
  exists c', ctUpd c id (fun p => AddLvl rQ l p q p) = Ok c' /\ zall l keys ct0 c'.
Proof.
  intros Hct HC Hin Hq. destruct (proj2 HC id Hin) as (p & Ep & Bp & Rp).
  destruct (AddLvl_ok rQ HQ _ _ (fun q => q) l p q p _ _ Rp Hq) as (d & Ed & Wd & Rd); [eapply base_len; eauto|intros; lia|].
  erewrite ctUpd_ok; [|exact Ep|exact Ed]. eexists. split; [reflexivity|]. eapply ctall_set; [exact HC|auto| |auto].
  split; [eapply base_wrote; eauto|]. eapply (prep_p0 env); [|exact Rd]. intros i Hi. unfold padd, pzero. apply cong_eq. ring.
Qed.
(** the operand's gadget products with the given rows are zero, whatever has been written *)
Definition zsrc (l : nat) (keys : list string) (ct0 : ciphertext) (s : option ciphertext) (ids : list string) (X : nat -> zpoly) : Prop :=
  forall c id, zall l keys ct0 c -> In id ids -> exists p D, sget (rd s c) id = Some p /\ dsrc env l p D /\ peq N 0 (gsum env l X D) pzero.

Section Run.
Context (o : order) (l l0 : nat) (s0 s1 : option ciphertext) (ct : ciphertext) (L0 L1 keys : list string) (rlks : rlkset) (usk : swk)
  (D0 D1 bK dK vK : string -> nat -> zpoly) (u : nat -> zpoly) (k : kpool).
Hypothesis Ho : order_ok o.
Hypothesis Hl : (l < QCount pp)%nat.
Hypothesis Ha : Alpha pp = 1%nat.
Hypothesis HlO : ctLevel ct = Ok l.
Hypothesis Hl0 : ctLevel (rd s0 ct) = Ok l0.
Hypothesis Hll : (l <= l0)%nat.
Hypothesis HL0 : ids_of (rd s0 ct) L0.
Hypothesis HL1 : ids_of (rd s1 ct) L1.
Hypothesis Hz0 : exists p b, sget (rd s0 ct) z = Some p /\ prep rQ b (l + 1) (p_co p) pzero.
Hypothesis Hz1 : exists p b, sget (rd s1 ct) z = Some p /\ prep rQ b (l + 1) (p_co p) pzero.
Hypothesis HS0 : forall id, In id L0 -> osrc env l None (rd s0 ct) id (D0 id).
Hypothesis HS1 : forall id, In id L1 -> osrc env l None (rd s1 ct) id (D1 id).
Hypothesis Hr0 : readable l keys ct s0 L0.
Hypothesis Hr1 : readable l keys ct s1 L1.
Hypothesis Hany : ctall keys ct (fun _ p => anyrep l p).
Hypothesis Hrl : rlks_ok env l rlks (L0 ++ L1) bK dK vK.
Hypothesis Hu1 : getCRS pp (-1) = Ok usk.
Hypothesis Hu2 : rowsb env l usk u.
Hypothesis Hs1 : zsrc l keys ct s1 L1 (gvec env dK D0 L0).
Hypothesis Hs0 : zsrc l keys ct s0 L0 (gvec env bK D1 L1).
Hypothesis Hct : ctout_ok l keys ct.
Hypothesis Hkeys : forall id, In id keys <-> id = z \/ In id L0 \/ In id L1.
Hypothesis Hk : pool_ok pp k.

Lemma mul_run : exists ct' k', MulAndRelinPlainAt env o s0 s1 rlks ct k = Ok (ct', k') /\ pool_ok pp k' /\ zall l keys ct ct'.
Proof.
  unfold MulAndRelinPlainAt. rewrite HlO, Hl0. cbn [bind]. destruct (Nat.ltb_spec l0 l); [lia|].
  destruct (ctIDSet_perm o (rd s0 ct) L0 Ho HL0) as (i0 & Ei0 & Hi0 & P0). destruct (ctIDSet_perm o (rd s1 ct) L1 Ho HL1) as (i1 & Ei1 & Hi1 & P1).
  rewrite Ei0, Ei1. cbn [bind].
  assert (Q0 : forall n, Permutation (o n (mkeys i0)) L0) by (intros n; rewrite (Ho n (mkeys i0)); auto).
  assert (Q1 : forall n, Permutation (o n (mkeys i1)) L1) by (intros n; rewrite (Ho n (mkeys i1)); auto).
  destruct (zeroRows_ok env He l (k_s1 k) Hl (kp_s1 _ _ Hk)) as (x & Ex & Rx & Sx). rewrite Ex. cbn [bind].
  destruct (zeroRows_ok env He l (k_s2 k) Hl (kp_s2 _ _ Hk)) as (y & Ey & Ry & Sy). rewrite Ey. cbn [bind].
  destruct (genVec_ok env He l (o 0%nat (mkeys i0)) None (rd s0 ct) rlks rl_d x k dK D0 Hl) as (x1 & k1 & Ex1 & Rx1 & Sx1 & Hk1); auto.
  { intros id Hin. apply HS0. eapply Permutation_in; [apply Q0|exact Hin]. }
  { intros id Hin. destruct (Hrl id) as (rl & E & A1 & A2 & A3); [apply in_app_iff; left; eapply Permutation_in; [apply Q0|exact Hin]|eauto]. }
  rewrite Ex1. cbn [bind].
  destruct (genVec_ok env He l (o 1%nat (mkeys i1)) None (rd s1 ct) rlks rl_b y k1 bK D1 Hl) as (y1 & k2 & Ey1 & Ry1 & Sy1 & Hk2); auto.
  { intros id Hin. apply HS1. eapply Permutation_in; [apply Q1|exact Hin]. }
  { intros id Hin. destruct (Hrl id) as (rl & E & A1 & A2 & A3); [apply in_app_iff; right; eapply Permutation_in; [apply Q1|exact Hin]|eauto]. }
  rewrite Ey1. cbn [bind].
  destruct (tensorAt_zero o l i0 i1 s0 s1 ct keys k2 Ho Hl Hi0 Hi1) as (c1 & k3 & Ec1 & Hk3 & HC1); auto.
  { intros c id Hc Hin. apply Hr0; auto. eapply Permutation_in; eauto. }
  { intros c id Hc Hin. apply Hr1; auto. eapply Permutation_in; eauto. }
  { intros id. rewrite Hkeys. split; (intros [H1|[H1|H1]]; [auto|right; left|right; right]); (eapply Permutation_in; [|exact H1]); auto; now symmetry. }
  rewrite Ec1. cbn [bind].
  match goal with |- context [foldM ?f (o 5%nat (mkeys i1)) ?s] => destruct (foldM_inv f (fun _ '(c, kk) => zall l keys ct c /\ pool_ok pp kk) (o 5%nat (mkeys i1)) s) as ([c2 k4] & Ec2 & HC2 & Hk4) end; [|split; [exact HC1|exact Hk3]|].
  { intros don id rest [c kk] El [HC Hkk]. assert (Hin : In id L1) by (eapply Permutation_in; [apply (Q1 5%nat)|rewrite El; apply in_elt]).
    destruct (Hs1 c id HC Hin) as (p & D & Ep & HD & HZ). unfold mptr. rewrite Ep. cbn [bind].
    destruct (EP_ok env He l p x1 D _ pzero (k_q0 kk) kk Hl HD Rx1) as (q0 & kk' & Eq & Wq & Rq & Hkk' & Kp); auto.
    { apply (is_ep_zero' env He l _ Hl). rewrite <- HZ. apply gsum_peq. intros t Ht. apply gvec_perm. apply Q0. }
    { destruct (kp_q0 _ _ Hkk) as [-> _]; auto. }
    rewrite Eq. cbn [bind]. destruct (add_zero l keys ct c id q0 Hct HC) as (c' & Ec' & HC'); [apply Hkeys; auto|exact Rq|]. rewrite Ec'. cbn [bind].
    eexists (_, _). split; [reflexivity|]. split; [auto|]. eapply (pool_set_q0 env He); eauto. destruct Kp as (-> & _). auto. }
  rewrite Ec2. cbn [bind]. rewrite Hu1. cbn [bind].
  match goal with |- context [foldM ?f (o 6%nat (mkeys i0)) ?s] => destruct (foldM_inv f (fun _ '(c, kk) => zall l keys ct c /\ pool_ok pp kk) (o 6%nat (mkeys i0)) s) as ([c3 k5] & Ec3 & HC3 & Hk5) end; [|split; [exact HC2|exact Hk4]|].
  { intros don id rest [c kk] El [HC Hkk]. assert (Hin : In id L0) by (eapply Permutation_in; [apply (Q0 6%nat)|rewrite El; apply in_elt]).
    destruct (Hrl id) as (rl & Er & _ & _ & Rv); [apply in_app_iff; auto|]. unfold mptr at 1. rewrite Er. cbn [bind].
    destruct (Hs0 c id HC Hin) as (p & D & Ep & HD & HZ). unfold mptr. rewrite Ep. cbn [bind].
    destruct (EP_ok env He l p y1 D _ pzero (k_q0 kk) kk Hl HD Ry1) as (q0 & ka & Eq & Wq & Rq & Hka & Kp); auto.
    { apply (is_ep_zero' env He l _ Hl). rewrite <- HZ. apply gsum_peq. intros t Ht. apply gvec_perm. apply Q1. }
    { destruct (kp_q0 _ _ Hkk) as [-> _]; auto. }
    rewrite Eq. cbn [bind].
    assert (Hkb : pool_ok pp (set_q0 q0 ka)) by (eapply (pool_set_q0 env He); eauto; destruct Kp as (-> & _); auto).
    assert (HDs : dsrc env l q0 (Dz env)).
    { apply (cdigits_src env He l pzero); [exact Hl| |exact Rq|now apply digits_zero]. destruct Wq as (-> & _). apply Hkk. }
    destruct (EP_ok env He l q0 (rl_v rl) (Dz env) (vK id) pzero (k_q1 (set_q0 q0 ka)) (set_q0 q0 ka) Hl HDs Rv) as (q1 & kb & Eq1 & Wq1 & Rq1 & Hkb1 & Kp1); auto.
    { apply (is_ep_zero' env He l _ Hl). apply gsum_zero_r. intros; apply Dz_zero. }
    { destruct (kp_q1 _ _ Hkb) as [-> _]; auto. }
    rewrite Eq1. cbn [bind].
    assert (Hkc : pool_ok pp (set_q1 q1 kb)) by (eapply (pool_set_q1 env He); eauto; destruct Kp1 as (_ & -> & _); auto).
    destruct (add_zero l keys ct c z q1 Hct HC) as (c' & Ec' & HC'); [apply Hkeys; auto|exact Rq1|]. rewrite Ec'. cbn [bind].
    destruct (EP_ok env He l q0 usk (Dz env) u pzero (k_q2 (set_q1 q1 kb)) (set_q1 q1 kb) Hl HDs Hu2) as (q2 & kc & Eq2 & Wq2 & Rq2 & Hkc1 & Kp2); auto.
    { apply (is_ep_zero' env He l _ Hl). apply gsum_zero_r. intros; apply Dz_zero. }
    { destruct (kp_q2 _ _ Hkc) as [-> _]; auto. }
    rewrite Eq2. cbn [bind].
    destruct (add_zero l keys ct c' id q2 Hct HC') as (c'' & Ec'' & HC''); [apply Hkeys; auto|exact Rq2|]. rewrite Ec''. cbn [bind].
    eexists (_, _). split; [reflexivity|]. split; [auto|]. eapply (pool_set_q2 env He); eauto. destruct Kp2 as (_ & _ & -> & _). auto. }
  rewrite Ec3. cbn [bind]. eexists _, _. split; [reflexivity|]. split; [|exact HC3]. destruct Hk5. constructor; auto.
Qed.
End Run.

Lemma zero_part l l0 ct : (l <= l0)%nat -> (l0 < QCount pp)%nat -> ct_ok pp l0 ct -> (forall j, (j <= l)%nat -> peq N (modulus (pa_Q pp) j) (limb ct z j) pzero) ->
  exists p b, sget ct z = Some p /\ prep rQ b (l + 1) (p_co p) pzero.
Proof.
  intros Hll Hl Hc Hz. destruct (ct_lift env He l0 ct Hl Hc) as (f & Hf). destruct (Hf z (ck_0 _ _ _ Hc)) as (p & Ep & Rp & _). exists p, (fun q => q + 1). split; [auto|].
  apply (prep_le rQ _ (l0 + 1) (l + 1)) in Rp; [|lia]. eapply prep_peq; [|exact Rp]. intros j Hj. change (qj rQ j) with (nth j (pa_Q pp) 0). change (r_N rQ) with N. rewrite <- (limb_prep env l _ ct z p (f z) j Ep Rp) by lia. apply Hz. lia.
Qed.
(** zero in place: the operands have nothing in component "0"; the second is the receiver, or the d rows of the keys are zero; the first is the
    receiver, or the b rows are zero *)
Lemma mul_zero g A U s r Bs Be Dm s0 s1 ct l l0 l1 rlks : Alpha pp = 1%nat -> ct_ok pp l ct -> (l <= l0)%nat -> (l <= l1)%nat ->
  mul_setting pp g A U s r Bs Be Dm (rd s0 ct) (rd s1 ct) l0 l1 rlks -> (forall id, In id (mkeys ct) <-> In id (mkeys (rd s0 ct)) \/ In id (mkeys (rd s1 ct))) ->
  (forall j, (j <= l)%nat -> peq N (modulus (pa_Q pp) j) (limb (rd s0 ct) z j) pzero /\ peq N (modulus (pa_Q pp) j) (limb (rd s1 ct) z j) pzero) ->
  (s1 = None \/ forall id rl, sget rlks id = Some rl -> krows pp (rl_d rl) (fun _ => pzero)) ->
  (s0 = None \/ forall id rl, sget rlks id = Some rl -> krows pp (rl_b rl) (fun _ => pzero)) ->
  forall o k, order_ok o -> pool_ok pp k -> exists ct' k', MulAndRelinPlainAt env o s0 s1 rlks ct k = Ok (ct', k') /\ pool_ok pp k' /\
    ct_ok pp l ct' /\ mkeys ct' = mkeys ct /\ forall j, (j <= l)%nat -> peq N (modulus (pa_Q pp) j) (phase N s ct' j) pzero.
Proof.
  intros Ha HO Hll0 Hll1 [H0 H1 Hl0 Hl1 Hg HU Hs Hrl HDm] Hkeys Hz Z1 Z0 o k Ho Hk.
  set (op0 := rd s0 ct) in *. set (op1 := rd s1 ct) in *. set (L0 := ids_of_ct op0). set (L1 := ids_of_ct op1). assert (Hl : (l < QCount pp)%nat) by lia.
  pose proof (ids_of_ct_ok op0 (ck_nd _ _ _ H0)) as I0. pose proof (ids_of_ct_ok op1 (ck_nd _ _ _ H1)) as I1. fold L0 in I0. fold L1 in I1.
  assert (HP : forall id, In id L0 \/ In id L1 -> party op0 id \/ party op1 id) by (intros id [H|H]; [left; now apply I0|right; now apply I1]).
  destruct (ct_lift env He l0 op0 Hl0 H0) as (f0 & Hf0). destruct (ct_lift env He l1 op1 Hl1 H1) as (f1 & Hf1). destruct (ct_lift env He l ct Hl HO) as (fO & HfO).
  destruct (dig_plain env He l l0 op0 f0 Dm L0 Hll0 Hl0 HDm) as (D0 & HD0). { intros id Hin. apply I0 in Hin as [Hin _]. destruct (Hf0 id Hin) as (p & E & HPp & Hn & _ & Hsh). exists p. auto. }
  destruct (dig_plain env He l l1 op1 f1 Dm L1 Hll1 Hl1 HDm) as (D1 & HD1). { intros id Hin. apply I1 in Hin as [Hin _]. destruct (Hf1 id Hin) as (p & E & HPp & Hn & _ & Hsh). exists p. auto. }
  assert (HS0 : forall id, In id L0 -> osrc env l None op0 id (D0 id)) by (intros id Hid; now apply HD0).
  assert (HS1 : forall id, In id L1 -> osrc env l None op1 id (D1 id)) by (intros id Hid; now apply HD1).
  destruct (choose_str (fun _ => (pzero, (pzero, pzero))) (L0 ++ L1) (fun id E => exists rl, sget rlks id = Some rl /\
     rowsb env l (rl_b rl) (fun t => fst (E t)) /\ rowsb env l (rl_d rl) (fun t => fst (snd (E t))) /\ rowsb env l (rl_v rl) (fun t => snd (snd (E t))) /\
     (s1 = None \/ forall t, fst (snd (E t)) = pzero) /\ (s0 = None \/ forall t, fst (E t) = pzero))) as (E & HE).
  { intros id Hin. apply in_app_or in Hin. destruct (Hrl id (HP id Hin)) as (rl & Er & eb & ed & ev & He1 & K1 & K2 & K3).
    assert (B : exists B, krows pp (rl_b rl) B /\ (s0 = None \/ forall t, B t = pzero)). { destruct Z0 as [Z|Z]; [eexists; split; [exact K1|auto]|]. exists (fun _ => pzero). split; [exact (Z id rl Er)|auto]. }
    assert (D : exists B, krows pp (rl_d rl) B /\ (s1 = None \/ forall t, B t = pzero)). { destruct Z1 as [Z|Z]; [eexists; split; [exact K2|auto]|]. exists (fun _ => pzero). split; [exact (Z id rl Er)|auto]. }
    destruct B as (B & HB & HB0). destruct D as (D & HD & HD0'). eexists (fun t => (B t, (D t, _ t))), rl. split; [auto|]. cbn [fst snd]. split; [|split; [|split; [|auto]]].
    - eapply (rowsb_of_krowsb env He); [exact Hl|apply krows_krowsb, HB|]. intros; reflexivity.
    - eapply (rowsb_of_krowsb env He); [exact Hl|apply krows_krowsb, HD|]. intros; reflexivity.
    - eapply (rowsb_of_krowsb env He); [exact Hl|exact K3|]. intros; reflexivity. }
  set (bK := fun id t => fst (E id t)). set (dK := fun id t => fst (snd (E id t))). set (vK := fun id t => snd (snd (E id t))).
  destruct HU as (usk & Eu & Hu1 & Hu2).
  assert (Hu3 : rowsb env l usk U). { apply (rowsb_of_krowsb env He l usk U U Hl); [apply krows_krowsb; split; auto|]. intros; reflexivity. }
  assert (Hct : ctout_ok l (mkeys ct) ct).
  { split; [reflexivity|]. split; [apply HO|]. intros id Hin. destruct (mget_ex _ seqb ct id Hin) as (p & Ep). exists p. split; [auto|]. destruct (ck_comp _ _ _ HO id p Ep) as (_ & -> & _). lia. }
  assert (Hk2 : forall id, In id (mkeys ct) <-> id = z \/ In id L0 \/ In id L1).
  { intros id. rewrite Hkeys. destruct I0 as [_ ->], I1 as [_ ->]. destruct (string_dec id "0") as [->|Hne]; [|tauto]. split; [auto|]. intros _. left. apply H0. }
  assert (Hrd : forall s' L, (s' = None -> incl L (mkeys ct)) -> (forall p, s' = Some p -> forall id, In id L -> exists x, sget p id = Some x /\ anyrep l x) -> readable l (mkeys ct) ct s' L).
  { intros s' L A1 A2 c id Hc Hin. destruct s' as [p|]; cbn [rd]; [exact (A2 p eq_refl id Hin)|]. destruct (proj2 Hc id (A1 eq_refl id Hin)) as (x & Ex & _ & Ax). eauto. }
  assert (Hzs : forall s' L X D, incl L (mkeys ct) -> (forall id, In id L -> osrc env l None (rd s' ct) id (D id)) -> (s' = None \/ forall t, peq N 0 (X t) pzero) -> zsrc l (mkeys ct) ct s' L X).
  { intros s' L X D A1 A2 A3 c id Hc Hin. destruct s' as [p|]; cbn [rd] in *.
    - destruct (A2 id Hin) as (x & Ex & Hx). exists x, (D id). split; [auto|]. split; [auto|]. destruct A3 as [|A3]; [discriminate|]. apply gsum_zero_l. auto.
    - destruct (proj2 Hc id (A1 id Hin)) as (x & Ex & (p0 & Ep0 & Wp0) & Rx). exists x, (Dz env). split; [auto|]. split; [|apply gsum_zero_r; intros; apply Dz_zero].
      apply (cdigits_src env He l pzero); [exact Hl| |exact Rx|now apply digits_zero]. destruct Wp0 as (-> & _). apply (ck_comp _ _ _ HO id p0 Ep0). }
  assert (J0 : incl L0 (mkeys ct)) by (intros x Hx; apply Hk2; auto). assert (J1 : incl L1 (mkeys ct)) by (intros x Hx; apply Hk2; auto).
  destruct (mul_run o l l0 s0 s1 ct L0 L1 (mkeys ct) rlks usk D0 D1 bK dK vK U k) as (ct' & k' & Er & Hk' & HZ); auto.
  { apply (ct_level env). exact HO. } { apply (ct_level env). exact H0. }
  { apply (zero_part l l0); auto. intros j Hj. now apply Hz. } { apply (zero_part l l1); auto. intros j Hj. now apply Hz. }
  { apply Hrd; [auto|]. intros p -> id Hin. apply I0 in Hin as [Hin _]. destruct (Hf0 id Hin) as (x & Ex & Rx & _). exists x. split; [auto|]. exists (f0 id), (fun q => q + 1). apply (prep_le rQ _ (l0 + 1)); [lia|auto]. }
  { apply Hrd; [auto|]. intros p -> id Hin. apply I1 in Hin as [Hin _]. destruct (Hf1 id Hin) as (x & Ex & Rx & _). exists x. split; [auto|]. exists (f1 id), (fun q => q + 1). apply (prep_le rQ _ (l1 + 1)); [lia|auto]. }
  { split; [reflexivity|]. intros id Hin. destruct (HfO id Hin) as (x & Ex & Rx & _). exists x. split; [auto|]. exists (fO id), (fun q => q + 1). auto. }
  { intros id Hin. destruct (HE id Hin) as (rl & R1 & R2 & R3 & R4 & _). exists rl. auto. }
  { apply (Hzs s1 L1 _ D1 J1 HS1). destruct s1 as [x1|] eqn:Es; [right|now left]. intros t. apply gvec_zero. intros id Hid. destruct (HE id) as (rl & _ & _ & _ & _ & [G|G] & _); [apply in_app_iff; auto|discriminate|]. unfold dK. rewrite G. reflexivity. }
  { apply (Hzs s0 L0 _ D0 J0 HS0). destruct s0 as [x1|] eqn:Es; [right|now left]. intros t. apply gvec_zero. intros id Hid. destruct (HE id) as (rl & _ & _ & _ & _ & _ & [G|G]); [apply in_app_iff; auto|discriminate|]. unfold bK. rewrite G. reflexivity. }
  exists ct', k'. split; [exact Er|]. split; [exact Hk'|]. destruct HZ as [Hk'' HZ]. split; [|split; [exact Hk''|]].
  - constructor; [rewrite Hk''; apply HO|rewrite Hk''; apply HO|]. intros id p Ep. assert (Hin : In id (mkeys ct)) by (rewrite <- Hk''; eapply (mget_key _ seqb); eauto).
    destruct (HZ id Hin) as (p' & Ep' & (p0 & E0 & Hb) & HPr). rewrite Ep in Ep'. injection Ep' as <-. destruct (ck_comp _ _ _ HO id p0 E0) as (B1 & B2 & _).
    split; [destruct Hb as (-> & _); auto|]. split; [rewrite (wrote_len Hb); auto|]. intros j Hj. destruct HPr as (_ & _ & HPr). destruct (HPr j ltac:(lia)) as [G1 G2]. split; [exact G1|].
    intros x Hx. destruct (G2 x Hx) as [G3 _]. change (qj rQ j) with (nth j (pa_Q pp) 0) in G3. lia.
  - intros j Hj. unfold modulus. rewrite (phase_lift env l s ct' (fun _ => pzero) j); [|rewrite Hk''; apply HO|intros id Hin; rewrite Hk'' in Hin; destruct (HZ id Hin) as (p & Ep & _ & HPr); eauto|auto].
    apply (peq_0 N). apply psumL_zero. intros x _. apply pmul_zero_r, (HN0 env).
Qed.
End Env.
