(** MulAndRelin and MulAndRelinHoisted: which polynomials the output components represent. *)
From Coq Require Import String ZArith Znumtheory List Lia Setoid Morphisms Bool Permutation.
From Verif Require Import Go GoProofs Lattigo LattigoProofs Arith NegRing NegRingProofs NTT NTTProofs F64 BasisExt BasisExtProofs ModDownProofs DecomposeProofs RingOps RingOpsProofs Maps MapsProofs Params Elements KeySwitch KSProofs.
Import ListNotations.
Local Open Scope Z_scope.
Local Open Scope list_scope.

Definition inb (x : string) (l : list string) : bool := existsb (String.eqb x) l.
Lemma inb_In x l : inb x l = true <-> In x l.
Proof. unfold inb. rewrite existsb_exists. split; [intros (y & H & E); apply String.eqb_eq in E as ->; auto|]. intros H. exists x. split; auto. apply String.eqb_refl. Qed.
Lemma inb_app x l y : inb x (l ++ [y]) = inb x l || String.eqb x y.
Proof. unfold inb. rewrite existsb_app. cbn. now rewrite orb_false_r. Qed.
Lemma inb_perm x l l' : Permutation l l' -> inb x l = inb x l'.
Proof. intros H. apply eq_true_iff_eq. rewrite !inb_In. split; apply Permutation_in; auto. now symmetry. Qed.

(** all components of a ciphertext with the given keys satisfy G *)
Definition ctall (keys : list string) (ct : ciphertext) (G : string -> poly -> Prop) : Prop :=
  mkeys ct = keys /\ forall id, In id keys -> exists p, sget ct id = Some p /\ G id p.
Lemma ctall_set keys ct (G G' : string -> poly -> Prop) id p : ctall keys ct G -> In id keys -> G' id p ->
  (forall x px, x <> id -> In x keys -> G x px -> G' x px) -> ctall keys (sset ct id p) G'.
Proof.
  intros [H1 H2] Hin Hp HG. split; [rewrite (mkeys_mset_in _ seqb); congruence|].
  intros x Hx. rewrite (mget_mset _ seqb). destruct (String.eqb_spec x id) as [->|Hne]; [eauto|].
  destruct (H2 x Hx) as (px & E & HGx). exists px. split; auto.
Qed.
Lemma ctall_impl keys ct (G G' : string -> poly -> Prop) : ctall keys ct G -> (forall x px, In x keys -> G x px -> G' x px) -> ctall keys ct G'.
Proof. intros [H1 H2] H. split; auto. intros x Hx. destruct (H2 x Hx) as (p & E & HG). eauto. Qed.
Lemma ctUpd_ok ct id f p p' : sget ct id = Some p -> f p = Ok p' -> ctUpd ct id f = Ok (sset ct id p').
Proof. intros H1 H2. unfold ctUpd, mptr. rewrite H1. cbn [bind]. rewrite H2. reflexivity. Qed.

Section Env.
Context (env : kenv) (He : env_ok env).
Notation pp := (e_pp env).
Notation N := (pa_N pp).
Notation rQ := (ringQ pp).
Notation rP := (ringP pp).
Notation Bt := (Beta pp).
Notation lvP := (levelP pp).
Let Hpp := Hpp env He.
Let HQ := HrQ env He.
Let HP := HrP env He.

Lemma HN0 : (0 < pa_N pp)%nat. Proof. apply deg_pos. Qed.

(** * row loops *)
Lemma rows_fold l (step : swk -> nat -> res swk) (P P' : nat -> qp -> Prop) x :
  (l < QCount pp)%nat -> swk_ok pp x -> (forall t, (t < Bt l)%nat -> P t (nth t x dqp)) ->
  (forall i v, (i < Bt l)%nat -> (i < List.length v)%nat -> swk_ok pp v -> P i (nth i v dqp) ->
     exists xi, step v i = swkSet v i xi /\ P' i xi /\ qshp pp xi) ->
  exists x', foldM step (seq 0 (Bt l)) x = Ok x' /\ (forall t, (t < Bt l)%nat -> P' t (nth t x' dqp)) /\ swk_ok pp x'.
Proof.
  intros Hl Hx HX Hs. pose proof (Beta_max env He l Hl) as Hm.
  destruct (foldM_seq_inv step (fun i v => swk_ok pp v /\ (forall t, (t < i)%nat -> P' t (nth t v dqp)) /\
      (forall t, (i <= t)%nat -> (t < Bt l)%nat -> P t (nth t v dqp))) (Bt l) x) as (v & E & Hv & H1 & H2).
  - intros i v Hi (Hv & H1 & H2). assert (Hiv : (i < List.length v)%nat) by (destruct Hv as [-> _]; lia).
    destruct (Hs i v Hi Hiv Hv (H2 i (le_n _) Hi)) as (xi & Es & Hx' & Hq).
    destruct (swkSet_ok v i xi Hiv) as (v' & Ev & HL & Hn). exists v'. rewrite Es. split; [auto|].
    split; [eapply (swk_ok_set env); eauto|]. split.
    + intros t Ht. rewrite Hn. destruct (Nat.eqb_spec t i) as [->|]; auto. apply H1. lia.
    + intros t Ht Ht2. rewrite Hn. destruct (Nat.eqb_spec t i) as [->|]; [lia|]. apply H2; lia.
  - split; [auto|]. split; [intros; lia|auto].
  - exists v. auto.
Qed.
Lemma swk_len l v t : (l < QCount pp)%nat -> swk_ok pp v -> (t < Bt l)%nat -> (t < List.length v)%nat.
Proof. intros Hl [-> _] Ht. pose proof (Beta_max env He l Hl). lia. Qed.

Lemma nrep_zero r n p : ring_ok r -> (n <= length (r_mods r))%nat -> (n <= plen p)%nat -> shp (r_N r) (p_co p) -> nrep r n (p_co (pZero p)) pzero.
Proof.
  intros Hr Hn Hp Hs. split; [auto|]. cbn. rewrite map_length. fold (plen p). split; [lia|].
  intros j Hj. unfold plen in Hp. rewrite (nth_mapl _ _ _ []) by lia. destruct (shp_nth _ _ j Hs ltac:(lia)) as [HL _].
  split; [now rewrite repeat_length|]. intros i Hi. rewrite nth_repeat. destruct (ring_q1 r j Hr ltac:(lia)). split; [lia|].
  apply cong_eq. unfold nttf, peval. symmetry. apply sumn_0. intros; reflexivity.
Qed.
Lemma pZero_shp r p : ring_ok r -> shp (r_N r) (p_co p) -> shp (r_N r) (p_co (pZero p)).
Proof.
  intros Hr Hs. apply Forall_of_nth with (d := []). cbn. rewrite map_length. intros j Hj. rewrite (nth_mapl _ _ _ []) by lia.
  destruct (shp_nth _ _ j Hs Hj) as [HL _]. split; [now rewrite repeat_length|]. apply Forall_forall. intros x Hx. apply repeat_spec in Hx as ->.
  rewrite W_val. lia.
Qed.
Lemma zeroRows_ok l v : (l < QCount pp)%nat -> swk_ok pp v ->
  exists v', zeroRows (Bt l) v = Ok v' /\ rows env l v' (fun _ => pzero) /\ swk_ok pp v'.
Proof.
  intros Hl Hv. unfold zeroRows.
  destruct (rows_fold l (fun v i => let* x := idx v i in swkSet v i (qpZero x)) (fun _ _ => True) (fun t x => qrep pp l x pzero) v Hl Hv (fun _ _ => I)) as (v' & E & H1 & H2).
  - intros i w Hi Hiw Hw _. rewrite (idx_nth w i dqp) by auto. cbn [bind]. eexists. split; [reflexivity|].
    destruct (swk_ok_nth env w i Hw Hiw) as [[A1 A2] [A3 A4]]. split; split; cbn [qQ qP qpZero].
    + apply nrep_zero; auto; unfold QCount in *; cbn; lia.
    + apply nrep_zero; auto; unfold PCount in *; cbn; lia.
    + split; [unfold plen in *; cbn; now rewrite map_length|]. now apply (pZero_shp rQ).
    + split; [unfold plen in *; cbn; now rewrite map_length|]. now apply (pZero_shp rP).
  - exists v'. split; [auto|]. split; [|auto]. intros t Ht. split; [eapply swk_len; eauto|auto].
Qed.
Lemma accRows_ok l key dig x B D X : (l < QCount pp)%nat -> rowsb env l key B -> rows env l dig D -> rows env l x X -> swk_ok pp x ->
  exists x', accRows env l key dig x = Ok x' /\ rows env l x' (fun t => padd (X t) (pmul N (B t) (D t))) /\ swk_ok pp x'.
Proof.
  intros Hl HB HD HX Hx. unfold accRows.
  match goal with |- context [foldM ?f _ _] => destruct (rows_fold l f (fun t y => qrep pp l y (X t)) (fun t y => qrep pp l y (padd (X t) (pmul N (B t) (D t)))) x Hl Hx) as (x' & E & H1 & H2) end.
  - intros t Ht. now apply HX.
  - intros i v Hi Hiv Hv HXi. destruct (HB i Hi) as [Hb1 Hb2]. destruct (HD i Hi) as [Hd1 Hd2].
    rewrite (idx_nth key i dqp) by auto. cbn [bind]. rewrite (idx_nth dig i dqp) by auto. cbn [bind]. rewrite (idx_nth v i dqp) by auto. cbn [bind].
    destruct (MulAddQP_ok env He l _ _ (nth i v dqp) _ _ _ Hl Hb2 Hd2 HXi) as (y & Ey & Hy & Hys); [now apply (swk_ok_nth env)|].
    rewrite Ey. cbn [bind]. exists y. auto.
  - exists x'. split; [auto|]. split; [|auto]. intros t Ht. split; [eapply swk_len; eauto|auto].
Qed.
Lemma mformRows_ok l x X : (l < QCount pp)%nat -> rows env l x X -> swk_ok pp x ->
  exists x', mformRows env l x = Ok x' /\ rows env l x' (fun t => pscale W (X t)) /\ swk_ok pp x'.
Proof.
  intros Hl HX Hx. unfold mformRows.
  match goal with |- context [foldM ?f _ _] => destruct (rows_fold l f (fun t y => qrep pp l y (X t)) (fun t y => qrep pp l y (pscale W (X t))) x Hl Hx) as (x' & E & H1 & H2) end.
  - intros t Ht. now apply HX.
  - intros i v Hi Hiv Hv HXi. rewrite (idx_nth v i dqp) by auto. cbn [bind].
    destruct (MFormQP_ok env He l _ (nth i v dqp) _ Hl HXi) as (y & Ey & Hy & Hys); [now apply (swk_ok_nth env)|].
    rewrite Ey. cbn [bind]. exists y. auto.
  - exists x'. split; [auto|]. split; [|auto]. intros t Ht. split; [eapply swk_len; eauto|auto].
Qed.

(** * digits of an operand component, plain or hoisted *)
Definition osrc (l : nat) (h : option hoisted) (op : ciphertext) (id : string) (D : nat -> zpoly) : Prop :=
  match h with
  | None => exists p, sget op id = Some p /\ dsrc env l p D
  | Some h => exists s, sget h id = Some s /\ rows env l s D
  end.
Lemma pool_set_s3 k s : pool_ok pp k -> swk_ok pp s -> pool_ok pp (set_s3 s k).
Proof. intros [] ?. constructor; auto. Qed.
Lemma getDigits_ok l h op id D k : (l < QCount pp)%nat -> osrc l h op id D -> pool_ok pp k ->
  exists s k', getDigits env l h op id k = Ok (s, k') /\ rows env l s D /\ pool_ok pp k'.
Proof.
  intros Hl HS Hk. unfold getDigits, osrc in *. destruct h as [h|]; destruct HS as (s & Es & HR); unfold mptr; rewrite Es; cbn [bind].
  - exists s, k. auto.
  - destruct (Decompose_ok env He l s D (k_s3 k) k Hl HR (kp_s3 _ _ Hk) Hk) as (ad & k' & E & HD & Hs & Hk' & _). rewrite E. cbn [bind].
    exists ad, (set_s3 ad k'). split; [auto|]. split; [auto|]. now apply pool_set_s3.
Qed.
Lemma extOp_ok l h op id D bg B C c k : (l < QCount pp)%nat -> osrc l h op id D -> rowsb env l bg B -> is_ep env l (gsum env l B D) C ->
  pool_ok pp k -> (l < plen c)%nat ->
  exists c' k', extOp env l h op id bg c k = Ok (c', k') /\ wrote (l + 1) c c' /\
    prep rQ (fun q => q) (l + 1) (p_co c') C /\ pool_ok pp k' /\ keep k k'.
Proof.
  intros Hl HS HB HC Hk Hc. unfold extOp, osrc in *. destruct h as [h|]; destruct HS as (s & Es & HR); unfold mptr; rewrite Es; cbn [bind].
  - eapply (EPH_ok env He); eauto.
  - eapply (EP_ok env He); eauto.
Qed.

Lemma qrep_peq0 l x A B : peq N 0 A B -> qrep pp l x A -> qrep pp l x B.
Proof. apply (qrep_peq env He). Qed.

Lemma genVec_ok l ids h op rlks sel x k (B D : string -> nat -> zpoly) : (l < QCount pp)%nat ->
  (forall id, In id ids -> osrc l h op id (D id)) ->
  (forall id, In id ids -> exists rl, sget rlks id = Some rl /\ rowsb env l (sel rl) (B id)) ->
  rows env l x (fun _ => pzero) -> swk_ok pp x -> pool_ok pp k ->
  exists x' k', genVec env ids l h op rlks sel x k = Ok (x', k') /\
    rowsb env l x' (fun t => psumL (fun id => pmul N (B id t) (D id t)) ids) /\ swk_ok pp x' /\ pool_ok pp k'.
Proof.
  intros Hl HD HB Hx Hs Hk. unfold genVec.
  match goal with |- context [foldM ?f ids (x, k)] =>
    destruct (foldM_inv f (fun don '(x, k) => rows env l x (fun t => psumL (fun id => pmul N (B id t) (D id t)) don) /\ swk_ok pp x /\ pool_ok pp k) ids (x, k))
      as ([x1 k1] & E & Hx1 & Hs1 & Hk1) end.
  - intros don id rest [x0 k0] El (Hx0 & Hs0 & Hk0). assert (Hin : In id ids) by (rewrite El; apply in_elt).
    destruct (getDigits_ok l h op id (D id) k0 Hl (HD id Hin) Hk0) as (s & k' & Eg & Hr & Hk'). rewrite Eg. cbn [bind].
    destruct (HB id Hin) as (rl & Er & Hrl). unfold mptr. rewrite Er. cbn [bind].
    destruct (accRows_ok l (sel rl) s x0 _ _ _ Hl Hrl Hr Hx0 Hs0) as (x' & Ex & Hx' & Hs'). rewrite Ex. cbn [bind].
    exists (x', k'). split; [auto|]. split; [|auto]. intros t Ht. destruct (Hx' t Ht) as [A1 A2]. split; [auto|].
    eapply qrep_peq0; [|exact A2]. rewrite psumL_app. cbn. intros i Hi. unfold padd, pzero. apply cong_eq. ring.
  - split; [|auto]. exact Hx.
  - rewrite E. cbn [bind]. destruct (mformRows_ok l x1 _ Hl Hx1 Hs1) as (x2 & E2 & Hx2 & Hs2). rewrite E2. cbn [bind].
    exists x2, k1. split; [auto|]. split; [|auto]. intros t Ht. destruct (Hx2 t Ht) as [A1 A2]. split; [auto|]. now apply qrep_qrepb.
Qed.

(** * tensor products *)
Definition oprep (l : nat) (op : ciphertext) (id : string) (A : zpoly) : Prop :=
  exists p b, sget op id = Some p /\ prep rQ b (l + 1) (p_co p) A.
(** receiver components: shape kept, limbs above l kept *)
Definition base (l : nat) (ct0 : ciphertext) (id : string) (p : poly) : Prop :=
  exists p0, sget ct0 id = Some p0 /\ wrote (l + 1) p0 p.
Lemma base_wrote l ct0 id p p' : base l ct0 id p -> wrote (l + 1) p p' -> base l ct0 id p'.
Proof. intros (p0 & E & H) Hw. exists p0. split; auto. eapply wrote_trans; eauto. Qed.
Definition ctout_ok (l : nat) (keys : list string) (ct : ciphertext) : Prop :=
  mkeys ct = keys /\ NoDup keys /\ forall id, In id keys -> exists p, sget ct id = Some p /\ (l < plen p)%nat.
Lemma base_len l keys ct0 id p : ctout_ok l keys ct0 -> base l ct0 id p -> In id keys -> (l < plen p)%nat.
Proof.
  intros (_ & _ & H) (p0 & E & Hw) Hin. destruct (H id Hin) as (p1 & E1 & HL). rewrite E in E1. injection E1 as <-.
  now rewrite (wrote_len Hw).
Qed.
Lemma ctall_base l keys ct : ctout_ok l keys ct -> ctall keys ct (base l ct).
Proof. intros (H1 & H2 & H3). split; auto. intros id Hin. destruct (H3 id Hin) as (p & E & _). exists p. split; auto. exists p. split; auto. apply wrote_refl. Qed.

Definition tens (f0 f1 : string -> zpoly) (ids0 ids1 : list string) (id : string) : zpoly :=
  if String.eqb id "0" then pmul N (f0 "0"%string) (f1 "0"%string)
  else padd (if inb id ids0 then pmul N (f0 id) (f1 "0"%string) else pzero)
            (if inb id ids1 then pmul N (f0 "0"%string) (f1 id) else pzero).

Lemma pshp_wrote l p d A b : (l < QCount pp)%nat -> pshp pp p -> wrote (l + 1) p d -> prep rQ b (l + 1) (p_co d) A -> (forall q, b q <= q + 1) -> pshp pp d.
Proof.
  intros Hl [H1 H2] Hw HA Hb. split; [rewrite (wrote_len Hw); auto|]. refine (prep_shp rQ _ _ _ _ _ H2 Hw HA _).
  intros j Hj. destruct (ring_q1 rQ j HQ) as [HW1 HW]; [cbn; unfold QCount in Hl; lia|]. specialize (Hb (qj rQ j)). lia.
Qed.
Lemma pshp_wroten l p d A : pshp pp p -> wrote (l + 1) p d -> nrep rQ (l + 1) (p_co d) A -> pshp pp d.
Proof. intros [H1 H2] Hw HA. split; [rewrite (wrote_len Hw); auto|]. exact (nrep_shp rQ _ _ _ _ HQ H2 Hw HA). Qed.

Lemma nrep_p0 n co A B : peq N 0 A B -> nrep rQ n co A -> nrep rQ n co B.
Proof. intros H. apply nrep_peq; [apply HQ|]. intros j Hj. now apply peq_0. Qed.
Lemma prep_p0 b n co A B : peq N 0 A B -> prep rQ b n co A -> prep rQ b n co B.
Proof. intros H. apply prep_peq. intros j Hj. now apply peq_0. Qed.

Lemma tensor_ok o l (ids0 ids1 : idset) op0 op1 f0 f1 ct keys k : order_ok o -> (l < QCount pp)%nat ->
  idset_ok ids0 -> idset_ok ids1 ->
  (forall id, id = "0"%string \/ In id (mkeys ids0) -> oprep l op0 id (f0 id)) ->
  (forall id, id = "0"%string \/ In id (mkeys ids1) -> oprep l op1 id (f1 id)) ->
  ctout_ok l keys ct -> (forall id, In id keys <-> id = "0"%string \/ In id (mkeys ids0) \/ In id (mkeys ids1)) ->
  pool_ok pp k ->
  exists ct' k', tensor env o l ids0 ids1 op0 op1 ct k = Ok (ct', k') /\ pool_ok pp k' /\
    ctall keys ct' (fun id p => base l ct id p /\ prep rQ (fun q => q) (l + 1) (p_co p) (tens f0 f1 (mkeys ids0) (mkeys ids1) id)).
Proof.
  intros Ho Hl [Hd0 Hz0] [Hd1 Hz1] H0 H1 Hct Hkeys Hk. unfold tensor.
  pose proof (kp_q0 _ _ Hk) as K0. pose proof (kp_q1 _ _ Hk) as K1. pose proof (kp_q2 _ _ Hk) as K2.
  destruct (H0 "0"%string (or_introl eq_refl)) as (a0 & b0 & E0 & R0). destruct (H1 "0"%string (or_introl eq_refl)) as (a1 & b1 & E1 & R1).
  unfold mptr at 1. rewrite E0. cbn [bind].
  destruct (NTTLvl_ok rQ HQ _ l a0 (k_q0 k) _ R0) as (q0 & Eq0 & Wq0 & Nq0); [destruct K0 as [-> _]; auto|]. rewrite Eq0. cbn [bind].
  pose proof (pshp_wroten l _ _ _ K0 Wq0 Nq0) as S0. destruct Wq0 as (Fq0 & _).
  unfold mptr at 1. rewrite E1. cbn [bind].
  destruct (NTTLvl_ok rQ HQ _ l a1 (k_q1 k) _ R1) as (q1 & Eq1 & Wq1 & Nq1); [destruct K1 as [-> _]; auto|]. rewrite Eq1. cbn [bind].
  pose proof (pshp_wroten l _ _ _ K1 Wq1 Nq1) as S1. destruct Wq1 as (Fq1 & _).
  destruct (MFormLvl_ok rQ HQ l q0 q0 _ Nq0) as (q0' & Eq0' & Wq0' & Nq0'); [destruct S0 as [-> _]; auto|]. rewrite Eq0'. cbn [bind].
  pose proof (pshp_wroten l _ _ _ S0 Wq0' Nq0') as S0'. destruct Wq0' as (Fq0' & _).
  set (z := "0"%string) in *.
  assert (Hz : In z keys) by (apply Hkeys; auto).
  pose proof (ctall_base l keys ct Hct) as HB.
  destruct (proj2 HB z Hz) as (p0 & Ep0 & Bp0).
  destruct (MulMont_ok rQ HQ l q0' q1 p0 _ _ (pmul N (f0 z) (f1 z)) (nrep_nrepb _ _ _ _ Nq0') Nq1) as (d0 & Ed0 & Wd0 & Nd0);
    [eapply base_len; eauto|apply montprod_l|].
  erewrite ctUpd_ok; [|exact Ep0|exact Ed0]. cbn [bind].
  destruct (MFormLvl_ok rQ HQ l q1 q1 _ Nq1) as (q1' & Eq1' & Wq1' & Nq1'); [destruct S1 as [-> _]; auto|]. rewrite Eq1'. cbn [bind].
  pose proof (pshp_wroten l _ _ _ S1 Wq1' Nq1') as S1'. destruct Wq1' as (Fq1' & _).
  (* loop over ids0 *)
  match goal with |- context [foldM ?f (o 2%nat (mkeys ids0)) ?s] =>
    destruct (foldM_inv f (fun don '(c, q2) => ctall keys c (fun id p => base l ct id p /\ (id = z -> nrep rQ (l + 1) (p_co p) (pmul N (f0 z) (f1 z))) /\
        (In id don -> nrep rQ (l + 1) (p_co p) (pmul N (f0 id) (f1 z)))) /\ pshp pp q2 /\ p_ntt q2 = false) (o 2%nat (mkeys ids0)) s)
      as ([c1 q2] & EL & HL1 & HL2 & HL3) end.
  { intros don id rest [c q2] El (HC & S2 & F2).
    assert (Hin : In id (mkeys ids0)) by (rewrite <- (order_in o 2%nat _ id Ho), El; apply in_elt).
    assert (Hnd : ~ In id don).
    { assert (HND : NoDup (don ++ id :: rest)) by (rewrite <- El; now apply order_nodup). apply NoDup_remove_2 in HND. rewrite in_app_iff in HND. tauto. }
    assert (Hik : In id keys) by (apply Hkeys; auto). assert (Hiz : id <> z) by (intros ->; auto).
    destruct (H0 id (or_intror Hin)) as (a & b & Ea & Ra). unfold mptr. rewrite Ea. cbn [bind].
    destruct (NTTLvl_ok rQ HQ _ l a q2 _ Ra) as (q2' & Eq2 & Wq2 & Nq2); [destruct S2 as [-> _]; auto|]. rewrite Eq2. cbn [bind].
    destruct (proj2 HC id Hik) as (p & Ep & Bp & _).
    destruct (MulMont_ok rQ HQ l q1' q2' p _ _ (pmul N (f1 z) (f0 id)) (nrep_nrepb _ _ _ _ Nq1') Nq2) as (d & Ed & Wd & Nd);
      [eapply base_len; eauto|apply montprod_l|].
    erewrite ctUpd_ok; [|exact Ep|exact Ed]. cbn [bind]. exists (sset c id d, q2'). split; [reflexivity|].
    split; [|split; [exact (pshp_wroten l _ _ _ S2 Wq2 Nq2)|destruct Wq2 as (-> & _); auto]].
    eapply ctall_set; [exact HC|auto| |].
    - split; [eapply base_wrote; eauto|]. split; [intros ->; contradiction|]. intros _. eapply nrep_p0; [|exact Nd]. apply pmul_comm, HN0.
    - intros x px Hne Hxk (G1 & G2 & G3). split; [auto|]. split; [auto|]. intros Hx. apply G3. apply in_app_iff in Hx as [|[->|[]]]; auto. contradiction. }
  { split; [|split; [auto|apply Hk]]. eapply ctall_set; [exact HB|auto| |].
    - split; [eapply base_wrote; eauto|]. split; [auto|intros []].
    - intros x px Hne Hxk G1. split; [auto|]. split; [intros ->; contradiction|intros []]. }
  rewrite EL. cbn [bind].
  (* loop over ids1 *)
  match goal with |- context [foldM ?f (o 3%nat (mkeys ids1)) ?s] =>
    destruct (foldM_inv f (fun don '(c, q2) => ctall keys c (fun id p => base l ct id p /\ (id = z -> nrep rQ (l + 1) (p_co p) (pmul N (f0 z) (f1 z))) /\
        (~ In id don -> In id (mkeys ids0) -> nrep rQ (l + 1) (p_co p) (pmul N (f0 id) (f1 z))) /\
        (In id don -> nrep rQ (l + 1) (p_co p) (padd (if inb id (mkeys ids0) then pmul N (f0 id) (f1 z) else pzero) (pmul N (f0 z) (f1 id)))))
        /\ pshp pp q2 /\ p_ntt q2 = false) (o 3%nat (mkeys ids1)) s)
      as ([c2 q3] & EM & HM1 & HM2 & HM3) end.
  { intros don id rest [c q3] El (HC & S2 & F2).
    assert (Hin : In id (mkeys ids1)) by (rewrite <- (order_in o 3%nat _ id Ho), El; apply in_elt).
    assert (Hnd : ~ In id don).
    { assert (HND : NoDup (don ++ id :: rest)) by (rewrite <- El; now apply order_nodup). apply NoDup_remove_2 in HND. rewrite in_app_iff in HND. tauto. }
    assert (Hik : In id keys) by (apply Hkeys; auto). assert (Hiz : id <> z) by (intros ->; auto).
    destruct (H1 id (or_intror Hin)) as (a & b & Ea & Ra). unfold mptr. rewrite Ea. cbn [bind].
    destruct (NTTLvl_ok rQ HQ _ l a q3 _ Ra) as (q2' & Eq2 & Wq2 & Nq2); [destruct S2 as [-> _]; auto|]. rewrite Eq2. cbn [bind].
    destruct (proj2 HC id Hik) as (p & Ep & Bp & _ & G3 & _).
    assert (HS : exists d, (if idHas ids0 id then MulCoeffsMontgomeryAndAddLvl rQ l q0' q2' p else MulCoeffsMontgomeryLvl rQ l q0' q2' p) = Ok d /\ wrote (l + 1) p d /\
       nrep rQ (l + 1) (p_co d) (padd (if inb id (mkeys ids0) then pmul N (f0 id) (f1 z) else pzero) (pmul N (f0 z) (f1 id)))).
    { destruct (idHas ids0 id) eqn:Eh.
      - apply idHas_In in Eh. assert (Ei : inb id (mkeys ids0) = true) by now apply inb_In. rewrite Ei.
        apply (MulMontAdd_ok rQ HQ l q0' q2' p _ _ _ _ (nrep_nrepb _ _ _ _ Nq0') Nq2); [auto|apply montprod_l].
      - assert (Ei : inb id (mkeys ids0) = false).
        { destruct (inb id (mkeys ids0)) eqn:E; auto. apply inb_In, idHas_In in E. congruence. }
        rewrite Ei. destruct (MulMont_ok rQ HQ l q0' q2' p _ _ (pmul N (f0 z) (f1 id)) (nrep_nrepb _ _ _ _ Nq0') Nq2) as (d & Ed & Wd & Nd);
          [eapply base_len; eauto|apply montprod_l|].
        exists d. split; [auto|]. split; [auto|]. eapply nrep_p0; [|exact Nd]. intros i Hi. unfold padd, pzero. apply cong_eq. ring. }
    destruct HS as (d & Ed & Wd & Nd).
    erewrite ctUpd_ok; [|exact Ep|exact Ed]. cbn [bind]. exists (sset c id d, q2'). split; [reflexivity|].
    split; [|split; [exact (pshp_wroten l _ _ _ S2 Wq2 Nq2)|destruct Wq2 as (-> & _); auto]].
    eapply ctall_set; [exact HC|auto| |].
    - split; [eapply base_wrote; eauto|]. split; [intros ->; contradiction|]. split; [|auto]. intros Hx. rewrite in_app_iff in Hx. cbn in Hx. tauto.
    - intros x px Hne Hxk (A1 & A2 & A3 & A4). split; [auto|]. split; [auto|]. rewrite in_app_iff. cbn. split; [tauto|].
      intros [Hx|[->|[]]]; auto. contradiction. }
  { split; [|split; auto]. eapply ctall_impl; [exact HL1|]. intros x px Hx (A1 & A2 & A3). split; [auto|]. split; [auto|].
    split; [|intros []]. intros _ Hx0. apply A3. now apply order_in. }
  rewrite EM. cbn [bind].
  assert (HT : ctall keys c2 (fun id p => base l ct id p /\ nrep rQ (l + 1) (p_co p) (tens f0 f1 (mkeys ids0) (mkeys ids1) id))).
  { eapply ctall_impl; [exact HM1|]. intros x px Hx (A1 & A2 & A3 & A4). split; [auto|]. unfold tens.
    destruct (String.eqb_spec x "0") as [->|Hne]; [apply A2; reflexivity|].
    destruct (inb x (mkeys ids1)) eqn:Ei1.
    - apply A4. apply order_in; auto. now apply inb_In.
    - assert (Hn1 : ~ In x (mkeys ids1)) by (rewrite <- inb_In; congruence).
      apply Hkeys in Hx as [Hx|[Hx|Hx]]; [contradiction| |contradiction].
      rewrite (proj2 (inb_In x (mkeys ids0)) Hx). eapply nrep_p0; [|apply A3; auto; rewrite order_in by auto; auto].
      intros i Hi. unfold padd, pzero. apply cong_eq. unfold z. ring. }
  (* inverse transforms *)
  match goal with |- context [foldM ?f (o 4%nat (mkeys c2)) ?s] =>
    destruct (foldM_inv f (fun don c => ctall keys c (fun id p => base l ct id p /\
        (~ In id don -> nrep rQ (l + 1) (p_co p) (tens f0 f1 (mkeys ids0) (mkeys ids1) id)) /\
        (In id don -> prep rQ (fun q => q) (l + 1) (p_co p) (tens f0 f1 (mkeys ids0) (mkeys ids1) id)))) (o 4%nat (mkeys c2)) s)
      as (c3 & EN & HN1) end.
  { intros don id rest c El HC. rewrite (proj1 HT) in El.
    assert (Hik : In id keys) by (rewrite <- (order_in o 4%nat _ id Ho), El; apply in_elt).
    assert (Hnd : ~ In id don).
    { assert (HND : NoDup (don ++ id :: rest)) by (rewrite <- El; apply order_nodup; auto; apply Hct). apply NoDup_remove_2 in HND. rewrite in_app_iff in HND. tauto. }
    destruct (proj2 HC id Hik) as (p & Ep & Bp & G2 & _).
    destruct (InvNTTLvl_ok rQ HQ l p p _ (G2 Hnd)) as (d & Ed & Wd & Nd); [eapply base_len; eauto|].
    erewrite ctUpd_ok; [|exact Ep|exact Ed]. exists (sset c id d). split; [reflexivity|].
    eapply ctall_set; [exact HC|auto| |].
    - split; [eapply base_wrote; eauto|]. split; [rewrite in_app_iff; cbn; tauto|auto].
    - intros x px Hne Hxk (A1 & A2 & A3). split; [auto|]. rewrite in_app_iff. cbn. split; [tauto|]. intros [|[->|[]]]; auto. contradiction. }
  { eapply ctall_impl; [exact HT|]. intros x px Hx (A1 & A2). split; [auto|]. split; [auto|intros []]. }
  rewrite EN. cbn [bind]. eexists _, _. split; [reflexivity|]. split.
  - destruct Hk. constructor; auto; cbn; congruence.
  - eapply ctall_impl; [exact HN1|]. intros x px Hx (A1 & A2 & A3). split; [auto|]. apply A3. apply order_in; auto. rewrite (proj1 HT). auto.
Qed.

Lemma pool_set_q0 k l d A : (l < QCount pp)%nat -> pool_ok pp k -> wrote (l + 1) (k_q0 k) d -> prep rQ (fun q => q) (l + 1) (p_co d) A -> pool_ok pp (set_q0 d k).
Proof.
  intros Hl Hk Hw HA. assert (HS : pshp pp d) by (eapply pshp_wrote; eauto; [apply Hk|cbn; lia]).
  assert (HF : p_ntt d = false) by (destruct Hw as (-> & _); apply Hk). destruct Hk. constructor; auto.
Qed.
Lemma pool_set_q1 k l d A : (l < QCount pp)%nat -> pool_ok pp k -> wrote (l + 1) (k_q1 k) d -> prep rQ (fun q => q) (l + 1) (p_co d) A -> pool_ok pp (set_q1 d k).
Proof.
  intros Hl Hk Hw HA. assert (HS : pshp pp d) by (eapply pshp_wrote; eauto; [apply Hk|cbn; lia]).
  assert (HF : p_ntt d = false) by (destruct Hw as (-> & _); apply Hk). destruct Hk. constructor; auto.
Qed.
Lemma pool_set_q2 k l d A : (l < QCount pp)%nat -> pool_ok pp k -> wrote (l + 1) (k_q2 k) d -> prep rQ (fun q => q) (l + 1) (p_co d) A -> pool_ok pp (set_q2 d k).
Proof.
  intros Hl Hk Hw HA. assert (HS : pshp pp d) by (eapply pshp_wrote; eauto; [apply Hk|cbn; lia]).
  assert (HF : p_ntt d = false) by (destruct Hw as (-> & _); apply Hk). destruct Hk. constructor; auto.
Qed.
Lemma gsum_peq l B B' D M : (forall t, (t < Bt l)%nat -> peq N M (B t) (B' t)) -> peq N M (gsum env l B D) (gsum env l B' D).
Proof. intros H. apply psumL_ext. intros t Ht. apply in_seq in Ht. now rewrite (H t) by lia. Qed.
Lemma gsum_peq_r l B D D' M : (forall t, (t < Bt l)%nat -> peq N M (D t) (D' t)) -> peq N M (gsum env l B D) (gsum env l B D').
Proof. intros H. apply psumL_ext. intros t Ht. apply in_seq in Ht. now rewrite (H t) by lia. Qed.

(** what the two relinearization sums add *)
Definition gvec (K D : string -> nat -> zpoly) (ids : list string) : nat -> zpoly :=
  fun t => psumL (fun id => pmul N (K id t) (D id t)) ids.
Definition mulout (f0 f1 E1 E2 E3 : string -> zpoly) (ids0 ids1 : list string) (id : string) : zpoly :=
  if String.eqb id "0" then padd (tens f0 f1 ids0 ids1 id) (psumL E2 ids0)
  else padd (padd (tens f0 f1 ids0 ids1 id) (if inb id ids1 then E1 id else pzero)) (if inb id ids0 then E3 id else pzero).

Record mulspec (l : nat) (ids0 ids1 : list string) (D0 D1 bK dK vK : string -> nat -> zpoly) (u : nat -> zpoly)
    (E1 Zv E2 E3 : string -> zpoly) (DZ : string -> nat -> zpoly) : Prop := {
  ms_E1 : forall id, In id ids1 -> is_ep env l (gsum env l (gvec dK D0 ids0) (D1 id)) (E1 id);
  ms_Z : forall id, In id ids0 -> is_ep env l (gsum env l (gvec bK D1 ids1) (D0 id)) (Zv id);
  ms_DZ : forall id, In id ids0 -> digits env l (plimbs rQ (l + 1) (Zv id)) (DZ id);
  ms_E2 : forall id, In id ids0 -> is_ep env l (gsum env l (vK id) (DZ id)) (E2 id);
  ms_E3 : forall id, In id ids0 -> is_ep env l (gsum env l u (DZ id)) (E3 id) }.

Definition rlks_ok (l : nat) (rlks : rlkset) (ids : list string) (bK dK vK : string -> nat -> zpoly) : Prop :=
  forall id, In id ids -> exists rl, sget rlks id = Some rl /\ rowsb env l (rl_b rl) (bK id) /\ rowsb env l (rl_d rl) (dK id) /\ rowsb env l (rl_v rl) (vK id).

(** the last loop of MulAndRelin(Hoisted), whatever way the digits of z are obtained *)
Lemma relin_loop o l ids ct0 keys (T E2 E3 : string -> zpoly) (step : ciphertext * kpool -> string -> res (ciphertext * kpool)) c k :
  order_ok o -> (l < QCount pp)%nat -> NoDup ids -> ~ In "0"%string ids -> In "0"%string keys -> (forall id, In id ids -> In id keys) -> ctout_ok l keys ct0 ->
  (forall c k id, pool_ok pp k -> In id ids -> exists q1 q2 k', pool_ok pp k' /\
     prep rQ (fun q => q) (l + 1) (p_co q1) (E2 id) /\ prep rQ (fun q => q) (l + 1) (p_co q2) (E3 id) /\
     step (c, k) id = (let* ct := ctUpd c "0"%string (fun p => AddLvl rQ l p q1 p) in
                       let* ct := ctUpd ct id (fun p => AddLvl rQ l p q2 p) in Ok (ct, k'))) ->
  ctall keys c (fun id p => base l ct0 id p /\ prep rQ (fun q => q) (l + 1) (p_co p) (T id)) -> pool_ok pp k ->
  exists c' k', foldM step (o 6%nat ids) (c, k) = Ok (c', k') /\ pool_ok pp k' /\
    ctall keys c' (fun id p => base l ct0 id p /\ prep rQ (fun q => q) (l + 1) (p_co p)
       (if String.eqb id "0" then padd (T id) (psumL E2 ids) else padd (T id) (if inb id ids then E3 id else pzero))).
Proof.
  intros Ho Hl Hnd Hz Hzk Hik Hct Hstep HC Hk.
  destruct (foldM_inv step (fun don '(c, k) => pool_ok pp k /\ ctall keys c (fun id p => base l ct0 id p /\ prep rQ (fun q => q) (l + 1) (p_co p)
       (if String.eqb id "0" then padd (T id) (psumL E2 don) else padd (T id) (if inb id don then E3 id else pzero)))) (o 6%nat ids) (c, k)) as ([c' k'] & E & Hk' & HC').
  { intros don id rest [c1 k1] El [Hk1 HC1].
    assert (Hin : In id ids) by (rewrite <- (order_in o 6%nat _ id Ho), El; apply in_elt).
    assert (Hn : ~ In id don).
    { assert (HND : NoDup (don ++ id :: rest)) by (rewrite <- El; now apply order_nodup). apply NoDup_remove_2 in HND. rewrite in_app_iff in HND. tauto. }
    assert (Hne : id <> "0"%string) by (intros ->; auto).
    assert (Hib : inb id don = false) by (destruct (inb id don) eqn:Ei; auto; apply inb_In in Ei; contradiction).
    destruct (Hstep c1 k1 id Hk1 Hin) as (q1 & q2 & k2 & Hk2 & HE2 & HE3 & Es). rewrite Es.
    destruct (proj2 HC1 "0"%string Hzk) as (p0 & Ep0 & Bp0 & Rp0). rewrite String.eqb_refl in Rp0.
    destruct (AddLvl_ok rQ HQ _ _ (fun q => q) l p0 q1 p0 _ _ Rp0 HE2) as (d & Ed & Wd & Rd); [eapply base_len; eauto|intros; lia|].
    erewrite ctUpd_ok; [|exact Ep0|exact Ed]. cbn [bind].
    destruct (proj2 HC1 id (Hik id Hin)) as (p & Ep & Bp & Rp). rewrite (proj2 (String.eqb_neq id "0") Hne) in Rp. rewrite Hib in Rp.
    destruct (AddLvl_ok rQ HQ _ _ (fun q => q) l p q2 p _ _ Rp HE3) as (d' & Ed' & Wd' & Rd'); [eapply base_len; eauto|intros; lia|].
    erewrite ctUpd_ok; [|rewrite (mget_mset_other _ seqb) by auto; exact Ep|exact Ed']. cbn [bind].
    eexists (_, _). split; [reflexivity|]. split; [auto|].
    eapply ctall_set with (G := fun x px => base l ct0 x px /\ prep rQ (fun q => q) (l + 1) (p_co px)
       (if String.eqb x "0" then padd (T x) (psumL E2 (don ++ [id])) else padd (T x) (if inb x don then E3 x else pzero))).
    - eapply ctall_set; [exact HC1|auto| |].
      + split; [eapply base_wrote; eauto|]. rewrite String.eqb_refl. eapply prep_p0; [|exact Rd]. rewrite psumL_app. cbn.
        intros i Hi. unfold padd, pzero. apply cong_eq. ring.
      + intros x px Hx Hxk [G1 G2]. split; [auto|]. destruct (String.eqb_spec x "0"); [contradiction|auto].
    - auto.
    - split; [eapply base_wrote; eauto|]. destruct (String.eqb_spec id "0"); [contradiction|]. rewrite inb_app, String.eqb_refl, orb_true_r.
      eapply prep_p0; [|exact Rd']. intros i Hi. unfold padd, pzero. apply cong_eq. ring.
    - intros x px Hx Hxk [G1 G2]. split; [auto|]. destruct (String.eqb x "0"); [auto|]. rewrite inb_app.
      destruct (String.eqb_spec x id); [contradiction|]. rewrite orb_false_r. auto. }
  { split; [auto|]. eapply ctall_impl; [exact HC|]. intros x px Hx [G1 G2]. split; [auto|]. cbn [psumL inb existsb].
    eapply prep_p0; [|exact G2]. destruct (String.eqb x "0"); intros i Hi; unfold padd, pzero; apply cong_eq; ring. }
  exists c', k'. split; [auto|]. split; [auto|]. eapply ctall_impl; [exact HC'|]. intros x px Hx [G1 G2]. split; [auto|].
  destruct (String.eqb x "0").
  - eapply prep_p0; [|exact G2]. now rewrite (psumL_perm N 0 E2 _ _ (Ho 6%nat ids)).
  - now rewrite <- (inb_perm x _ _ (Ho 6%nat ids)).
Qed.

(** the loop that adds one gadget product per component of op1 *)
Lemma add_loop o n l ids ct0 keys (T E1 : string -> zpoly) (step : ciphertext * kpool -> string -> res (ciphertext * kpool)) c k :
  order_ok o -> (l < QCount pp)%nat -> NoDup ids -> (forall id, In id ids -> In id keys) -> ctout_ok l keys ct0 ->
  (forall c k id, pool_ok pp k -> In id ids -> exists q0 k', pool_ok pp k' /\
     prep rQ (fun q => q) (l + 1) (p_co q0) (E1 id) /\
     step (c, k) id = (let* ct := ctUpd c id (fun p => AddLvl rQ l p q0 p) in Ok (ct, k'))) ->
  ctall keys c (fun id p => base l ct0 id p /\ prep rQ (fun q => q) (l + 1) (p_co p) (T id)) -> pool_ok pp k ->
  exists c' k', foldM step (o n ids) (c, k) = Ok (c', k') /\ pool_ok pp k' /\
    ctall keys c' (fun id p => base l ct0 id p /\ prep rQ (fun q => q) (l + 1) (p_co p) (padd (T id) (if inb id ids then E1 id else pzero))).
Proof.
  intros Ho Hl Hnd Hik Hct Hstep HC Hk.
  destruct (foldM_inv step (fun don '(c, k) => pool_ok pp k /\ ctall keys c (fun id p => base l ct0 id p /\ prep rQ (fun q => q) (l + 1) (p_co p)
       (padd (T id) (if inb id don then E1 id else pzero)))) (o n ids) (c, k)) as ([c' k'] & E & Hk' & HC').
  { intros don id rest [c1 k1] El [Hk1 HC1].
    assert (Hin : In id ids) by (rewrite <- (order_in o n _ id Ho), El; apply in_elt).
    assert (Hn : ~ In id don).
    { assert (HND : NoDup (don ++ id :: rest)) by (rewrite <- El; now apply order_nodup). apply NoDup_remove_2 in HND. rewrite in_app_iff in HND. tauto. }
    assert (Hib : inb id don = false) by (destruct (inb id don) eqn:Ei; auto; apply inb_In in Ei; contradiction).
    destruct (Hstep c1 k1 id Hk1 Hin) as (q0 & k2 & Hk2 & HE1 & Es). rewrite Es.
    destruct (proj2 HC1 id (Hik id Hin)) as (p & Ep & Bp & Rp). rewrite Hib in Rp.
    destruct (AddLvl_ok rQ HQ _ _ (fun q => q) l p q0 p _ _ Rp HE1) as (d' & Ed' & Wd' & Rd'); [eapply base_len; eauto|intros; lia|].
    erewrite ctUpd_ok; [|exact Ep|exact Ed']. cbn [bind].
    eexists (_, _). split; [reflexivity|]. split; [auto|].
    eapply ctall_set; [exact HC1|auto| |].
    - split; [eapply base_wrote; eauto|]. rewrite inb_app, String.eqb_refl, orb_true_r.
      eapply prep_p0; [|exact Rd']. intros i Hi. unfold padd, pzero. apply cong_eq. ring.
    - intros x px Hx Hxk [G1 G2]. split; [auto|]. rewrite inb_app.
      destruct (String.eqb_spec x id); [contradiction|]. rewrite orb_false_r. auto. }
  { split; [auto|]. eapply ctall_impl; [exact HC|]. intros x px Hx [G1 G2]. split; [auto|].
    cbn [inb existsb]. eapply prep_p0; [|exact G2]. intros i Hi; unfold padd, pzero; apply cong_eq; ring. }
  exists c', k'. split; [auto|]. split; [auto|]. eapply ctall_impl; [exact HC'|]. intros x px Hx [G1 G2]. split; [auto|].
  now rewrite <- (inb_perm x _ _ (Ho n ids)).
Qed.

Lemma gvec_perm K D l l' t : Permutation l l' -> peq N 0 (gvec K D l t) (gvec K D l' t).
Proof. intros H. unfold gvec. now apply psumL_perm. Qed.
Lemma tens_perm f0 f1 a a' b b' id : Permutation a a' -> Permutation b b' -> tens f0 f1 a b id = tens f0 f1 a' b' id.
Proof. intros Ha Hb. unfold tens. now rewrite (inb_perm id _ _ Ha), (inb_perm id _ _ Hb). Qed.

Definition ids_of (ct : ciphertext) (L : list string) : Prop :=
  NoDup L /\ forall x, In x L <-> In x (mkeys ct) /\ x <> "0"%string.
Lemma ctIDSet_perm o ct L : order_ok o -> ids_of ct L -> exists s, ctIDSet o ct = Ok s /\ idset_ok s /\ Permutation (mkeys s) L.
Proof.
  intros Ho [H1 H2]. destruct (ctIDSet_ok o ct Ho) as (s & E & Hs & HI). exists s. split; [auto|]. split; [auto|].
  apply NoDup_Permutation; [apply Hs|auto|]. intros x. rewrite HI, H2. tauto.
Qed.

Section Mul.
Context (o : order) (l l0 : nat) (op0 op1 ctOut : ciphertext) (L0 L1 keys : list string) (rlks : rlkset) (usk : swk)
  (f0 f1 : string -> zpoly) (D0 D1 bK dK vK DZ : string -> nat -> zpoly) (u : nat -> zpoly) (E1 Zv E2 E3 : string -> zpoly) (k : kpool).
Hypothesis Ho : order_ok o.
Hypothesis Hl : (l < QCount pp)%nat.
Hypothesis HlO : ctLevel ctOut = Ok l.
Hypothesis Hl0 : ctLevel op0 = Ok l0.
Hypothesis Hll : (l <= l0)%nat.
Hypothesis HL0 : ids_of op0 L0.
Hypothesis HL1 : ids_of op1 L1.
Hypothesis Hf0 : forall id, id = "0"%string \/ In id L0 -> oprep l op0 id (f0 id).
Hypothesis Hf1 : forall id, id = "0"%string \/ In id L1 -> oprep l op1 id (f1 id).
Hypothesis Hrl : rlks_ok l rlks (L0 ++ L1) bK dK vK.
Hypothesis Hu1 : getCRS pp (-1) = Ok usk.
Hypothesis Hu2 : rowsb env l usk u.
Hypothesis HM : mulspec l L0 L1 D0 D1 bK dK vK u E1 Zv E2 E3 DZ.
Hypothesis Hct : ctout_ok l keys ctOut.
Hypothesis Hkeys : forall id, In id keys <-> id = "0"%string \/ In id L0 \/ In id L1.
Hypothesis Hk : pool_ok pp k.

(** everything up to and including the loop over op1 is common *)
Lemma MulRelinH_ok h0 h1 : (forall id, In id L0 -> osrc l h0 op0 id (D0 id)) -> (forall id, In id L1 -> osrc l h1 op1 id (D1 id)) ->
  exists ct' k', MulAndRelinHoisted env o op0 op1 h0 h1 rlks ctOut k = Ok (ct', k') /\ pool_ok pp k' /\
    ctall keys ct' (fun id p => base l ctOut id p /\ prep rQ (fun q => q) (l + 1) (p_co p) (mulout f0 f1 E1 E2 E3 L0 L1 id)).
Proof.
  intros S0 S1. unfold MulAndRelinHoisted. rewrite HlO, Hl0. cbn [bind]. destruct (Nat.ltb_spec l0 l); [lia|].
  destruct (ctIDSet_perm o op0 L0 Ho HL0) as (i0 & Ei0 & Hi0 & P0). destruct (ctIDSet_perm o op1 L1 Ho HL1) as (i1 & Ei1 & Hi1 & P1).
  rewrite Ei0, Ei1. cbn [bind].
  assert (Q0 : forall n, Permutation (o n (mkeys i0)) L0) by (intros n; rewrite (Ho n (mkeys i0)); auto).
  assert (Q1 : forall n, Permutation (o n (mkeys i1)) L1) by (intros n; rewrite (Ho n (mkeys i1)); auto).
  destruct (zeroRows_ok l (k_s1 k) Hl (kp_s1 _ _ Hk)) as (x & Ex & Rx & Sx). rewrite Ex. cbn [bind].
  destruct (zeroRows_ok l (k_s2 k) Hl (kp_s2 _ _ Hk)) as (y & Ey & Ry & Sy). rewrite Ey. cbn [bind].
  destruct (genVec_ok l (o 0%nat (mkeys i0)) h0 op0 rlks rl_d x k dK D0 Hl) as (x1 & k1 & Ex1 & Rx1 & Sx1 & Hk1); auto.
  { intros id Hin. apply S0. eapply Permutation_in; [apply Q0|exact Hin]. }
  { intros id Hin. destruct (Hrl id) as (rl & E & A1 & A2 & A3); [apply in_app_iff; left; eapply Permutation_in; [apply Q0|exact Hin]|eauto]. }
  rewrite Ex1. cbn [bind].
  destruct (genVec_ok l (o 1%nat (mkeys i1)) h1 op1 rlks rl_b y k1 bK D1 Hl) as (y1 & k2 & Ey1 & Ry1 & Sy1 & Hk2); auto.
  { intros id Hin. apply S1. eapply Permutation_in; [apply Q1|exact Hin]. }
  { intros id Hin. destruct (Hrl id) as (rl & E & A1 & A2 & A3); [apply in_app_iff; right; eapply Permutation_in; [apply Q1|exact Hin]|eauto]. }
  rewrite Ey1. cbn [bind].
  destruct (tensor_ok o l i0 i1 op0 op1 f0 f1 ctOut keys k2 Ho Hl Hi0 Hi1) as (c1 & k3 & Ec1 & Hk3 & HC1); auto.
  { intros id [H1|H1]; apply Hf0; auto. right. eapply Permutation_in; eauto. }
  { intros id [H1|H1]; apply Hf1; auto. right. eapply Permutation_in; eauto. }
  { intros id. rewrite Hkeys. split; (intros [H1|[H1|H1]]; [auto|right; left|right; right]); (eapply Permutation_in; [|exact H1]); auto; now symmetry. }
  rewrite Ec1. cbn [bind].
  match goal with |- context [foldM ?f (o 5%nat (mkeys i1)) ?s] => destruct (add_loop o 5%nat l (mkeys i1) ctOut keys (tens f0 f1 (mkeys i0) (mkeys i1)) E1 f c1 k3 Ho Hl (proj1 Hi1)) as (c2 & k4 & Ec2 & Hk4 & HC2) end; [| | |exact HC1|exact Hk3|].
  { intros id Hin. apply Hkeys. right. right. eapply Permutation_in; eauto. } { exact Hct. }
  { intros c kk id Hkk Hin. assert (Hin' : In id L1) by (eapply Permutation_in; eauto).
    destruct (extOp_ok l h1 op1 id (D1 id) x1 _ (E1 id) (k_q0 kk) kk Hl (S1 id Hin') Rx1) as (q0 & kk' & Eq & Wq & Rq & Hkk' & Kp); auto.
    { eapply (is_ep_peq env He); [|apply (ms_E1 _ _ _ _ _ _ _ _ _ _ _ _ _ _ HM id Hin')]. apply gsum_peq. intros t Ht. apply gvec_perm. symmetry. apply Q0. }
    { destruct (kp_q0 _ _ Hkk) as [-> _]; auto. }
    rewrite Eq. cbn [bind]. exists q0, (set_q0 q0 kk'). split; [|split; [auto|reflexivity]].
    eapply pool_set_q0; eauto. destruct Kp as (-> & _). auto. }
  rewrite Ec2. cbn [bind]. rewrite Hu1. cbn [bind].
  match goal with |- context [foldM ?f (o 6%nat (mkeys i0)) ?s] => destruct (relin_loop o l (mkeys i0) ctOut keys (fun id => padd (tens f0 f1 (mkeys i0) (mkeys i1) id) (if inb id (mkeys i1) then E1 id else pzero)) E2 E3 f c2 k4 Ho Hl (proj1 Hi0) (proj2 Hi0)) as (c3 & k5 & Ec3 & Hk5 & HC3) end; [| | | |exact HC2|exact Hk4|].
  { apply Hkeys. auto. }
  { intros id Hin. apply Hkeys. right. left. eapply Permutation_in; eauto. } { exact Hct. }
  { intros c kk id Hkk Hin. assert (Hin' : In id L0) by (eapply Permutation_in; eauto).
    destruct (Hrl id) as (rl & Er & _ & _ & Rv); [apply in_app_iff; auto|]. unfold mptr at 1. rewrite Er. cbn [bind].
    destruct (extOp_ok l h0 op0 id (D0 id) y1 _ (Zv id) (k_q0 kk) kk Hl (S0 id Hin') Ry1) as (q0 & ka & Eq & Wq & Rq & Hka & Kp); auto.
    { eapply (is_ep_peq env He); [|apply (ms_Z _ _ _ _ _ _ _ _ _ _ _ _ _ _ HM id Hin')]. apply gsum_peq. intros t Ht. apply gvec_perm. symmetry. apply Q1. }
    { destruct (kp_q0 _ _ Hkk) as [-> _]; auto. }
    rewrite Eq. cbn [bind].
    assert (Hkb : pool_ok pp (set_q0 q0 ka)) by (eapply pool_set_q0; eauto; destruct Kp as (-> & _); auto).
    assert (HDs : dsrc env l q0 (DZ id)).
    { eapply (cdigits_src env He); [exact Hl| |exact Rq|apply (ms_DZ _ _ _ _ _ _ _ _ _ _ _ _ _ _ HM id Hin')]. destruct Wq as (-> & _). apply Hkk. }
    destruct (Decompose_ok env He l q0 (DZ id) (k_s3 (set_q0 q0 ka)) _ Hl HDs (kp_s3 _ _ Hkb) Hkb) as (s3 & kc & Es3 & Rs3 & Ss3 & Hkc & Kp2).
    rewrite Es3. cbn [bind]. assert (Hkd : pool_ok pp (set_s3 s3 kc)) by now apply pool_set_s3.
    destruct (EPH_ok env He l s3 (rl_v rl) (DZ id) (vK id) (E2 id) (k_q1 (set_s3 s3 kc)) _ Hl Rs3 Rv (ms_E2 _ _ _ _ _ _ _ _ _ _ _ _ _ _ HM id Hin') Hkd) as (q1 & ke & Eq1 & Wq1 & Rq1 & Hke & Kp3).
    { destruct (kp_q1 _ _ Hkd) as [-> _]; auto. }
    rewrite Eq1. cbn [bind].
    assert (Hkf : pool_ok pp (set_q1 q1 ke)) by (eapply pool_set_q1; eauto; destruct Kp3 as (_ & -> & _); auto).
    destruct (EPH_ok env He l s3 usk (DZ id) u (E3 id) (k_q2 (set_q1 q1 ke)) _ Hl Rs3 Hu2 (ms_E3 _ _ _ _ _ _ _ _ _ _ _ _ _ _ HM id Hin') Hkf) as (q2 & kg & Eq2 & Wq2 & Rq2 & Hkg & Kp4).
    { destruct (kp_q2 _ _ Hkf) as [-> _]; auto. }
    exists q1, q2, (set_q2 q2 kg). split; [eapply pool_set_q2; eauto; destruct Kp4 as (_ & _ & -> & _); auto|]. split; [auto|]. split; [auto|].
    destruct (ctUpd c "0" (fun p => AddLvl rQ l p q1 p)) as [cc|]; [|reflexivity]. cbn [bind]. rewrite Eq2. cbn [bind]. reflexivity. }
  rewrite Ec3. cbn [bind]. eexists _, _. split; [reflexivity|]. split.
  { destruct Hk5. constructor; auto. }
  eapply ctall_impl; [exact HC3|]. intros id p Hid [G1 G2]. split; [auto|]. eapply prep_p0; [|exact G2].
  unfold mulout. rewrite (tens_perm _ _ _ _ _ _ _ P0 P1), (inb_perm id _ _ P0), (inb_perm id _ _ P1).
  destruct (String.eqb_spec id "0") as [->|Hne]; [|reflexivity].
  rewrite (psumL_perm N 0 E2 _ _ P0). assert (Hz : inb "0" L1 = false).
  { destruct (inb "0" L1) eqn:E; auto. apply inb_In in E. apply HL1 in E. tauto. }
  rewrite Hz. intros i Hi. unfold padd, pzero. apply cong_eq. ring.
Qed.

Lemma MulRelin_ok : (forall id, In id L0 -> osrc l None op0 id (D0 id)) -> (forall id, In id L1 -> osrc l None op1 id (D1 id)) ->
  exists ct' k', MulAndRelin env o op0 op1 rlks ctOut k = Ok (ct', k') /\ pool_ok pp k' /\
    ctall keys ct' (fun id p => base l ctOut id p /\ prep rQ (fun q => q) (l + 1) (p_co p) (mulout f0 f1 E1 E2 E3 L0 L1 id)).
Proof.
  intros S0 S1. unfold MulAndRelin. rewrite HlO, Hl0. cbn [bind]. destruct (Nat.ltb_spec l0 l); [lia|].
  destruct (ctIDSet_perm o op0 L0 Ho HL0) as (i0 & Ei0 & Hi0 & P0). destruct (ctIDSet_perm o op1 L1 Ho HL1) as (i1 & Ei1 & Hi1 & P1).
  rewrite Ei0, Ei1. cbn [bind].
  assert (Q0 : forall n, Permutation (o n (mkeys i0)) L0) by (intros n; rewrite (Ho n (mkeys i0)); auto).
  assert (Q1 : forall n, Permutation (o n (mkeys i1)) L1) by (intros n; rewrite (Ho n (mkeys i1)); auto).
  destruct (zeroRows_ok l (k_s1 k) Hl (kp_s1 _ _ Hk)) as (x & Ex & Rx & Sx). rewrite Ex. cbn [bind].
  destruct (zeroRows_ok l (k_s2 k) Hl (kp_s2 _ _ Hk)) as (y & Ey & Ry & Sy). rewrite Ey. cbn [bind].
  destruct (genVec_ok l (o 0%nat (mkeys i0)) None op0 rlks rl_d x k dK D0 Hl) as (x1 & k1 & Ex1 & Rx1 & Sx1 & Hk1); auto.
  { intros id Hin. apply S0. eapply Permutation_in; [apply Q0|exact Hin]. }
  { intros id Hin. destruct (Hrl id) as (rl & E & A1 & A2 & A3); [apply in_app_iff; left; eapply Permutation_in; [apply Q0|exact Hin]|eauto]. }
  rewrite Ex1. cbn [bind].
  destruct (genVec_ok l (o 1%nat (mkeys i1)) None op1 rlks rl_b y k1 bK D1 Hl) as (y1 & k2 & Ey1 & Ry1 & Sy1 & Hk2); auto.
  { intros id Hin. apply S1. eapply Permutation_in; [apply Q1|exact Hin]. }
  { intros id Hin. destruct (Hrl id) as (rl & E & A1 & A2 & A3); [apply in_app_iff; right; eapply Permutation_in; [apply Q1|exact Hin]|eauto]. }
  rewrite Ey1. cbn [bind].
  destruct (tensor_ok o l i0 i1 op0 op1 f0 f1 ctOut keys k2 Ho Hl Hi0 Hi1) as (c1 & k3 & Ec1 & Hk3 & HC1); auto.
  { intros id [H1|H1]; apply Hf0; auto. right. eapply Permutation_in; eauto. }
  { intros id [H1|H1]; apply Hf1; auto. right. eapply Permutation_in; eauto. }
  { intros id. rewrite Hkeys. split; (intros [H1|[H1|H1]]; [auto|right; left|right; right]); (eapply Permutation_in; [|exact H1]); auto; now symmetry. }
  rewrite Ec1. cbn [bind].
  match goal with |- context [foldM ?f (o 5%nat (mkeys i1)) ?s] => destruct (add_loop o 5%nat l (mkeys i1) ctOut keys (tens f0 f1 (mkeys i0) (mkeys i1)) E1 f c1 k3 Ho Hl (proj1 Hi1)) as (c2 & k4 & Ec2 & Hk4 & HC2) end; [| | |exact HC1|exact Hk3|].
  { intros id Hin. apply Hkeys. right. right. eapply Permutation_in; eauto. } { exact Hct. }
  { intros c kk id Hkk Hin. assert (Hin' : In id L1) by (eapply Permutation_in; eauto).
    destruct (extOp_ok l None op1 id (D1 id) x1 _ (E1 id) (k_q0 kk) kk Hl (S1 id Hin') Rx1) as (q0 & kk' & Eq & Wq & Rq & Hkk' & Kp); auto.
    { eapply (is_ep_peq env He); [|apply (ms_E1 _ _ _ _ _ _ _ _ _ _ _ _ _ _ HM id Hin')]. apply gsum_peq. intros t Ht. apply gvec_perm. symmetry. apply Q0. }
    { destruct (kp_q0 _ _ Hkk) as [-> _]; auto. }
    unfold extOp in Eq. destruct (sptr op1 id) as [pp1|]; [|discriminate Eq]. cbn [bind] in *.
    rewrite Eq. cbn [bind]. exists q0, (set_q0 q0 kk'). split; [|split; [auto|reflexivity]].
    eapply pool_set_q0; eauto. destruct Kp as (-> & _). auto. }
  rewrite Ec2. cbn [bind]. rewrite Hu1. cbn [bind].
  match goal with |- context [foldM ?f (o 6%nat (mkeys i0)) ?s] => destruct (relin_loop o l (mkeys i0) ctOut keys (fun id => padd (tens f0 f1 (mkeys i0) (mkeys i1) id) (if inb id (mkeys i1) then E1 id else pzero)) E2 E3 f c2 k4 Ho Hl (proj1 Hi0) (proj2 Hi0)) as (c3 & k5 & Ec3 & Hk5 & HC3) end; [| | | |exact HC2|exact Hk4|].
  { apply Hkeys. auto. }
  { intros id Hin. apply Hkeys. right. left. eapply Permutation_in; eauto. } { exact Hct. }
  { intros c kk id Hkk Hin. assert (Hin' : In id L0) by (eapply Permutation_in; eauto).
    destruct (Hrl id) as (rl & Er & _ & _ & Rv); [apply in_app_iff; auto|]. unfold mptr at 1. rewrite Er. cbn [bind].
    destruct (extOp_ok l None op0 id (D0 id) y1 _ (Zv id) (k_q0 kk) kk Hl (S0 id Hin') Ry1) as (q0 & ka & Eq & Wq & Rq & Hka & Kp); auto.
    { eapply (is_ep_peq env He); [|apply (ms_Z _ _ _ _ _ _ _ _ _ _ _ _ _ _ HM id Hin')]. apply gsum_peq. intros t Ht. apply gvec_perm. symmetry. apply Q1. }
    { destruct (kp_q0 _ _ Hkk) as [-> _]; auto. }
    unfold extOp in Eq. destruct (sptr op0 id) as [pp1|]; [|discriminate Eq]. cbn [bind] in *.
    rewrite Eq. cbn [bind].
    assert (Hkb : pool_ok pp (set_q0 q0 ka)) by (eapply pool_set_q0; eauto; destruct Kp as (-> & _); auto).
    assert (HDs : dsrc env l q0 (DZ id)).
    { eapply (cdigits_src env He); [exact Hl| |exact Rq|apply (ms_DZ _ _ _ _ _ _ _ _ _ _ _ _ _ _ HM id Hin')]. destruct Wq as (-> & _). apply Hkk. }
    destruct (EP_ok env He l q0 (rl_v rl) (DZ id) (vK id) (E2 id) (k_q1 (set_q0 q0 ka)) _ Hl HDs Rv (ms_E2 _ _ _ _ _ _ _ _ _ _ _ _ _ _ HM id Hin') Hkb) as (q1 & ke & Eq1 & Wq1 & Rq1 & Hke & Kp3).
    { destruct (kp_q1 _ _ Hkb) as [-> _]; auto. }
    rewrite Eq1. cbn [bind].
    assert (Hkf : pool_ok pp (set_q1 q1 ke)) by (eapply pool_set_q1; eauto; destruct Kp3 as (_ & -> & _); auto).
    destruct (EP_ok env He l q0 usk (DZ id) u (E3 id) (k_q2 (set_q1 q1 ke)) _ Hl HDs Hu2 (ms_E3 _ _ _ _ _ _ _ _ _ _ _ _ _ _ HM id Hin') Hkf) as (q2 & kg & Eq2 & Wq2 & Rq2 & Hkg & Kp4).
    { destruct (kp_q2 _ _ Hkf) as [-> _]; auto. }
    exists q1, q2, (set_q2 q2 kg). split; [eapply pool_set_q2; eauto; destruct Kp4 as (_ & _ & -> & _); auto|]. split; [auto|]. split; [auto|].
    destruct (ctUpd c "0" (fun p => AddLvl rQ l p q1 p)) as [cc|]; [|reflexivity]. cbn [bind]. rewrite Eq2. cbn [bind]. reflexivity. }
  rewrite Ec3. cbn [bind]. eexists _, _. split; [reflexivity|]. split.
  { destruct Hk5. constructor; auto. }
  eapply ctall_impl; [exact HC3|]. intros id p Hid [G1 G2]. split; [auto|]. eapply prep_p0; [|exact G2].
  unfold mulout. rewrite (tens_perm _ _ _ _ _ _ _ P0 P1), (inb_perm id _ _ P0), (inb_perm id _ _ P1).
  destruct (String.eqb_spec id "0") as [->|Hne]; [|reflexivity].
  rewrite (psumL_perm N 0 E2 _ _ P0). assert (Hz : inb "0" L1 = false).
  { destruct (inb "0" L1) eqn:E; auto. apply inb_In in E. apply HL1 in E. tauto. }
  rewrite Hz. intros i Hi. unfold padd, pzero. apply cong_eq. ring.
Qed.
End Mul.
End Env.
