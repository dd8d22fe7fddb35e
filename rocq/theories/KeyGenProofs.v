(** The defining equations of generated keys. *)
From Coq Require Import String ZArith Znumtheory List Lia Bool Setoid Permutation Ring.
From Verif Require Import Spec SpecProofs Go GoProofs Lattigo LattigoProofs Arith NegRing NegRingProofs NTT NTTProofs F64 BasisExt BasisExtProofs ModDownProofs DecomposeProofs RingOps RingOpsProofs Maps MapsProofs Params Elements KeySwitch KeySets KeyGen KSProofs ParamsProofs Crt Galois.
From Verif Require Export Repr.
Import ListNotations.
Local Open Scope Z_scope.

Lemma smallpoly_norm N B e : small_ok N B e -> pnorm_le N (smallpoly e) B.
Proof.
  intros [H1 H2] i Hi. unfold smallpoly. rewrite Forall_forall in H2. specialize (H2 (nth i e (true, 0))).
  specialize (H2 ltac:(apply nth_In; lia)). destruct (nth i e (true, 0)) as [[] c]; cbn in H2; lia.
Qed.

(** rewrite the first bind of the goal with E, up to conversion *)
Ltac rwb E := match type of E with ?l = _ => match goal with |- context [bind ?x _] => change x with l end end; rewrite E; cbn [bind].
Section KG.
Context (pp : params) (Hpp : params_ok pp).
Notation N := (pa_N pp).
Notation rQ := (ringQ pp).
Notation rP := (ringP pp).
Notation lvQ := (maxLevel pp).
Notation lvP := (levelP pp).
Notation beta := (Beta pp (maxLevel pp)).
Notation env := (default_env pp).
Notation gadget := (Repr.gadget pp).
Notation gmsg := (Repr.gmsg pp).
Notation sk_is := (Repr.sk_is pp).
Notation krows := (Repr.krows pp).
Notation krowsb := (Repr.krowsb pp).
Notation errs_ok := (Repr.errs_ok pp).
Let He : env_ok env := default_env_ok pp Hpp.
Lemma gHrQ : ring_ok rQ. Proof. exact (po_rQ _ Hpp). Qed.
Lemma gHrP : ring_ok rP. Proof. exact (po_rP _ Hpp). Qed.
Lemma gHN : (0 < N)%nat. Proof. apply deg_pos. Qed.
Lemma lvQ_lt : (lvQ < QCount pp)%nat. Proof. unfold maxLevel. pose proof (po_Q _ Hpp). lia. Qed.
Lemma lvQ1 : (lvQ + 1 = QCount pp)%nat. Proof. unfold maxLevel. pose proof (po_Q _ Hpp). lia. Qed.
Lemma glvP1 : (lvP + 1 = PCount pp)%nat. Proof. unfold levelP. pose proof (po_P _ Hpp). lia. Qed.
Lemma newQP_shp : qshp pp (newQP pp).
Proof.
  unfold newQP, qshp, ringPoly, newPoly, plen. cbn [qQ qP p_co]. rewrite !repeat_length.
  assert (HW : 0 < W) by (rewrite W_val; lia).
  assert (G : forall n m, shp n (repeat (repeat 0 n) m)).
  { intros n m. apply Forall_forall. intros l Hl. apply repeat_spec in Hl as ->. split; [apply repeat_length|].
    apply Forall_forall. intros x Hx. apply repeat_spec in Hx as ->. lia. }
  repeat split; apply G.
Qed.
Lemma NewSwk_ok : swk_ok pp (NewSwitchingKey pp).
Proof. unfold swk_ok, NewSwitchingKey. rewrite repeat_length. split; [reflexivity|]. apply Forall_forall. intros x Hx. apply repeat_spec in Hx as ->. apply newQP_shp. Qed.

(** * RingQP operations at the top level *)
Lemma kMulQP a b dst X Y : qrepb pp lvQ a (pscale W X) -> qrep pp lvQ b Y -> qshp pp dst ->
  exists d, MulQP pp lvQ lvP a b dst = Ok d /\ qrep pp lvQ d (pmul N X Y) /\ qshp pp d.
Proof. exact (MulQP_ok env He lvQ a b dst X Y lvQ_lt). Qed.
Lemma kMulAddQP a b dst X Y Z0 : qrepb pp lvQ a (pscale W X) -> qrep pp lvQ b Y -> qrep pp lvQ dst Z0 -> qshp pp dst ->
  exists d, MulAddQP pp lvQ lvP a b dst = Ok d /\ qrep pp lvQ d (padd Z0 (pmul N X Y)) /\ qshp pp d.
Proof. exact (MulAddQP_ok env He lvQ a b dst X Y Z0 lvQ_lt). Qed.
Lemma kMFormQP a dst X : qrep pp lvQ a X -> qshp pp dst ->
  exists d, MFormQP pp lvQ lvP a dst = Ok d /\ qrep pp lvQ d (pscale W X) /\ qshp pp d.
Proof. exact (MFormQP_ok env He lvQ a dst X lvQ_lt). Qed.
Lemma kNTTQP a dst X bQ bP : prep rQ bQ (lvQ + 1) (p_co (qQ a)) X -> prep rP bP (PCount pp) (p_co (qP a)) X -> qshp pp dst ->
  exists d, NTTQP pp lvQ lvP a dst = Ok d /\ qrep pp lvQ d X /\ qshp pp d.
Proof. exact (NTTQP_ok env He lvQ a dst X bQ bP lvQ_lt). Qed.

Lemma kMulSubQP a b dst X Y Z0 : qrepb pp lvQ a (pscale W X) -> qrep pp lvQ b Y -> qrep pp lvQ dst Z0 -> qshp pp dst ->
  exists d, MulSubQP pp lvQ lvP a b dst = Ok d /\ qrep pp lvQ d (psub Z0 (pmul N X Y)) /\ qshp pp d.
Proof.
  intros [A1 A2] [B1 B2] [C1 C2] [[D1 D2] [D3 D4]]. unfold MulSubQP, qp2. pose proof gHrQ. pose proof gHrP. pose proof glvP1 as HP1.
  destruct (MulMontSub_ok rQ ltac:(auto) lvQ (qQ a) (qQ b) (qQ dst) _ _ _ (pmul N X Y) A1 B1 C1 (montprod_l _ _ _ _)) as (x & E & Hw & Hx).
  rewrite E. cbn [bind]. rewrite <- HP1 in A2, B2, C2.
  destruct (MulMontSub_ok rP ltac:(auto) lvP (qP a) (qP b) (qP dst) _ _ _ (pmul N X Y) A2 B2 C2 (montprod_l _ _ _ _)) as (y & E' & Hw' & Hy).
  rewrite E'. cbn [bind]. exists (mkQP x y). split; [reflexivity|]. rewrite HP1 in Hy, Hw'.
  split; [split; auto|]. split; cbn [qQ qP].
  { split; [rewrite (wrote_len Hw); exact D1|]. exact (nrep_shp rQ _ _ _ _ ltac:(auto) D2 Hw Hx). }
  { split; [rewrite (wrote_len Hw'); exact D3|]. exact (nrep_shp rP _ _ _ _ ltac:(auto) D4 Hw' Hy). }
Qed.
Lemma kSubQP a b dst X Y : qrep pp lvQ a X -> qrep pp lvQ b Y -> qshp pp dst ->
  exists d, SubQP pp lvQ lvP a b dst = Ok d /\ qrep pp lvQ d (psub X Y) /\ qshp pp d.
Proof.
  intros [A1 A2] [B1 B2] [[D1 D2] [D3 D4]]. unfold SubQP, qp2. pose proof gHrQ. pose proof gHrP. pose proof glvP1 as HP1. pose proof lvQ_lt.
  destruct (SubLvl_ntt_ok rQ ltac:(auto) lvQ (qQ a) (qQ b) (qQ dst) _ _ A1 B1 ltac:(lia)) as (x & E & Hw & Hx).
  rewrite E. cbn [bind]. rewrite <- HP1 in A2, B2.
  destruct (SubLvl_ntt_ok rP ltac:(auto) lvP (qP a) (qP b) (qP dst) _ _ A2 B2 ltac:(lia)) as (y & E' & Hw' & Hy).
  rewrite E'. cbn [bind]. exists (mkQP x y). split; [reflexivity|]. rewrite HP1 in Hy, Hw'.
  split; [split; auto|]. split; cbn [qQ qP].
  { split; [rewrite (wrote_len Hw); exact D1|]. exact (nrep_shp rQ _ _ _ _ ltac:(auto) D2 Hw Hx). }
  { split; [rewrite (wrote_len Hw'); exact D3|]. exact (nrep_shp rP _ _ _ _ ltac:(auto) D4 Hw' Hy). }
Qed.
Lemma kInvMFormQP a dst X : qrep pp lvQ a (pscale W X) -> qshp pp dst ->
  exists d, InvMFormQP pp lvQ lvP a dst = Ok d /\ qrep pp lvQ d X /\ qshp pp d.
Proof.
  intros [A1 A2] [[D1 D2] [D3 D4]]. unfold InvMFormQP, qp1. pose proof gHrQ. pose proof gHrP. pose proof glvP1 as HP1. pose proof lvQ_lt.
  destruct (InvMFormLvl_ok rQ ltac:(auto) lvQ (qQ a) (qQ dst) _ A1 ltac:(lia)) as (x & E & Hw & Hx).
  rewrite E. cbn [bind]. rewrite <- HP1 in A2.
  destruct (InvMFormLvl_ok rP ltac:(auto) lvP (qP a) (qP dst) _ A2 ltac:(lia)) as (y & E' & Hw' & Hy).
  rewrite E'. cbn [bind]. exists (mkQP x y). split; [reflexivity|]. rewrite HP1 in Hy, Hw'.
  split; [split; auto|]. split; cbn [qQ qP].
  { split; [rewrite (wrote_len Hw); exact D1|]. exact (nrep_shp rQ _ _ _ _ ltac:(auto) D2 Hw Hx). }
  { split; [rewrite (wrote_len Hw'); exact D3|]. exact (nrep_shp rP _ _ _ _ ltac:(auto) D4 Hw' Hy). }
Qed.
Lemma gq_peq x A B : (forall q, peq N q A B) -> qrep pp lvQ x A -> qrep pp lvQ x B.
Proof. intros HE [H1 H2]. split; (eapply nrep_peq; [| |eassumption]); try apply gHrQ; try apply gHrP; intros; apply HE. Qed.

(** * samples *)
Lemma bound_Q B j : bound_ok pp B -> (j < QCount pp)%nat -> 2 * B < nth j (pa_Q pp) 0.
Proof. intros [_ H] Hj. apply Forall_app in H as [H _]. rewrite Forall_forall in H. apply H. now apply nth_In. Qed.
Lemma bound_P B j : bound_ok pp B -> (j < PCount pp)%nat -> 2 * B < nth j (pa_P pp) 0.
Proof. intros [_ H] Hj. apply Forall_app in H as [_ H]. rewrite Forall_forall in H. apply H. now apply nth_In. Qed.
Lemma readSmall_ok r level e dst B : ring_ok r -> (level < length (r_mods r))%nat -> (level < plen dst)%nat -> small_ok (r_N r) B e ->
  (forall j, (j <= level)%nat -> 2 * B < qj r j) ->
  exists d, readSmall r level e dst = Ok d /\ wrote (level + 1) dst d /\ prep r (fun q => q + 1) (level + 1) (p_co d) (smallpoly e) /\
    forall j, (j <= level)%nat -> nth j (p_co d) [] = map (fun '(s, c) => if s : bool then c else wsub (qj r j) c) e.
Proof.
  intros Hr Hl Hd [He1 He2] HB. unfold readSmall.
  rewrite (mapM_ok _ (fun j => map (fun '(s, c) => if s : bool then c else wsub (qj r j) c) e)).
  2:{ intros j Hj. apply in_seq in Hj. rewrite (idx_nth _ _ 0) by lia. reflexivity. }
  cbn [bind]. set (ls := map _ (seq 0 (level + 1))). destruct (write_ok level ls dst) as (d & E & Hw & Hn); [unfold ls; now rewrite map_length, seq_length|exact Hd|].
  rewrite E. exists d. split; [reflexivity|]. split; [auto|].
  assert (Hn' : forall j, (j <= level)%nat -> nth j (p_co d) [] = map (fun '(s, c) => if s : bool then c else wsub (qj r j) c) e).
  { intros j Hj. rewrite Hn by auto. unfold ls. now rewrite nth_map_seq by lia. }
  split; [|exact Hn']. pose proof Hw as (_ & HL & _). split; [lia|]. split; [unfold plen in *; lia|].
  intros j Hj. rewrite Hn' by lia. split; [now rewrite map_length|]. intros i Hi.
  rewrite (nth_mapl _ _ _ (true, 0)) by lia. unfold smallpoly. rewrite Forall_forall in He2.
  specialize (He2 (nth i e (true, 0)) ltac:(apply nth_In; lia)). destruct (ring_q1 r j Hr ltac:(lia)) as [Q1 Q2]. specialize (HB j ltac:(lia)).
  destruct (nth i e (true, 0)) as [[] c]; cbn [snd] in He2.
  - split; [lia|reflexivity].
  - unfold wsub. rewrite wrap_small by lia. split; [lia|]. exists 1. ring.
Qed.
Lemma ExtendSmall_ok e B polQ polP : bound_ok pp B -> small_ok N B e -> 
  (0 < plen polQ)%nat -> nth 0 (p_co polQ) [] = map (fun '(s, c) => if s : bool then c else wsub (nth 0 (pa_Q pp) 0) c) e -> (lvP < plen polP)%nat ->
  exists d, ExtendSmall pp polQ lvP polP = Ok d /\ wrote (lvP + 1) polP d /\ prep rP (fun q => q + 1) (lvP + 1) (p_co d) (smallpoly e).
Proof.
  intros HB [He1 He2] Hq0 Hl0 HlP. unfold ExtendSmall. pose proof (po_Q _ Hpp) as HQ. pose proof glvP1 as HP1.
  rewrite (idx_nth (pa_Q pp) 0 0) by (unfold QCount in HQ; lia). cbn [bind].
  rewrite (idx_nth (p_co polQ) 0 []) by exact Hq0. cbn [bind]. rewrite Hl0.
  set (q0 := nth 0 (pa_Q pp) 0). set (l0 := map (fun '(s, c) => if s : bool then c else wsub q0 c) e).
  rewrite (mapM_ok _ (fun j => map (centre q0 (nth j (pa_P pp) 0)) l0)).
  2:{ intros j Hj. apply in_seq in Hj. rewrite (idx_nth _ _ 0) by (unfold PCount in HP1; lia). reflexivity. }
  cbn [bind]. set (ls := map _ (seq 0 (lvP + 1))). destruct (write_ok lvP ls polP) as (d & E & Hw & Hn); [unfold ls; now rewrite map_length, seq_length|exact HlP|].
  rewrite E. exists d. split; [reflexivity|]. split; [auto|]. pose proof Hw as (_ & HL & _).
  split; [cbn [r_mods ringP]; unfold PCount in HP1; lia|]. split; [unfold plen in *; lia|].
  intros j Hj. rewrite Hn by lia. unfold ls. rewrite nth_map_seq by lia. split; [unfold l0; now rewrite !map_length|]. intros i Hi. cbn [r_N ringP] in Hi. 
  assert (Hi' : (i < length e)%nat) by (rewrite He1; exact Hi).
  unfold l0. rewrite (nth_mapl _ _ _ 0) by (rewrite map_length; lia). rewrite (nth_mapl _ _ _ (true, 0)) by lia.
  rewrite Forall_forall in He2. specialize (He2 (nth i e (true, 0)) ltac:(apply nth_In; lia)).
  destruct (ring_q1 rQ 0 gHrQ) as [Q1 Q2]; [cbn [r_mods ringQ]; unfold QCount in HQ; lia|]. cbn [r_mods ringQ] in Q1, Q2. fold q0 in Q1, Q2.
  pose proof (bound_Q B 0 HB ltac:(lia)) as HB0. fold q0 in HB0. pose proof (bound_P B j HB ltac:(lia)) as HBj.
  destruct (ring_q1 rP j gHrP) as [P1 P2]; [cbn [r_mods ringP]; unfold PCount in HP1; lia|]. cbn [r_mods ringP] in *.
  set (p := nth j (pa_P pp) 0) in *. unfold smallpoly, centre.
  assert (Ho : q0 = 2 * (q0 / 2) + 1).
  { destruct (ring_okm rQ 0 gHrQ) as [Hodd _]; [cbn [r_mods ringQ]; unfold QCount in HQ; lia|]. cbn [r_mods ringQ] in Hodd. fold q0 in Hodd.
    pose proof (Zodd_div2 q0 (proj1 (Zodd_bool_iff q0) Hodd)) as H. now rewrite Z.div2_div in H. }
  destruct (nth i e (true, 0)) as [[] c]; cbn [snd] in He2.
  - destruct (Z.ltb_spec (q0 / 2) c); [lia|]. split; [lia|reflexivity].
  - unfold wsub. rewrite (wrap_small (q0 - c)) by lia. destruct (Z.ltb_spec (q0 / 2) (q0 - c)); [|lia].
    rewrite (wrap_small (q0 - (q0 - c))) by lia. replace (q0 - (q0 - c)) with c by ring. rewrite wrap_small by lia. split; [lia|]. exists 1. ring.
Qed.
Lemma errNTT_ok e B x : bound_ok pp B -> small_ok N B e -> qshp pp x ->
  exists x', errNTT pp e x = Ok x' /\ qrep pp lvQ x' (smallpoly e) /\ qshp pp x'.
Proof.
  intros HB Hs Hx. pose proof Hx as [[D1 D2] [D3 D4]]. unfold errNTT. pose proof lvQ_lt as HlQ. pose proof glvP1 as HP1. pose proof lvQ1 as HQ1.
  destruct (readSmall_ok rQ lvQ e (qQ x) B gHrQ) as (xq & E & Hw & Hp & Hn); auto; [lia| |].
  { intros j Hj. apply (bound_Q B j HB). lia. }
  rewrite E. cbn [bind].
  destruct (ExtendSmall_ok e B xq (qP x) HB Hs) as (xp & E2 & Hw2 & Hp2).
  { rewrite (wrote_len Hw). lia. } { apply Hn. lia. } { lia. }
  rewrite E2. cbn [bind]. rewrite HP1 in Hp2, Hw2. apply (kNTTQP (mkQP xq xp) (mkQP xq xp) (smallpoly e) (fun q => q + 1) (fun q => q + 1)); auto.
  assert (GW : forall r j, ring_ok r -> (j < length (r_mods r))%nat -> qj r j + 1 <= W) by (intros r j Hr Hj; destruct (ring_q1 r j Hr Hj); lia).
  split; cbn [qQ qP].
  - split; [rewrite (wrote_len Hw); exact D1|]. eapply (prep_shp rQ (fun q => q + 1)); [exact D2|exact Hw|exact Hp|].
    intros j Hj. apply GW; [apply gHrQ|cbn [r_mods ringQ]; unfold QCount in *; lia].
  - split; [rewrite (wrote_len Hw2); exact D3|]. eapply (prep_shp rP (fun q => q + 1)); [exact D4|exact Hw2|exact Hp2|].
    intros j Hj. apply GW; [apply gHrP|cbn [r_mods ringP]; unfold PCount in *; lia].
Qed.

(** * secret and public keys *)
Lemma genSecretKey_ok e B id : bound_ok pp B -> small_ok N B e ->
  exists sk, genSecretKey pp e id = Ok sk /\ sk_ID sk = id /\ sk_is sk (smallpoly e).
Proof.
  intros HB Hs. unfold genSecretKey. destruct (errNTT_ok e B (newQP pp) HB Hs newQP_shp) as (x & E & Hx & Hsx). rewrite E. cbn [bind].
  destruct (kMFormQP x x _ Hx Hsx) as (y & E2 & Hy & Hsy). rewrite E2. cbn [bind]. eexists. split; [reflexivity|]. repeat (split; auto).
Qed.
Lemma pCopy_full dst src : plen dst = plen src -> p_co (pCopy dst src) = p_co src.
Proof. intros H. unfold pCopy, plen in *. cbn [p_co]. rewrite H, Nat.min_id, firstn_all. rewrite <- H, skipn_all, app_nil_r. reflexivity. Qed.
Lemma crs_row ix A t : crs_is pp ix A -> (t < beta)%nat ->
  exists v, getCRS pp ix = Ok v /\ length v = beta /\ qrep pp lvQ (nth t v dqp) (pscale W (A t)) /\ qshp pp (nth t v dqp).
Proof.
  intros (v & E & Hs & HR) Ht. exists v. split; [auto|]. split; [apply Hs|]. split; [auto|]. apply (swk_ok_nth env); [auto|]. destruct Hs as [-> _]. auto.
Qed.
Lemma beta_pos : (0 < beta)%nat. Proof. apply (Beta_pos env He). apply lvQ_lt. Qed.
(** pk = (e - s*a', a') with a' the words of CRS[0][0] *)
Lemma GenPublicKey_ok sk s A e B : sk_is sk s -> crs_is pp 0 A -> bound_ok pp B -> small_ok N B e ->
  exists pk, GenPublicKey pp sk e = Ok pk /\ pk_ID pk = sk_ID sk /\
    qrep pp lvQ (pk_1 pk) (pscale W (A O)) /\ qshp pp (pk_1 pk) /\
    qrep pp lvQ (pk_0 pk) (psub (smallpoly e) (pmul N s (pscale W (A O)))) /\ qshp pp (pk_0 pk).
Proof.
  intros [Hs Hss] HA HB He0. unfold GenPublicKey. destruct (errNTT_ok e B (newQP pp) HB He0 newQP_shp) as (x & E & Hx & Hsx). rewrite E. cbn [bind].
  destruct (crs_row 0 A 0 HA beta_pos) as (v & Ev & Lv & Hv & Hsv). rewrite Ev. cbn [bind]. rewrite (idx_nth v 0 dqp) by (rewrite Lv; apply beta_pos). cbn [bind].
  set (a := nth 0 v dqp) in *. set (p1 := mkQP (pCopy (qQ (newQP pp)) (qQ a)) (pCopy (qP (newQP pp)) (qP a))).
  destruct newQP_shp as [[Z1 _] [Z2 _]]. destruct Hsv as [[V1 V2] [V3 V4]].
  assert (EQ : p_co (qQ p1) = p_co (qQ a)) by (apply pCopy_full; congruence).
  assert (EP : p_co (qP p1) = p_co (qP a)) by (apply pCopy_full; congruence).
  assert (Hp1 : qrep pp lvQ p1 (pscale W (A O))) by (unfold qrep; now rewrite EQ, EP).
  assert (Hs1 : qshp pp p1) by (unfold qshp, plen in *; rewrite EQ, EP; auto).
  destruct (kMulSubQP (sk_val sk) p1 x s _ _ (qrep_qrepb _ _ _ _ Hs) Hp1 Hx Hsx) as (y & E2 & Hy & Hsy). rewrite E2. cbn [bind].
  eexists. split; [reflexivity|]. cbn [pk_ID pk_0 pk_1]. repeat (split; auto).
Qed.

(** * row by row updates *)
Lemma row_loop (g : swk -> nat -> res swk) (f : nat -> qp -> res qp) (Pre R : nat -> qp -> Prop) v :
  swk_ok pp v -> (forall t, (t < beta)%nat -> Pre t (nth t v dqp)) ->
  (forall v i, (i < beta)%nat -> length v = beta -> g v i = (let* x := f i (nth i v dqp) in swkSet v i x)) ->
  (forall i x, (i < beta)%nat -> qshp pp x -> Pre i x -> exists x', f i x = Ok x' /\ qshp pp x' /\ R i x') ->
  exists v', foldM g (seq 0 beta) v = Ok v' /\ swk_ok pp v' /\ forall t, (t < beta)%nat -> R t (nth t v' dqp).
Proof.
  intros Hv HP Hg Hf.
  destruct (foldM_seq_inv g (fun i v' => swk_ok pp v' /\ forall t, (t < beta)%nat -> if (t <? i)%nat then R t (nth t v' dqp) else nth t v' dqp = nth t v dqp) beta v) as (v' & E & I1 & I2).
  - intros i w Hi [Hw1 Hw2]. rewrite Hg; [|auto|apply Hw1].
    pose proof (Hw2 i Hi) as Hii. rewrite Nat.ltb_irrefl in Hii.
    assert (Hsi : qshp pp (nth i w dqp)) by (apply (swk_ok_nth env); [auto|destruct Hw1 as [-> _]; auto]).
    destruct (Hf i (nth i w dqp) Hi Hsi) as (x' & E & Hs' & HR); [rewrite Hii; auto|]. rewrite E. cbn [bind].
    destruct (swkSet_ok w i x') as (w' & E' & L' & N'); [destruct Hw1 as [-> _]; auto|]. exists w'. split; [exact E'|]. split.
    + eapply (swk_ok_set env); eauto.
    + intros t Ht. rewrite N'. destruct (Nat.eqb_spec t i) as [->|Hne].
      * destruct (Nat.ltb_spec i (i + 1)); [exact HR|lia].
      * specialize (Hw2 t Ht). destruct (Nat.ltb_spec t i), (Nat.ltb_spec t (i + 1)); auto; lia.
  - split; [auto|]. intros t Ht. reflexivity.
  - exists v'. split; [exact E|]. split; [exact I1|]. intros t Ht. specialize (I2 t Ht). destruct (Nat.ltb_spec t beta); [auto|lia].
Qed.

(** * gadget encryptions *)
Lemma setLimb_ok p k l : (k < plen p)%nat -> plen (setLimb p k l) = plen p /\ p_ntt (setLimb p k l) = p_ntt p /\
  forall j, nth j (p_co (setLimb p k l)) [] = if Nat.eqb j k then l else nth j (p_co p) [].
Proof.
  intros Hk. unfold setLimb, plen in *. cbn [p_co p_ntt]. split; [rewrite app_length, firstn_length; cbn [length]; rewrite skipn_length; lia|].
  split; [reflexivity|]. intros j. destruct (Nat.eqb_spec j k) as [->|Hne].
  - rewrite app_nth2; rewrite firstn_length; [|lia]. replace (k - Nat.min k (length (p_co p)))%nat with O by lia. reflexivity.
  - destruct (lt_dec j k).
    + rewrite app_nth1 by (rewrite firstn_length; lia). apply nth_firstn. lia.
    + rewrite app_nth2; rewrite firstn_length; [|lia]. replace (j - Nat.min k (length (p_co p)))%nat with (S (j - k - 1)) by lia. cbn [nth].
      rewrite nth_skipnl. f_equal. lia.
Qed.
Lemma gadget_loop (pool : poly) off (js : list nat) : forall x, NoDup js -> (forall j, In j js -> (off + j < QCount pp)%nat) ->
  (QCount pp <= plen pool)%nat -> plen x = QCount pp ->
  exists x', foldM (fun xq j => addGadget pp (off + j) pool xq) js x = Ok x' /\ plen x' = plen x /\ p_ntt x' = p_ntt x /\
    forall k, nth k (p_co x') [] =
      if existsb (fun j => Nat.eqb k (off + j)) js then pw2 (fun a b => CRed (wadd a b) (nth k (pa_Q pp) 0)) (nth k (p_co x) []) (nth k (p_co pool) [])
      else nth k (p_co x) [].
Proof.
  induction js as [|j js IH]; intros x Hnd Hj Hp Hx; [exists x; repeat split; auto|].
  inversion_clear Hnd as [|? ? Hn1 Hn2]. cbn [foldM]. unfold addGadget at 1.
  assert (H0 : (off + j < QCount pp)%nat) by (apply Hj; now left). unfold QCount in H0.
  rewrite (idx_nth (pa_Q pp) _ 0) by auto. cbn [bind]. rewrite (idx_nth (p_co pool) _ []) by (unfold plen, QCount in *; lia). cbn [bind].
  rewrite (idx_nth (p_co x) _ []) by (unfold plen, QCount in *; lia). cbn [bind].
  set (l := pw2 _ _ _). destruct (setLimb_ok x (off + j) l) as (S1 & S2 & S3); [unfold QCount in *; lia|].
  destruct (IH (setLimb x (off + j) l)) as (x' & E & L' & F' & N'); auto; [intros; apply Hj; now right|congruence|].
  exists x'. split; [exact E|]. split; [congruence|]. split; [congruence|]. intros k. rewrite N'. cbn [existsb].
  destruct (Nat.eqb_spec k (off + j)) as [->|Hne].
  - cbn [orb]. destruct (existsb (fun j0 => Nat.eqb (off + j) (off + j0)) js) eqn:Ee.
    + apply existsb_exists in Ee as (j' & Hin & Heq). apply Nat.eqb_eq in Heq. assert (j' = j) by lia. subst. contradiction.
    + rewrite S3, Nat.eqb_refl. reflexivity.
  - cbn [orb]. rewrite S3. destruct (Nat.eqb_spec k (off + j)); [contradiction|]. reflexivity.
Qed.

Lemma gmsg_q g t m j : gadget g -> (t < beta)%nat -> (j < QCount pp)%nat ->
  peq N (nth j (pa_Q pp) 0) (gmsg g t m) (if Nat.eqb (j / Alpha pp) t then pscale (bigP pp) m else pzero).
Proof.
  intros Hg Ht Hj. unfold gmsg. rewrite pmul_const_l by apply gHN.
  assert (HQ : 1 < nth j (pa_Q pp) 0) by (apply (ring_q1 rQ j gHrQ); exact Hj).
  pose proof (Hg t j Ht ltac:(unfold maxLevel; lia)) as H. unfold modulus in H. apply eqm_cong in H; [|lia].
  intros i Hi. unfold pscale. rewrite H. destruct (Nat.eqb (j / Alpha pp) t); apply cong_eq; unfold pzero; ring.
Qed.
Lemma gmsg_p g t m j : (j < PCount pp)%nat -> peq N (nth j (pa_P pp) 0) (gmsg g t m) pzero.
Proof.
  intros Hj i Hi. unfold gmsg, pscale, pzero. assert (H : (nth j (pa_P pp) 0 | bigP pp)) by (apply prodZ_divide; now apply nth_In).
  destruct H as [k Hk]. rewrite Hk. exists (k * pmul N (pconst (g t)) m i). ring.
Qed.

Lemma swkRow_ok i e B g m pool x : bound_ok pp B -> small_ok N B e -> gadget g -> (i < beta)%nat ->
  nrep rQ (QCount pp) (p_co pool) (pscale (bigP pp) (pscale W m)) -> qshp pp x ->
  exists x', swkRow pp i e pool x = Ok x' /\ qshp pp x' /\ qrep pp lvQ x' (pscale W (padd (smallpoly e) (gmsg g i m))).
Proof.
  intros HB Hs Hg Hi Hpool Hx. unfold swkRow. destruct (errNTT_ok e B x HB Hs Hx) as (y & E & Hy & Hsy). rewrite E. cbn [bind].
  destruct (kMFormQP y y _ Hy Hsy) as (z & E2 & Hz & Hsz). rewrite E2. cbn [bind]. clear y E Hy Hsy E2.
  pose proof lvQ1 as HQ1. pose proof Hpool as (Hp1 & Hp2 & Hp3). pose proof Hsz as [[D1 D2] [D3 D4]].
  set (js := filter _ _).
  assert (Hjs : forall j, In j js <-> (j < Alpha pp)%nat /\ (i * Alpha pp + j < QCount pp)%nat).
  { intros j. unfold js. rewrite filter_In, in_seq, Nat.ltb_lt. lia. }
  destruct (gadget_loop pool (i * Alpha pp) js (qQ z)) as (xq & E3 & L3 & F3 & N3).
  { apply NoDup_filter, seq_NoDup. } { intros j Hj. now apply Hjs. } { exact Hp2. } { exact D1. }
  rewrite E3. cbn [bind]. eexists. split; [reflexivity|]. destruct Hz as [Hz1 Hz2].
  assert (HR : nrep rQ (lvQ + 1) (p_co xq) (pscale W (padd (smallpoly e) (gmsg g i m)))).
  { destruct Hz1 as (Z1 & Z2 & Z3). split; [auto|]. split; [unfold plen in *; lia|]. intros k Hk. rewrite N3. specialize (Z3 k Hk). specialize (Hp3 k ltac:(lia)).
    assert (Hkq : (k < length (r_mods rQ))%nat) by lia. pose proof (ring_okm rQ k gHrQ Hkq) as Hok. pose proof (ring_q1 rQ k gHrQ Hkq) as [HQ _].
    assert (HG : peq N (qj rQ k) (pscale W (padd (smallpoly e) (gmsg g i m)))
       (if Nat.eqb (k / Alpha pp) i then padd (pscale W (smallpoly e)) (pscale (bigP pp) (pscale W m)) else pscale W (smallpoly e))).
    { pose proof (gmsg_q g i m k Hg Hi ltac:(lia)) as H. cbn [r_mods ringQ]. intros w Hw. unfold pscale at 1, padd at 1. rewrite (H w Hw).
      destruct (Nat.eqb (k / Alpha pp) i); apply cong_eq; unfold pscale, padd, pzero; ring. }
    pose proof (po_alpha _ Hpp) as Ha.
    assert (HE : existsb (fun j => Nat.eqb k (i * Alpha pp + j)) js = Nat.eqb (k / Alpha pp) i).
    { apply eq_true_iff_eq. rewrite existsb_exists, Nat.eqb_eq. pose proof (Nat.div_mod k (Alpha pp) ltac:(lia)) as Hdm. pose proof (Nat.mod_upper_bound k (Alpha pp) ltac:(lia)) as Hmm. split.
      - intros (j & Hin & Hj). apply Nat.eqb_eq in Hj. apply Hjs in Hin. subst k. symmetry. apply (Nat.div_unique _ _ i j); lia.
      - intros <-. exists (k mod Alpha pp)%nat. split; [apply Hjs; lia|]. apply Nat.eqb_eq. lia. }
    rewrite HE. destruct (Nat.eqb (k / Alpha pp) i).
    - eapply lrep_peq. { intros w Hw. apply (nttf_peq (r_logN rQ)). symmetry. exact HG. }
      eapply pw2_lrep; [exact Z3|exact Hp3|]. intros w a b Hw Ha0 Hb Hca Hcb.
      destruct (CRed_add_spec a b (qj rQ k) (qj rQ k) (qj rQ k) (qj rQ k) Hok) as [G1 G2]; try lia. split; [exact G1|]. cbn [r_mods ringQ] in *.
      rewrite G2, Hca, Hcb. rewrite nttf_add. reflexivity.
    - eapply lrep_peq; [|exact Z3]. intros w Hw. apply (nttf_peq (r_logN rQ)). symmetry. exact HG. }
  split; [|split; [exact HR|]]; cbn [qQ qP].
  - split; [|split; auto]. cbn [qQ]. split; [congruence|]. destruct HR as (R1 & R2 & R3). apply Forall_of_nth with (d := []). intros j Hj.
    assert (Hj' : (j < lvQ + 1)%nat) by (unfold plen in *; lia). split; [apply (R3 j Hj')|]. eapply lrep_words; [|apply (R3 j Hj')].
    destruct (ring_q1 rQ j gHrQ ltac:(lia)). lia.
  - eapply nrep_peq; [apply gHrP| |exact Hz2]. intros j Hj w Hw. pose proof (gmsg_p g i m j Hj w Hw) as H.
    cbn [r_mods ringP]. unfold pscale, padd. rewrite H. apply cong_eq. unfold pzero. ring.
Qed.

Lemma GenSwitchingKey_ok sk m es B g v pool : bound_ok pp B -> errs_ok B es -> gadget g -> qrep pp lvQ sk (pscale W m) -> swk_ok pp v -> pshp pp pool ->
  exists v' pool', GenSwitchingKey pp sk es v pool = Ok (v', pool') /\ pshp pp pool' /\
    krows v' (fun t => padd (smallpoly (es t)) (gmsg g t m)).
Proof.
  intros HB Hes Hg [Hs _] Hv [Hp1 Hp2]. unfold GenSwitchingKey. pose proof lvQ_lt as HlQ. pose proof lvQ1 as HQ1.
  destruct (MulScalarBigintLvl_ok rQ gHrQ lvQ (qQ sk) (fold_right Z.mul 1 (pa_P pp)) pool _ Hs ltac:(lia)) as (pool' & E & Hw & Hr). rewrite E. cbn [bind].
  match goal with |- context [foldM ?g0 (seq 0 beta) v] => set (gg := g0) end.
  destruct (row_loop gg (fun i x => swkRow pp i (es i) pool' x) (fun _ _ => True) (fun t x => qrep pp lvQ x (pscale W (padd (smallpoly (es t)) (gmsg g t m)))) v) as (v' & E' & Hv' & HR); auto.
  { intros w i Hi Lw. unfold gg. rewrite (idx_nth w i dqp) by lia. reflexivity. }
  { intros i x Hi Hx _. rewrite HQ1 in Hr. eapply swkRow_ok; eauto. }
  rwb E'. exists v', pool'. split; [reflexivity|]. split; [|split; auto].
  split; [rewrite (wrote_len Hw); auto|]. exact (nrep_shp rQ _ _ _ _ gHrQ Hp2 Hw Hr).
Qed.
Lemma subRows_ok a A s S0 v V : swk_ok pp a -> (forall t, (t < beta)%nat -> qrep pp lvQ (nth t a dqp) (pscale W (A t))) -> qrep pp lvQ s (pscale W S0) -> krows v V ->
  exists v', subRows pp a s v = Ok v' /\ krows v' (fun t => psub (V t) (pmul N S0 (A t))).
Proof.
  intros [La _] HA Hs [Hv HV]. unfold subRows. match goal with |- context [foldM ?g0 (seq 0 beta) v] => set (gg := g0) end.
  destruct (row_loop gg (fun i x => MulSubQP pp lvQ lvP (nth i a dqp) s x) (fun t x => qrep pp lvQ x (pscale W (V t))) (fun t x => qrep pp lvQ x (pscale W (psub (V t) (pmul N S0 (A t))))) v) as (v' & E' & Hv' & HR); auto.
  { intros w i Hi Lw. unfold gg. rewrite (idx_nth a i dqp) by lia. rewrite (idx_nth w i dqp) by lia. reflexivity. }
  { intros i x Hi Hx HVx. destruct (kMulSubQP (nth i a dqp) s x (A i) _ _ (qrep_qrepb _ _ _ _ (HA i Hi)) Hs HVx Hx) as (d & E & Hd & Hsd).
    exists d. split; [exact E|]. split; [auto|]. eapply gq_peq; [|exact Hd]. intros q. rewrite pscale_mul_r. rewrite (pmul_comm N gHN q (A i) S0).
    intros w Hw. apply cong_eq. unfold psub, pscale. ring. }
  exists v'. split; [exact E'|]. split; auto.
Qed.

(** * relinearisation keys *)
Lemma kNegQP x X : qrep pp lvQ x X -> qshp pp x ->
  exists xq xp, NegLvl rQ lvQ (qQ x) (qQ x) = Ok xq /\ NegLvl rP lvP (qP x) (qP x) = Ok xp /\
    qrepb pp lvQ (mkQP xq xp) (popp X) /\ qshp pp (mkQP xq xp).
Proof.
  intros [A1 A2] [[D1 D2] [D3 D4]]. pose proof gHrQ. pose proof gHrP. pose proof glvP1 as HP1. pose proof lvQ_lt. pose proof lvQ1 as HQ1.
  destruct (NegLvl_ntt_ok rQ ltac:(auto) lvQ (qQ x) (qQ x) _ (nrep_nrepb _ _ _ _ A1) ltac:(lia)) as (a & E & Hw & Ha).
  rewrite <- HP1 in A2. destruct (NegLvl_ntt_ok rP ltac:(auto) lvP (qP x) (qP x) _ (nrep_nrepb _ _ _ _ A2) ltac:(lia)) as (b & E' & Hw' & Hb).
  exists a, b. split; [auto|]. split; [auto|]. rewrite HP1 in Hb, Hw'. split; [split; auto|].
  assert (G : forall r n dst d A, ring_ok r -> shp (r_N r) (p_co dst) -> wrote n dst d -> nrepb r n (p_co d) A -> shp (r_N r) (p_co d)).
  { intros r n dst d A Hr Hs Hw0 (R1 & R2 & R3). apply Forall_of_nth with (d := []). intros j Hj. destruct (lt_dec j n) as [Hjn|Hjn].
    - destruct (R3 j Hjn) as [L1 L2]. split; [exact L1|]. apply Forall_of_nth with (d := 0). intros i Hi. specialize (L2 i ltac:(lia)). destruct (ring_q1 r j Hr ltac:(lia)). lia.
    - destruct Hw0 as (_ & W2 & W3). rewrite W3 by lia. apply shp_nth; [auto|]. unfold plen in *. lia. }
  split; cbn [qQ qP]; split.
  - rewrite (wrote_len Hw). auto.
  - exact (G rQ _ _ _ _ gHrQ D2 Hw Ha).
  - rewrite (wrote_len Hw'). auto.
  - exact (G rP _ _ _ _ gHrP D4 Hw' Hb).
Qed.
Lemma GenRelinearizationKey_ok sk r s r0 A U eb ed ev B g poolQ poolQP :
  sk_is sk s -> sk_is r r0 -> crs_is pp 0 A -> crs_is pp (-1) U -> bound_ok pp B -> errs_ok B eb -> errs_ok B ed -> errs_ok B ev -> gadget g ->
  pshp pp poolQ -> qshp pp poolQP ->
  exists rlk poolQ' poolQP', GenRelinearizationKey pp sk r eb ed ev poolQ poolQP = Ok (rlk, (poolQ', poolQP')) /\ rl_ID rlk = sk_ID sk /\
    pshp pp poolQ' /\ qshp pp poolQP' /\
    krows (rl_b rlk) (fun t => psub (smallpoly (eb t)) (pmul N s (A t))) /\
    krows (rl_d rlk) (fun t => psub (padd (smallpoly (ed t)) (gmsg g t s)) (pmul N r0 (A t))) /\
    krowsb (rl_v rlk) (fun t => popp (padd (padd (smallpoly (ev t)) (gmsg g t r0)) (pmul N s (U t)))).
Proof.
  intros [Hs Hss] [Hr Hsr] (a & Ea & Hsa & HA) (u & Eu & Hsu & HU) HB Heb Hed Hev Hg HpQ HpQP. unfold GenRelinearizationKey.
  pose proof (po_P _ Hpp) as HP0. destruct (Nat.eqb_spec (PCount pp) 0); [lia|]. rewrite Ea, Eu. cbn [bind].
  match goal with |- context [foldM ?g0 (seq 0 beta) (NewSwitchingKey pp, poolQP)] => set (gg := g0) end.
  destruct (foldM_seq_inv gg (fun i '(b, tmp) => swk_ok pp b /\ qshp pp tmp /\ forall t, (t < i)%nat -> qrep pp lvQ (nth t b dqp) (pscale W (psub (smallpoly (eb t)) (pmul N s (A t))))) beta (NewSwitchingKey pp, poolQP)) as ([b tmp] & E & I1 & I2 & I3).
  { intros i [b tmp] Hi (J1 & J2 & J3). unfold gg. pose proof (proj1 Hsa) as La. pose proof (proj1 J1) as Lb.
    rewrite (idx_nth a i dqp) by lia. rewrite (idx_nth b i dqp) by lia. cbn [bind].
    assert (Hbi : qshp pp (nth i b dqp)) by (apply (swk_ok_nth env); [exact J1|rewrite Lb; exact Hi]).
    destruct (kMulQP (nth i a dqp) (sk_val sk) (nth i b dqp) (A i) _ (qrep_qrepb _ _ _ _ (HA i Hi)) Hs Hbi) as (x & E & Hx & Hsx). rewrite E. cbn [bind].
    assert (Hx' : qrep pp lvQ x (pscale W (pmul N s (A i)))).
    { eapply gq_peq; [|exact Hx]. intros q. rewrite pscale_mul_r. rewrite (pmul_comm N gHN q (A i) s). reflexivity. }
    destruct (kInvMFormQP x x _ Hx' Hsx) as (y & E1 & Hy & Hsy). rewrite E1. cbn [bind].
    destruct (errNTT_ok (eb i) B tmp HB (Heb i Hi) J2) as (tmp' & E2 & Ht & Hst). rewrite E2. cbn [bind].
    destruct (kSubQP tmp' y y _ _ Ht Hy Hsy) as (z & E3 & Hz & Hsz). rewrite E3. cbn [bind].
    destruct (kMFormQP z z _ Hz Hsz) as (w & E4 & Hw & Hsw). rewrite E4. cbn [bind].
    destruct (swkSet_ok b i w) as (b' & E5 & L5 & N5); [lia|]. rewrite E5. cbn [bind]. exists (b', tmp'). split; [reflexivity|].
    split; [eapply (swk_ok_set env); eauto|]. split; [auto|]. intros t Ht'. rewrite N5. destruct (Nat.eqb_spec t i) as [->|]; [exact Hw|]. apply J3. lia. }
  { split; [apply NewSwk_ok|]. split; [auto|]. intros t Ht. lia. }
  rwb E. destruct (GenSwitchingKey_ok (sk_val sk) s ed B g (NewSwitchingKey pp) poolQ HB Hed Hg Hs NewSwk_ok HpQ) as (d & pool1 & E1 & Hp1 & Hd). rewrite E1. cbn [bind].
  destruct (subRows_ok a A (sk_val r) r0 d _ Hsa HA Hr Hd) as (d' & E2 & Hd'). rewrite E2. cbn [bind].
  destruct (GenSwitchingKey_ok (sk_val r) r0 ev B g (NewSwitchingKey pp) pool1 HB Hev Hg Hr NewSwk_ok Hp1) as (v & pool2 & E3 & Hp2 & Hv & HV). rewrite E3. cbn [bind].
  match goal with |- context [foldM ?g0 (seq 0 beta) v] => set (gv := g0) end.
  set (V := fun t => padd (smallpoly (ev t)) (gmsg g t r0)) in *.
  destruct (row_loop gv (fun i x => let* x := MulAddQP pp lvQ lvP (nth i u dqp) (sk_val sk) x in let* xq := NegLvl rQ lvQ (qQ x) (qQ x) in let* xp := NegLvl rP lvP (qP x) (qP x) in Ok (mkQP xq xp))
      (fun t x => qrep pp lvQ x (pscale W (V t))) (fun t x => qrepb pp lvQ x (pscale W (popp (padd (V t) (pmul N s (U t)))))) v) as (v' & E' & Hv' & HR); auto.
  { intros w i Hi Lw. unfold gv. pose proof (proj1 Hsu) as Lu. rewrite (idx_nth u i dqp) by lia. rewrite (idx_nth w i dqp) by lia. cbn [bind].
    destruct (MulAddQP pp lvQ lvP (nth i u dqp) (sk_val sk) (nth i w dqp)); [cbn [bind]|reflexivity]. destruct (NegLvl rQ lvQ (qQ a0) (qQ a0)); [cbn [bind]|reflexivity].
    destruct (NegLvl rP lvP (qP a0) (qP a0)); reflexivity. }
  { intros i x Hi Hx HVx. destruct (kMulAddQP (nth i u dqp) (sk_val sk) x (U i) _ _ (qrep_qrepb _ _ _ _ (HU i Hi)) Hs HVx Hx) as (y & Ey & Hy & Hsy). rewrite Ey. cbn [bind].
    destruct (kNegQP y _ Hy Hsy) as (xq & xp & Eq & Ep & HN & HS). rewrite Eq, Ep. cbn [bind]. eexists. split; [reflexivity|]. split; [auto|].
    destruct HN as [N1 N2]. assert (HE : forall q, peq N q (popp (padd (pscale W (V i)) (pmul N (U i) (pscale W s)))) (pscale W (popp (padd (V i) (pmul N s (U i)))))).
    { intros q. rewrite pscale_mul_r. rewrite (pmul_comm N gHN q (U i) s). intros w Hw. apply cong_eq. unfold popp, padd, pscale. ring. }
    split; (eapply nrepb_peq; [| |eassumption]); try apply gHrQ; try apply gHrP; intros; apply HE. }
  rwb E'. do 3 eexists. split; [reflexivity|]. cbn [rl_ID rl_b rl_d rl_v]. split; [reflexivity|]. split; [auto|]. split; [auto|].
  split; [split; [exact I1|exact I3]|]. split; [exact Hd'|]. split; auto.
Qed.

(** * rotation and conjugation keys *)
Lemma permuteSk_ok gal gal' s S0 : 0 <= gal < 2 * Z.of_nat N -> Z.Odd gal -> cong (2 * Z.of_nat N) (gal * gal') 1 -> qrep pp lvQ s (pscale W S0) ->
  exists s', permuteSk pp gal s = Ok s' /\ qrep pp lvQ s' (pscale W (sigma_inv N gal' S0)).
Proof.
  intros Hg Ho Hc [A1 A2]. unfold permuteSk. destruct newQP_shp as [[D1 D2] [D3 D4]]. pose proof glvP1 as HP1. pose proof lvQ_lt as HlQ.
  destruct (PermuteNTT_ok rQ gHrQ gal gal' Hg Ho Hc lvQ (qQ s) (qQ (newQP pp)) _ A1 ltac:(lia)) as (x & E & Hw & Hx). cbn [r_logN ringQ] in E. rewrite E. cbn [bind].
  rewrite <- HP1 in A2. destruct (PermuteNTT_ok rP gHrP gal gal' Hg Ho Hc lvP (qP s) (qP (newQP pp)) _ A2 ltac:(lia)) as (y & E' & Hw' & Hy). cbn [r_logN ringP] in E'. rewrite E'. cbn [bind].
  rewrite HP1 in Hy. eexists. split; [reflexivity|]. apply (gq_peq _ (sigma_inv N gal' (pscale W S0))); [intros q; apply sigma_scale|]. split; auto.
Qed.
(** the rotation key for index k: sigma_{5^k}^-1(s), i.e. [sigma_inv N (5^k)], is the secret of the mask *)
Lemma GenRotationKey_ok rotidx k sk s A es B g poolQ : k = normNeg (pa_logN pp) rotidx -> mhas Z.eqb (pa_CRS pp) rotidx = true ->
  sk_is sk s -> crs_is pp k A -> bound_ok pp B -> errs_ok B es -> gadget g -> pshp pp poolQ ->
  exists rk poolQ', GenRotationKey pp rotidx sk es poolQ = Ok (rk, poolQ') /\ rk_ID rk = sk_ID sk /\ rk_idx rk = k /\ pshp pp poolQ' /\
    krows (rk_val rk) (fun t => psub (padd (smallpoly (es t)) (gmsg g t s)) (pmul N (sigma_inv N (galColumn (pa_logN pp) k) s) (A t))).
Proof.
  intros -> Hm [Hs Hss] (a & Ea & Hsa & HA) HB Hes Hg HpQ. unfold GenRotationKey. rewrite Hm. cbn [negb]. cbv zeta.
  set (k := normNeg (pa_logN pp) rotidx) in *. destruct (galColumn_ok (pa_logN pp) k) as [_ Go]. destruct (galInverse_ok (pa_logN pp) _ Go) as (G1 & G2 & G3).
  rewrite (Z.mul_comm (galColumn _ _)) in G3. destruct (permuteSk_ok _ _ (sk_val sk) s G1 G2 G3 Hs) as (s' & E & Hs'). rewrite E. cbn [bind].
  destruct (GenSwitchingKey_ok (sk_val sk) s es B g (NewSwitchingKey pp) poolQ HB Hes Hg Hs NewSwk_ok HpQ) as (d & pool1 & E1 & Hp1 & Hd). rewrite E1. cbn [bind].
  rewrite Ea. cbn [bind]. destruct (subRows_ok a A s' _ d _ Hsa HA Hs' Hd) as (d' & E2 & Hd'). rewrite E2. cbn [bind].
  do 2 eexists. split; [reflexivity|]. cbn [rk_ID rk_idx rk_val]. auto.
Qed.
Lemma GenConjugationKey_ok sk s A es B g poolQ : sk_is sk s -> crs_is pp (-2) A -> bound_ok pp B -> errs_ok B es -> gadget g -> pshp pp poolQ ->
  exists ck poolQ', GenConjugationKey pp sk es poolQ = Ok (ck, poolQ') /\ cj_ID ck = sk_ID sk /\ pshp pp poolQ' /\
    krows (cj_val ck) (fun t => psub (padd (smallpoly (es t)) (gmsg g t (sigma_inv N (galRow (pa_logN pp)) s))) (pmul N s (A t))).
Proof.
  intros [Hs Hss] (a & Ea & Hsa & HA) HB Hes Hg HpQ. unfold GenConjugationKey. destruct (galRow_ok (pa_logN pp)) as (G1 & G2 & G3).
  destruct (permuteSk_ok _ _ (sk_val sk) s G1 G2 G3 Hs) as (s' & E & Hs'). rewrite E. cbn [bind].
  destruct (GenSwitchingKey_ok s' _ es B g (NewSwitchingKey pp) poolQ HB Hes Hg Hs' NewSwk_ok HpQ) as (d & pool1 & E1 & Hp1 & Hd). rewrite E1. cbn [bind].
  rewrite Ea. cbn [bind]. destruct (subRows_ok a A (sk_val sk) _ d _ Hsa HA Hs Hd) as (d' & E2 & Hd'). rewrite E2. cbn [bind].
  do 2 eexists. split; [reflexivity|]. cbn [cj_ID cj_val]. auto.
Qed.

(** * panics *)
Lemma GenRotationKey_missing rotidx sk es poolQ : mhas Z.eqb (pa_CRS pp) rotidx = false ->
  GenRotationKey pp rotidx sk es poolQ = Panic (PMsg "Cannot GenRotationKey: CRS for given rot idx is not generated").
Proof. intros H. unfold GenRotationKey. now rewrite H. Qed.
Lemma GenRotationKey_nil rotidx sk s es B poolQ : mhas Z.eqb (pa_CRS pp) rotidx = true -> mhas Z.eqb (pa_CRS pp) (normNeg (pa_logN pp) rotidx) = false ->
  sk_is sk s -> bound_ok pp B -> errs_ok B es -> pshp pp poolQ -> (exists g, gadget g) ->
  GenRotationKey pp rotidx sk es poolQ = Panic PNil.
Proof.
  intros Hm Hn [Hs Hss] HB Hes HpQ [g Hg]. unfold GenRotationKey. rewrite Hm. cbn [negb]. cbv zeta.
  set (k := normNeg (pa_logN pp) rotidx) in *. destruct (galColumn_ok (pa_logN pp) k) as [_ Go]. destruct (galInverse_ok (pa_logN pp) _ Go) as (G1 & G2 & G3).
  rewrite (Z.mul_comm (galColumn _ _)) in G3. destruct (permuteSk_ok _ _ (sk_val sk) s G1 G2 G3 Hs) as (s' & E & Hs'). rewrite E. cbn [bind].
  destruct (GenSwitchingKey_ok (sk_val sk) s es B g (NewSwitchingKey pp) poolQ HB Hes Hg Hs NewSwk_ok HpQ) as (d & pool1 & E1 & Hp1 & Hd). rewrite E1. cbn [bind].
  assert (Hq : getCRS pp k = Panic PNil) by (unfold getCRS, mptr, mhas in *; destruct (mget Z.eqb (pa_CRS pp) k); [discriminate|reflexivity]).
  now rewrite Hq.
Qed.
Lemma gadget_exists : exists g, gadget g.
Proof.
  assert (HG : forall t, exists x, forall j, (j < length (pa_Q pp))%nat -> cong (nth j (pa_Q pp) 0) x (if Nat.eqb (j / Alpha pp) t then 1 else 0)).
  { intros t. apply (crt_exists (pa_Q pp) (good_pairwise _ _ (po_good _ Hpp))). }
  destruct (choose_fun 0 beta (fun t x => forall j, (j < length (pa_Q pp))%nat -> cong (nth j (pa_Q pp) 0) x (if Nat.eqb (j / Alpha pp) t then 1 else 0)) (fun t _ => HG t)) as (g & Hg).
  exists g. intros t j Ht Hj. pose proof lvQ_lt. apply eqm_cong; [pose proof (ring_q1 rQ j gHrQ ltac:(cbn [r_mods ringQ]; unfold QCount in *; lia)) as [H1 _]; unfold modulus; cbn [r_mods ringQ] in H1; lia|].
  apply Hg; [auto|unfold QCount in *; lia].
Qed.
End KG.
