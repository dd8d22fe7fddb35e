(** What multiplication with relinearisation does to the phase, for any digits that recombine. *)
From Coq Require Import String ZArith Znumtheory List Lia Setoid Morphisms Bool Permutation.
From Verif Require Import Spec SpecProofs Go GoProofs Lattigo LattigoProofs Arith NegRing NegRingProofs NTT NTTProofs F64 BasisExt BasisExtProofs ModDownProofs DecomposeProofs RingOps RingOpsProofs Maps MapsProofs Params Elements KeySwitch KSProofs KSMulProofs KSAlg KSNorm Crt ParamsProofs KeyGenProofs SpecCt.
Import ListNotations.
Local Open Scope Z_scope.
Local Open Scope list_scope.

Lemma choose_str {T} (d : T) (L : list string) (R : string -> T -> Prop) : (forall id, In id L -> exists t, R id t) -> exists f, forall id, In id L -> R id (f id).
Proof.
  induction L as [|a L IH]; intros H. { exists (fun _ => d). intros id []. }
  destruct IH as (f & Hf); [intros; apply H; now right|]. destruct (H a) as (t & Ht); [now left|].
  exists (fun id => if String.eqb id a then t else f id). intros id Hin. destruct (String.eqb_spec id a) as [->|Hne]; [auto|]. apply Hf. destruct Hin; [congruence|auto].
Qed.
Lemma psumL_restrict N M (F : string -> zpoly) L L0 : NoDup L -> NoDup L0 -> incl L0 L ->
  peq N M (psumL (fun x => if inb x L0 then F x else pzero) L) (psumL F L0).
Proof.
  intros H1 H2 H3. assert (G : forall K, peq N M (psumL (fun x => if inb x L0 then F x else pzero) K) (psumL F (filter (fun x => inb x L0) K))).
  { induction K as [|a K IH]; [reflexivity|]. cbn [psumL filter]. destruct (inb a L0); cbn [psumL]; rewrite IH; [reflexivity|]. intros i Hi. apply cong_eq. reflexivity. }
  rewrite G. apply psumL_perm. apply NoDup_Permutation; [now apply NoDup_filter|auto|]. intros x. rewrite filter_In, inb_In. split; [tauto|]. auto.
Qed.

Section PR.
Context (N : nat) (M : Z) (HN : (0 < N)%nat).
Add Ring pringS : (peq_ring N M HN) (setoid (peq_equiv N M) (peq_ext N M)).
Lemma pmul_one_l a : peq N M (pmul N pone a) a. Proof. ring. Qed.
Lemma pmul_zero_r a : peq N M (pmul N a pzero) pzero. Proof. ring. Qed.
Lemma pmul_padd_r a b c : peq N M (pmul N a (padd b c)) (padd (pmul N a b) (pmul N a c)). Proof. ring. Qed.
End PR.
Lemma mget_eq {A} (m m' : smap A) : mkeys m = mkeys m' -> NoDup (mkeys m) -> (forall k, In k (mkeys m) -> sget m k = sget m' k) -> m = m'.
Proof.
  revert m'. induction m as [|[k v] m IH]; intros [|[k' v'] m'] HK Hnd H; cbn in *; try discriminate; auto. injection HK as E0 HK. subst k'. apply NoDup_cons_iff in Hnd as [Hk Hm].
  pose proof (H k (or_introl eq_refl)) as E. rewrite String.eqb_refl in E. injection E as <-. f_equal. apply IH; auto. intros x Hx. specialize (H x (or_intror Hx)).
  destruct (String.eqb_spec x k) as [Ex|Ex]; [rewrite Ex in Hx; contradiction|auto].
Qed.

Section Env.
Context (env : kenv) (He : env_ok env).
Notation pp := (e_pp env).
Notation N := (pa_N pp).
Notation rQ := (ringQ pp).
Notation Bt := (Beta pp).
Let Hpp := Hpp env He.

Lemma digit_bound_ok l Dm t : digit_bound pp Dm -> (l < QCount pp)%nat -> (t < Bt l)%nat -> 2 * blockP env l t <= Dm.
Proof.
  intros HD Hl Ht. assert (Ht2 : (t < Bt (maxLevel pp))%nat) by (pose proof (Beta_max env He l Hl); lia). specialize (HD t Ht2).
  rewrite product_prodZ in HD. enough (blockP env l t <= prodZ (digit_block (pa_Q pp) (Alpha pp) t (maxLevel pp))) by lia.
  unfold blockP, block, digit_block. set (K := skipn (t * Alpha pp) (pa_Q pp)).
  assert (HF : Forall (fun q => 1 <= q) K). { apply Forall_forall. intros q Hq. assert (In q (pa_Q pp)). { unfold K in Hq. rewrite <- (firstn_skipn (t * Alpha pp) (pa_Q pp)). apply in_or_app. now right. }
    pose proof (gm_Q _ _ (po_good _ Hpp)) as G. rewrite Forall_forall in G. specialize (G q H). unfold mod61 in G. lia. }
  assert (Hm : (l <= maxLevel pp)%nat) by (unfold maxLevel; pose proof (po_Q _ Hpp); lia).
  assert (G : forall n m (K : list Z), Forall (fun q => 1 <= q) K -> (n <= m)%nat -> 1 <= prodZ (firstn n K) <= prodZ (firstn m K)).
  { clear. induction n as [|n IH]; intros m K HF Hnm.
    - cbn. split; [lia|]. clear Hnm. revert m. induction K as [|a K IH]; intros [|m]; cbn; try lia. inversion_clear HF. specialize (IH H0 m). nia.
    - destruct m as [|m]; [lia|]. destruct K as [|a K]; cbn; [lia|]. inversion_clear HF. specialize (IH m K H0 ltac:(lia)). nia. }
  apply G; auto. lia.
Qed.

(** components as integer polynomials *)
Lemma ct_lift l ct : (l < QCount pp)%nat -> ct_ok pp l ct -> exists f : string -> zpoly, forall id, In id (mkeys ct) ->
  exists p, sget ct id = Some p /\ prep rQ (fun q => q + 1) (l + 1) (p_co p) (f id) /\ p_ntt p = false /\ plen p = (l + 1)%nat /\ shp N (p_co p).
Proof.
  intros Hl Hc.
  apply (choose_str pzero (mkeys ct) (fun id A => exists p, sget ct id = Some p /\ prep rQ (fun q => q + 1) (l + 1) (p_co p) A /\ p_ntt p = false /\ plen p = (l + 1)%nat /\ shp N (p_co p))).
  intros id Hin. destruct (mget_ex _ seqb ct id Hin) as (p & E). destruct (ck_comp _ _ _ Hc id p E) as (H1 & H2 & H3).
  assert (HW : forall j, (j <= l)%nat -> 1 < nth j (pa_Q pp) 0 /\ 8 * nth j (pa_Q pp) 0 < W). { intros j Hj. apply (ring_q1 rQ j (po_rQ _ Hpp)). unfold QCount in Hl. cbn [r_mods ringQ]. lia. }
  destruct (poly_lift rQ (fun q => q + 1) (l + 1) (p_co p)) as (A & HA).
  - apply (good_pairwise _ _ (po_good _ Hpp)).
  - unfold QCount in Hl. cbn [r_mods ringQ]. lia.
  - unfold plen in H2. lia.
  - intros j Hj. destruct (H3 j ltac:(lia)) as [G1 G2]. split; [exact G1|]. intros x Hx. specialize (G2 x Hx). cbn [r_mods ringQ]. lia.
  - exists A, p. split; [auto|]. split; [auto|]. split; [auto|]. split; [auto|]. apply Forall_of_nth with (d := []). unfold plen in H2. intros j Hj. destruct (H3 j ltac:(lia)) as [G1 G2].
    split; [auto|]. apply Forall_of_nth with (d := 0). intros x Hx. specialize (G2 x ltac:(lia)). specialize (HW j ltac:(lia)). lia.
Qed.
Lemma limb_prep l b ct id p A j : sget ct id = Some p -> prep rQ b (l + 1) (p_co p) A -> (j <= l)%nat -> peq N (nth j (pa_Q pp) 0) (limb ct id j) A.
Proof. intros E (_ & _ & H) Hj x Hx. unfold limb. rewrite E. apply (H j ltac:(lia)). exact Hx. Qed.

Section Sem.
Context (l : nat) (L0 L1 : list string) (f0 f1 : string -> zpoly) (D0 D1 : string -> nat -> zpoly) (g : nat -> Z) (A U : nat -> zpoly)
  (s r : string -> zpoly) (eb ed ev : string -> nat -> zpoly) (Bs Be Dm : Z).
Hypothesis Hl : (l < QCount pp)%nat.
Hypothesis Hg : gadget pp g.
Hypothesis Hs : forall i, In i L0 \/ In i L1 -> pnorm_le N (s i) Bs /\ pnorm_le N (r i) Bs.
Hypothesis Herr : forall i t, In i L0 \/ In i L1 -> (t < Bt l)%nat -> pnorm_le N (eb i t) Be /\ pnorm_le N (ed i t) Be /\ pnorm_le N (ev i t) Be.
Hypothesis HD0n : forall i t, In i L0 -> (t < Bt l)%nat -> pnorm_le N (D0 i t) Dm.
Hypothesis HD1n : forall i t, In i L1 -> (t < Bt l)%nat -> pnorm_le N (D1 i t) Dm.
Hypothesis HD0c : forall i j, In i L0 -> (j <= l)%nat -> peq N (nth j (pa_Q pp) 0) (D0 i (j / Alpha pp)%nat) (f0 i).
Hypothesis HD1c : forall i j, In i L1 -> (j <= l)%nat -> peq N (nth j (pa_Q pp) 0) (D1 i (j / Alpha pp)%nat) (f1 i).
Hypothesis HDm : digit_bound pp Dm.
Let G (t : nat) := pconst (g t).
Definition bK (i : string) t := psub (eb i t) (pmul N (s i) (A t)).
Definition dK (i : string) t := padd (psub (ed i t) (pmul N (r i) (A t))) (pscale (bigP pp) (pmul N (pconst (g t)) (s i))).
Definition vK (i : string) t := psub (psub (ev i t) (pmul N (s i) (U t))) (pscale (bigP pp) (pmul N (pconst (g t)) (r i))).

Lemma gadget_row j t : (j <= l)%nat -> (t < Bt l)%nat -> peq N (nth j (pa_Q pp) 0) (pconst (g t)) (if Nat.eqb t (j / Alpha pp) then pone else pzero).
Proof.
  intros Hj Ht x Hx. pose proof (Beta_max env He l Hl) as Hm. assert (Hq : 1 < nth j (pa_Q pp) 0). { apply (ring_q1 rQ j (po_rQ _ Hpp)). unfold QCount in Hl. cbn [r_mods ringQ]. lia. }
  assert (Hlm : (l <= maxLevel pp)%nat) by (unfold maxLevel; pose proof (po_Q _ Hpp); lia).
  specialize (Hg t j ltac:(lia) ltac:(lia)). apply eqm_cong in Hg; [|unfold modulus; lia]. unfold modulus in Hg. rewrite (Nat.eqb_sym t). destruct (Nat.eqb (j / Alpha pp) t); destruct x as [|x]; cbn; auto; reflexivity.
Qed.
Lemma mul_sem : exists E1 Zv E2 E3 DZ w, mulspec env l L0 L1 D0 D1 bK dK vK U E1 Zv E2 E3 DZ /\
  pnorm_le N (pscale (bigP pp) w) (mul_noise_bound N (Z.of_nat (length L0)) (Z.of_nat (length L1)) (Z.of_nat (Bt l)) Bs Be Dm (bigP pp)) /\
  forall c0 c1 j, (j <= l)%nat ->
    peq N (nth j (pa_Q pp) 0)
      (padd (padd (pmul N c0 c1) (psumL E2 L0)) (padd (psumL (fun i => pmul N (s i) (padd (pmul N (f0 i) c1) (E3 i))) L0) (psumL (fun i => pmul N (s i) (padd (pmul N c0 (f1 i)) (E1 i))) L1)))
      (padd (pmul N (padd c0 (psumL (fun i => pmul N (s i) (f0 i)) L0)) (padd c1 (psumL (fun i => pmul N (s i) (f1 i)) L1))) w).
Proof.
  assert (HN : (0 < N)%nat) by apply deg_pos.
  destruct (choose_str (pzero, pzero) L1 (fun id CR => is_ep env l (gsum env l (gvec env dK D0 L0) (D1 id)) (fst CR) /\ peq N 0 (pscale (bigP pp) (fst CR)) (psub (gsum env l (gvec env dK D0 L0) (D1 id)) (snd CR)) /\ pnorm_le N (snd CR) (2 * bigP pp))) as (F1 & HF1).
  { intros id _. destruct (finishEP_ok env He l (gsum env l (gvec env dK D0 L0) (D1 id)) Hl) as (C & R & H). now exists (C, R). }
  destruct (choose_str (pzero, pzero) L0 (fun id CR => is_ep env l (gsum env l (gvec env bK D1 L1) (D0 id)) (fst CR) /\ peq N 0 (pscale (bigP pp) (fst CR)) (psub (gsum env l (gvec env bK D1 L1) (D0 id)) (snd CR)) /\ pnorm_le N (snd CR) (2 * bigP pp))) as (FZ & HFZ).
  { intros id _. destruct (finishEP_ok env He l (gsum env l (gvec env bK D1 L1) (D0 id)) Hl) as (C & R & H). now exists (C, R). }
  set (Zv := fun id => fst (FZ id)).
  destruct (choose_str (fun _ => pzero) L0 (fun id D => digits env l (plimbs rQ (l + 1) (Zv id)) D)) as (DZ & HDZ). { intros id _. now apply cdigits_exist. }
  destruct (choose_str (pzero, pzero) L0 (fun id CR => is_ep env l (gsum env l (vK id) (DZ id)) (fst CR) /\ peq N 0 (pscale (bigP pp) (fst CR)) (psub (gsum env l (vK id) (DZ id)) (snd CR)) /\ pnorm_le N (snd CR) (2 * bigP pp))) as (F2 & HF2).
  { intros id _. destruct (finishEP_ok env He l (gsum env l (vK id) (DZ id)) Hl) as (C & R & H). now exists (C, R). }
  destruct (choose_str (pzero, pzero) L0 (fun id CR => is_ep env l (gsum env l U (DZ id)) (fst CR) /\ peq N 0 (pscale (bigP pp) (fst CR)) (psub (gsum env l U (DZ id)) (snd CR)) /\ pnorm_le N (snd CR) (2 * bigP pp))) as (F3 & HF3).
  { intros id _. destruct (finishEP_ok env He l (gsum env l U (DZ id)) Hl) as (C & R & H). now exists (C, R). }
  set (E1 := fun id => fst (F1 id)). set (E2 := fun id => fst (F2 id)). set (E3 := fun id => fst (F3 id)).
  set (ts := seq 0 (Bt l)).
  exists E1, Zv, E2, E3, DZ, (wnoise N ts L0 L1 G s r D0 D1 DZ E1 Zv E2 E3). split; [|split].
  - constructor; intros id Hid; [apply (HF1 id Hid)|apply (HFZ id Hid)|apply (HDZ id Hid)|apply (HF2 id Hid)|apply (HF3 id Hid)].
  - eapply pnorm_peq; [symmetry; apply (mul_noise N HN ts (bigP pp) L0 L1 G A U s r eb ed ev D0 D1 DZ E1 Zv E2 E3 (fun i => snd (F1 i)) (fun i => snd (FZ i)) (fun i => snd (F2 i)) (fun i => snd (F3 i)))|].
    + intros j Hj. apply (HF1 j Hj).
    + intros j Hj. apply (HFZ j Hj).
    + intros j Hj. apply (HF2 j Hj).
    + intros j Hj. apply (HF3 j Hj).
    + change (mul_noise_bound N (Z.of_nat (length L0)) (Z.of_nat (length L1)) (Z.of_nat (Bt l)) Bs Be Dm (bigP pp)) with (mul_bound N (Z.of_nat (length L0)) (Z.of_nat (length L1)) (Z.of_nat (Bt l)) Bs Be Dm (bigP pp)).
      replace (Z.of_nat (Bt l)) with (Z.of_nat (length ts)) by (unfold ts; now rewrite seq_length).
      apply mul_norm; auto.
      * intros i t Hi Ht. apply in_seq in Ht. apply Herr; auto; lia.
      * intros i t Hi Ht. apply in_seq in Ht. apply HD0n; auto; lia.
      * intros i t Hi Ht. apply in_seq in Ht. apply HD1n; auto; lia.
      * intros i t Hi Ht. apply in_seq in Ht. eapply pnorm_le_trans; [apply (digit_bound_ok l Dm t HDm Hl); lia|]. eapply (digits_norm env He); [apply (HDZ i Hi)|lia].
      * intros i Hi. apply (HF1 i Hi).
      * intros i Hi. split; [|split]; [apply (HFZ i Hi)|apply (HF2 i Hi)|apply (HF3 i Hi)].
  - intros c0 c1 j Hj. apply (mul_phase N HN (nth j (pa_Q pp) 0) ts (j / Alpha pp)%nat L0 L1 G s r D0 D1 DZ E1 Zv E2 E3 f0 f1 c0 c1).
    + apply seq_NoDup.
    + apply in_seq. pose proof (Beta_cover env He l j Hl Hj). lia.
    + intros t Ht. apply in_seq in Ht. apply gadget_row; auto. lia.
    + intros; now apply HD0c.
    + intros; now apply HD1c.
    + intros i Hi. eapply (digits_cong env He); [exact Hl|apply (HDZ i Hi)|apply plimbs_prep|exact Hj]; [apply (po_rQ _ Hpp)|unfold QCount in Hl; cbn [r_mods ringQ]; lia].
Qed.
End Sem.

(** digits of the components of op: their source, size and recombination at level l *)
Definition dig_ok (l : nat) (h : option hoisted) (op : ciphertext) (f : string -> zpoly) (D : string -> nat -> zpoly) (Dm : Z) (L : list string) : Prop :=
  forall id, In id L -> osrc env l h op id (D id) /\ (forall t, (t < Bt l)%nat -> pnorm_le N (D id t) Dm) /\
    forall j, (j <= l)%nat -> peq N (nth j (pa_Q pp) 0) (D id (j / Alpha pp)%nat) (f id).
Lemma dig_plain l l0 op f Dm L : (l <= l0)%nat -> (l0 < QCount pp)%nat -> digit_bound pp Dm ->
  (forall id, In id L -> exists p, sget op id = Some p /\ prep rQ (fun q => q + 1) (l0 + 1) (p_co p) (f id) /\ p_ntt p = false /\ shp N (p_co p)) ->
  exists D, dig_ok l None op f D Dm L.
Proof.
  intros Hll Hl0 HDm H. assert (Hl : (l < QCount pp)%nat) by lia.
  destruct (choose_str (fun _ => pzero) L (fun id D => exists p, sget op id = Some p /\ digits env l (p_co p) D)) as (D & HD).
  { intros id Hin. destruct (H id Hin) as (p & E & HP & _ & Hs). destruct (digits_exist env He l (p_co p) Hl) as (D & HD).
    - apply (prep_input env l (p_co p) (f id) (fun q => q + 1) Hl Hs); [|intros; lia]. apply (prep_le rQ _ (l0 + 1)); [|auto]. lia.
    - exists D, p. auto. }
  exists D. intros id Hin. destruct (HD id Hin) as (p & E & Hd). destruct (H id Hin) as (p' & E' & HP & Hf & Hs). rewrite E in E'. injection E' as <-.
  split; [|split].
  - exists p. split; [auto|]. now apply dsrc_coeff.
  - intros t Ht. eapply pnorm_le_trans; [apply (digit_bound_ok l Dm t HDm Hl Ht)|]. eapply (digits_norm env He); eauto.
  - intros j Hj. eapply (digits_cong env He l (p_co p) (D id) (f id) j (fun q => q + 1)); auto. apply (prep_le rQ _ (l0 + 1)); [|auto]. lia.
Qed.
(** hoisted digits of level l0 used at level l *)
Lemma dig_hoist l l0 op h f D0 Dm L : (l <= l0)%nat -> (l0 < QCount pp)%nat -> digit_bound pp Dm ->
  (forall id, In id L -> exists p s, sget op id = Some p /\ prep rQ (fun q => q + 1) (l0 + 1) (p_co p) (f id) /\ digits env l0 (p_co p) (D0 id) /\
     sget h id = Some s /\ rows env l0 s (D0 id)) -> dig_ok l (Some h) op f D0 Dm L.
Proof.
  intros Hll Hl0 HDm H id Hin. assert (Hl : (l < QCount pp)%nat) by lia. destruct (H id Hin) as (p & s & E & HP & Hd & Es & HR).
  pose proof (Beta_mono env He l l0 Hll Hl0) as HB. split; [|split].
  - exists s. split; [auto|]. intros t Ht. destruct (HR t ltac:(lia)) as [G1 G2]. split; [auto|]. eapply qrep_le; eauto.
  - intros t Ht. eapply pnorm_le_trans; [apply (digit_bound_ok l0 Dm t HDm Hl0 ltac:(lia))|]. eapply (digits_norm env He); [eauto|lia].
  - intros j Hj. eapply (digits_cong env He l0 (p_co p) (D0 id) (f id) j (fun q => q + 1)); auto. lia.
Qed.

Lemma rowsb_of_krowsb l v B B' : (l < QCount pp)%nat -> krowsb pp v B -> (forall t, (t < Bt l)%nat -> peq N 0 (B t) (B' t)) -> rowsb env l v B'.
Proof.
  intros Hl [H1 H2] HE t Ht. pose proof (Beta_max env He l Hl) as Hm. assert (Hlm : (l <= maxLevel pp)%nat) by (unfold maxLevel; pose proof (po_Q _ Hpp); lia).
  split; [destruct H1 as [-> _]; lia|]. specialize (H2 t ltac:(lia)). apply (qrepb_le _ _ l) in H2; [|auto].
  assert (G : peq N 0 (pscale W (B t)) (pscale W (B' t))) by (now rewrite (HE t Ht)).
  destruct H2 as [Q1 Q2]. split.
  - eapply nrepb_peq; [apply (po_rQ _ Hpp)| |exact Q1]. intros j _. now apply peq_0.
  - eapply nrepb_peq; [apply (po_rP _ Hpp)| |exact Q2]. intros j _. now apply peq_0.
Qed.
Lemma krows_krowsb v B : krows pp v B -> krowsb pp v B.
Proof. intros [H1 H2]. split; [auto|]. intros t Ht. apply qrep_qrepb. auto. Qed.
Lemma phase_lift l s ct f j : NoDup (mkeys ct) -> (forall id, In id (mkeys ct) -> exists p b, sget ct id = Some p /\ prep rQ b (l + 1) (p_co p) (f id)) -> (j <= l)%nat ->
  peq N (nth j (pa_Q pp) 0) (phase N s ct j) (psumL (fun id => pmul N (secret s id) (f id)) (mkeys ct)).
Proof.
  intros _ H Hj. unfold phase. apply psumL_ext. intros id Hin. destruct (H id Hin) as (p & b & E & HP). now rewrite (limb_prep l b ct id p (f id) j E HP Hj).
Qed.
Lemma phase_split M s (f : string -> zpoly) keys L : NoDup keys -> In "0"%string keys -> NoDup L -> (forall x, In x L <-> In x keys /\ x <> "0"%string) ->
  peq N M (psumL (fun id => pmul N (secret s id) (f id)) keys) (padd (f "0"%string) (psumL (fun id => pmul N (s id) (f id)) L)).
Proof.
  intros H1 H2 H3 H4. assert (HN : (0 < N)%nat) by apply deg_pos. rewrite (psumL_perm N M _ keys ("0"%string :: L)).
  - cbn [psumL]. apply padd_proper; [change (secret s "0") with pone; now apply pmul_one_l|]. apply psumL_ext. intros id Hin. unfold secret. apply H4 in Hin as [_ Hne]. now rewrite (proj2 (String.eqb_neq id "0") Hne).
  - apply NoDup_Permutation; [auto|constructor; [|auto]; intros Hin; apply H4 in Hin as [_ ?]; congruence|]. intros x. cbn. rewrite H4. destruct (string_dec x "0") as [->|]; [tauto|]. intuition congruence.
Qed.

Definition ids_of_ct (ct : ciphertext) : list string := filter (fun x => negb (String.eqb x "0")) (mkeys ct).
Lemma ids_of_ct_ok ct : NoDup (mkeys ct) -> ids_of ct (ids_of_ct ct).
Proof. intros H. split; [now apply NoDup_filter|]. intros x. unfold ids_of_ct. rewrite filter_In, negb_true_iff, String.eqb_neq. tauto. Qed.
Lemma ct_level l ct : ct_ok pp l ct -> ctLevel ct = Ok l.
Proof.
  intros H. destruct (mget_ex _ seqb ct _ (ck_0 _ _ _ H)) as (p & E). destruct (ck_comp _ _ _ H _ _ E) as (_ & HL & _). unfold ctLevel, mptr. rewrite E. cbn [bind]. rewrite HL, Nat.add_1_r. reflexivity.
Qed.
Lemma psumL_restrict_mul M s (F : string -> zpoly) L L0 : NoDup L -> NoDup L0 -> incl L0 L ->
  peq N M (psumL (fun x => pmul N (s x) (if inb x L0 then F x else pzero)) L) (psumL (fun x => pmul N (s x) (F x)) L0).
Proof.
  intros H1 H2 H3. rewrite <- (psumL_restrict N M (fun x => pmul N (s x) (F x)) L L0 H1 H2 H3). apply psumL_ext. intros x _. destruct (inb x L0); [reflexivity|]. apply pmul_zero_r. apply deg_pos.
Qed.

Lemma pnew_shp : pshp pp (ringPoly rQ).
Proof. pose proof (KeyGenProofs.newQP_shp pp) as H. apply H. Qed.
Lemma NewKS_pool lz : pool_ok pp (snd (NewKeySwitcher lz pp)).
Proof.
  pose proof (KeyGenProofs.newQP_shp pp) as H. pose proof pnew_shp as H2. pose proof (KeyGenProofs.NewSwk_ok pp) as H3. constructor; cbn; auto.
Qed.
Section Main.
Context (op0 op1 : ciphertext) (l0 l1 l : nat) (rlks : rlkset) (g : nat -> Z) (A U : nat -> zpoly) (s r : string -> zpoly) (Bs Be Dm : Z).
Hypothesis H0 : ct_ok pp l0 op0.
Hypothesis H1 : ct_ok pp l1 op1.
Hypothesis Hl0 : (l <= l0 < QCount pp)%nat.
Hypothesis Hl1 : (l <= l1 < QCount pp)%nat.
Hypothesis Hg : gadget pp g.
Hypothesis HU : crs_is pp (-1) U.
Hypothesis Hs : forall id, party op0 id \/ party op1 id -> pnorm_le N (s id) Bs /\ pnorm_le N (r id) Bs.
Hypothesis Hrl : forall id, party op0 id \/ party op1 id -> exists rl, sget rlks id = Some rl /\ rlk_valid pp g A U Be (s id) (r id) rl.
Hypothesis HDm : digit_bound pp Dm.
Let L0 := ids_of_ct op0.
Let L1 := ids_of_ct op1.

(** the way hoisted arguments are given: absent, or the digits computed at the operand's own level *)
Definition hoist_ok (lh : nat) (op : ciphertext) (h : option hoisted) : Prop :=
  match h with
  | None => True
  | Some h => forall id p, sget op id = Some p -> id <> "0"%string -> exists s D, sget h id = Some s /\ digits env lh (p_co p) D /\ rows env lh s D
  end.
Lemma dig_any lh op h f : (l <= lh < QCount pp)%nat -> ct_ok pp lh op ->
  (forall id, In id (mkeys op) -> exists p, sget op id = Some p /\ prep rQ (fun q => q + 1) (lh + 1) (p_co p) (f id) /\ p_ntt p = false /\ plen p = (lh + 1)%nat /\ shp N (p_co p)) ->
  hoist_ok lh op h -> exists D, dig_ok l h op f D Dm (ids_of_ct op).
Proof.
  intros Hlh Hc Hf Hh. assert (Hids : forall id, In id (ids_of_ct op) <-> In id (mkeys op) /\ id <> "0"%string) by (apply ids_of_ct_ok, Hc). destruct h as [h|].
  - destruct (choose_str (fun _ => pzero) (ids_of_ct op) (fun id D => exists p s, sget op id = Some p /\ prep rQ (fun q => q + 1) (lh + 1) (p_co p) (f id) /\ digits env lh (p_co p) D /\
     sget h id = Some s /\ rows env lh s D)) as (D & HD).
    + intros id Hin. apply Hids in Hin as [Hin Hne]. destruct (Hf id Hin) as (p & E & HP & _). destruct (Hh id p E Hne) as (s0 & D & Es & Hd & HR). exists D, p, s0. auto.
    + exists D. apply (dig_hoist l lh); auto; lia.
  - apply (dig_plain l lh); auto; try lia. intros id Hin. apply Hids in Hin as [Hin _]. destruct (Hf id Hin) as (p & E & HP & Hn & _ & Hsh). exists p. auto.
Qed.

Definition mul_good (ctOut ct' : ciphertext) (w : zpoly) : Prop :=
  ct_ok pp l ct' /\ mkeys ct' = mkeys ctOut /\
  (forall id p, sget ct' id = Some p -> forall j x, (j <= l)%nat -> (x < N)%nat -> nth x (nth j (p_co p) []) 0 < nth j (pa_Q pp) 0) /\
  forall j, (j <= l)%nat -> peq N (nth j (pa_Q pp) 0) (phase N s ct' j) (padd (pmul N (phase N s op0 j) (phase N s op1 j)) w).

Definition same_out (ctOut ct' : ciphertext) (D0 D1 : string -> nat -> zpoly) : Prop :=
  forall o k, order_ok o -> pool_ok pp k ->
    (forall h0 h1, (forall id, In id L0 -> osrc env l h0 op0 id (D0 id)) -> (forall id, In id L1 -> osrc env l h1 op1 id (D1 id)) ->
       exists k', MulAndRelinHoisted env o op0 op1 h0 h1 rlks ctOut k = Ok (ct', k') /\ pool_ok pp k') /\
    ((forall id, In id L0 -> osrc env l None op0 id (D0 id)) -> (forall id, In id L1 -> osrc env l None op1 id (D1 id)) ->
       exists k', MulAndRelin env o op0 op1 rlks ctOut k = Ok (ct', k') /\ pool_ok pp k').
(** the components of the output are given by polynomials F that do not depend on the receiver *)
Lemma mul_all h0 h1 f0 f1 D0 D1 :
  (forall id, In id (mkeys op0) -> exists p, sget op0 id = Some p /\ prep rQ (fun q => q + 1) (l0 + 1) (p_co p) (f0 id) /\ p_ntt p = false /\ plen p = (l0 + 1)%nat /\ shp N (p_co p)) ->
  (forall id, In id (mkeys op1) -> exists p, sget op1 id = Some p /\ prep rQ (fun q => q + 1) (l1 + 1) (p_co p) (f1 id) /\ p_ntt p = false /\ plen p = (l1 + 1)%nat /\ shp N (p_co p)) ->
  dig_ok l h0 op0 f0 D0 Dm L0 -> dig_ok l h1 op1 f1 D1 Dm L1 ->
  exists (F : string -> zpoly) w, pnorm_le N (pscale (bigP pp) w) (mul_noise_bound N (Z.of_nat (length L0)) (Z.of_nat (length L1)) (Z.of_nat (Bt l)) Bs Be Dm (bigP pp)) /\
    forall ctOut, ct_ok pp l ctOut -> (forall id, In id (mkeys ctOut) <-> In id (mkeys op0) \/ In id (mkeys op1)) ->
    exists ct', mul_good ctOut ct' w /\ same_out ctOut ct' D0 D1 /\ forall id, In id (mkeys ctOut) -> exists p, sget ct' id = Some p /\ prep rQ (fun q => q) (l + 1) (p_co p) (F id).
Proof.
  intros Hf0 Hf1 HD0 HD1. assert (HN : (0 < N)%nat) by apply deg_pos. assert (Hl : (l < QCount pp)%nat) by lia.
  pose proof (ids_of_ct_ok op0 (ck_nd _ _ _ H0)) as [N0 I0]. pose proof (ids_of_ct_ok op1 (ck_nd _ _ _ H1)) as [N1 I1]. fold L0 in N0, I0. fold L1 in N1, I1.
  assert (HP : forall id, In id L0 \/ In id L1 -> party op0 id \/ party op1 id) by (intros id [H|H]; [left; now apply I0|right; now apply I1]).
  destruct (choose_str (fun _ => (pzero, (pzero, pzero))) (L0 ++ L1) (fun id E => exists rl, sget rlks id = Some rl /\
     (forall t, (t < Bt (maxLevel pp))%nat -> pnorm_le N (fst (E t)) Be /\ pnorm_le N (fst (snd (E t))) Be /\ pnorm_le N (snd (snd (E t))) Be) /\
     krows pp (rl_b rl) (fun t => psub (fst (E t)) (pmul N (s id) (A t))) /\
     krows pp (rl_d rl) (fun t => psub (padd (fst (snd (E t))) (gmsg pp g t (s id))) (pmul N (r id) (A t))) /\
     krowsb pp (rl_v rl) (fun t => popp (padd (padd (snd (snd (E t))) (gmsg pp g t (r id))) (pmul N (s id) (U t)))))) as (E & HE).
  { intros id Hin. apply in_app_or in Hin. destruct (Hrl id (HP id Hin)) as (rl & Er & eb & ed & ev & He1 & He2). exists (fun t => (eb t, (ed t, ev t))), rl. auto. }
  set (eb := fun id t => fst (E id t)). set (ed := fun id t => fst (snd (E id t))). set (ev := fun id t => popp (snd (snd (E id t)))).
  pose proof (Beta_max env He l Hl) as Hbm.
  destruct (mul_sem l L0 L1 f0 f1 D0 D1 g A U s r eb ed ev Bs Be Dm) as (E1 & Zv & E2 & E3 & DZ & w & HM & Hw & Hph); auto.
  { intros i t Hi Ht. destruct (HE i) as (rl & _ & Hn & _); [now apply in_or_app|]. destruct (Hn t ltac:(lia)) as (Q1 & Q2 & Q3). split; [auto|]. split; [auto|]. now apply pnorm_opp. }
  { intros i t Hi Ht. now apply HD0. } { intros i t Hi Ht. now apply HD1. } { intros i j Hi Hj. now apply HD0. } { intros i j Hi Hj. now apply HD1. }
  destruct HU as (usk & Eu & Hu1 & Hu2).
  assert (Hrk : rlks_ok env l rlks (L0 ++ L1) (bK A s eb) (dK g A s r ed) (vK g U s r ev)).
  { intros id Hin. destruct (HE id Hin) as (rl & Er & _ & K1 & K2 & K3). exists rl. split; [auto|]. split; [|split].
    - eapply rowsb_of_krowsb; [exact Hl|apply krows_krowsb, K1|]. intros t _. reflexivity.
    - eapply rowsb_of_krowsb; [exact Hl|apply krows_krowsb, K2|]. intros t _. unfold dK, gmsg. intros i _. unfold padd, psub. apply cong_eq. unfold ed. ring.
    - eapply rowsb_of_krowsb; [exact Hl|exact K3|]. intros t _. unfold vK, gmsg. intros i _. unfold padd, psub, popp. apply cong_eq. unfold ev, popp. ring. }
  assert (Hu3 : rowsb env l usk U). { apply (rowsb_of_krowsb l usk U U Hl); [apply krows_krowsb; split; auto|]. intros; reflexivity. }
  assert (Hf0' : forall id, id = "0"%string \/ In id L0 -> oprep env l op0 id (f0 id)).
  { intros id Hid. destruct (Hf0 id) as (p & Ep & HPp & _). { destruct Hid as [->|Hid]; [apply H0|now apply I0]. } exists p, (fun q => q + 1). split; [auto|]. apply (prep_le rQ _ (l0 + 1)); [lia|auto]. }
  assert (Hf1' : forall id, id = "0"%string \/ In id L1 -> oprep env l op1 id (f1 id)).
  { intros id Hid. destruct (Hf1 id) as (p & Ep & HPp & _). { destruct Hid as [->|Hid]; [apply H1|now apply I1]. } exists p, (fun q => q + 1). split; [auto|]. apply (prep_le rQ _ (l1 + 1)); [lia|auto]. }
  exists (mulout env f0 f1 E1 E2 E3 L0 L1), w. split; [exact Hw|]. intros ctOut HO Hkeys.
  assert (Hct : ctout_ok l (mkeys ctOut) ctOut).
  { split; [reflexivity|]. split; [apply HO|]. intros id Hin. destruct (mget_ex _ seqb ctOut id Hin) as (p & Ep). exists p. split; [auto|]. destruct (ck_comp _ _ _ HO id p Ep) as (_ & -> & _). lia. }
  assert (Hk2 : forall id, In id (mkeys ctOut) <-> id = "0"%string \/ In id L0 \/ In id L1).
  { intros id. rewrite Hkeys, I0, I1. destruct (string_dec id "0") as [->|Hne]; [|tauto]. split; [auto|]. intros _. left. apply H0. }
  pose proof (ct_level l ctOut HO) as HlO. pose proof (ct_level l0 op0 H0) as Hlev0.
  (* the output limbs are determined by what they represent *)
  assert (HR : forall ct', ctall (mkeys ctOut) ct' (fun id p => base l ctOut id p /\ prep rQ (fun q => q) (l + 1) (p_co p) (mulout env f0 f1 E1 E2 E3 L0 L1 id)) -> mul_good ctOut ct' w).
  { intros ct' [Hk' Hc']. split; [|split; [exact Hk'|split]].
    - constructor; [rewrite Hk'; apply HO|rewrite Hk'; apply HO|]. intros id p Ep. assert (Hin : In id (mkeys ctOut)) by (rewrite <- Hk'; eapply (mget_key _ seqb); eauto).
      destruct (Hc' id Hin) as (p' & Ep' & (p0 & E0 & Hb) & HPr). rewrite Ep in Ep'. injection Ep' as <-. destruct (ck_comp _ _ _ HO id p0 E0) as (B1 & B2 & _).
      split; [destruct Hb as (-> & _); auto|]. split; [rewrite (wrote_len Hb); auto|]. intros j Hj. destruct HPr as (_ & _ & HPr). destruct (HPr j ltac:(lia)) as [G1 G2]. split; [exact G1|].
      intros x Hx. destruct (G2 x Hx) as [G3 _]. cbn [r_mods ringQ] in G3. lia.
    - intros id p Ep j x Hj Hx. assert (Hin : In id (mkeys ctOut)) by (rewrite <- Hk'; eapply (mget_key _ seqb); eauto).
      destruct (Hc' id Hin) as (p' & Ep' & _ & (_ & _ & HPr)). rewrite Ep in Ep'. injection Ep' as <-. destruct (HPr j ltac:(lia)) as [_ G2]. destruct (G2 x Hx) as [G3 _]. cbn [r_mods ringQ] in G3. lia.
    - intros j Hj. set (q := nth j (pa_Q pp) 0).
      rewrite (phase_lift l s ct' (mulout env f0 f1 E1 E2 E3 L0 L1) j); [|rewrite Hk'; apply HO|intros id Hin; rewrite Hk' in Hin; destruct (Hc' id Hin) as (p & Ep & _ & HPr); eauto|auto].
      rewrite (phase_lift l0 s op0 f0 j); [|apply H0|intros id Hin; destruct (Hf0 id Hin) as (p & Ep & HPr & _); eauto|lia].
      rewrite (phase_lift l1 s op1 f1 j); [|apply H1|intros id Hin; destruct (Hf1 id Hin) as (p & Ep & HPr & _); eauto|lia].
      fold q. rewrite Hk'. rewrite (phase_split q s f0 (mkeys op0) L0) by (auto; apply H0). rewrite (phase_split q s f1 (mkeys op1) L1) by (auto; apply H1).
      pose proof (ids_of_ct_ok ctOut (ck_nd _ _ _ HO)) as [NO IO]. rewrite (phase_split q s _ (mkeys ctOut) (ids_of_ct ctOut)) by (auto; apply HO).
      rewrite <- (Hph (f0 "0"%string) (f1 "0"%string) j Hj). fold q.
      assert (HI0 : incl L0 (ids_of_ct ctOut)) by (intros x Hx; apply IO; rewrite Hk2; split; [auto|now apply I0]).
      assert (HI1 : incl L1 (ids_of_ct ctOut)) by (intros x Hx; apply IO; rewrite Hk2; split; [auto|now apply I1]).
      apply padd_proper; [unfold mulout, tens; cbn [String.eqb]; reflexivity|].
      rewrite <- (psumL_restrict_mul q s (fun i => padd (pmul N (f0 i) (f1 "0"%string)) (E3 i)) (ids_of_ct ctOut) L0 NO N0 HI0).
      rewrite <- (psumL_restrict_mul q s (fun i => padd (pmul N (f0 "0"%string) (f1 i)) (E1 i)) (ids_of_ct ctOut) L1 NO N1 HI1).
      rewrite <- psumL_add. apply psumL_ext. intros x Hx. apply IO in Hx as [_ Hne]. rewrite <- (pmul_padd_r N q HN).
      apply pmul_proper; [reflexivity|]. unfold mulout, tens. rewrite (proj2 (String.eqb_neq x "0") Hne).
      destruct (inb x L0), (inb x L1); intros i _; unfold padd, pzero; apply cong_eq; ring. }
  assert (Hosrc0 : forall id, In id L0 -> osrc env l h0 op0 id (D0 id)) by (intros; now apply HD0).
  assert (Hosrc1 : forall id, In id L1 -> osrc env l h1 op1 id (D1 id)) by (intros; now apply HD1).
  assert (HU2 : forall ct1 ct2, ctall (mkeys ctOut) ct1 (fun id p => base l ctOut id p /\ prep rQ (fun q => q) (l + 1) (p_co p) (mulout env f0 f1 E1 E2 E3 L0 L1 id)) ->
     ctall (mkeys ctOut) ct2 (fun id p => base l ctOut id p /\ prep rQ (fun q => q) (l + 1) (p_co p) (mulout env f0 f1 E1 E2 E3 L0 L1 id)) -> ct1 = ct2).
  { intros ct1 ct2 [K1 C1] [K2 C2]. apply mget_eq; [congruence|rewrite K1; apply HO|]. intros id Hin. rewrite K1 in Hin.
    destruct (C1 id Hin) as (p1 & Ep1 & (b1 & Eb1 & W1) & P1). destruct (C2 id Hin) as (p2 & Ep2 & (b2 & Eb2 & W2) & P2). rewrite Ep1, Ep2. rewrite Eb1 in Eb2. injection Eb2 as <-.
    f_equal. destruct (ck_comp _ _ _ HO id b1 Eb1) as (_ & HLb & _). destruct W1 as (F1 & F2 & _), W2 as (F3 & F4 & _). destruct p1 as [n1 c1], p2 as [n2 c2]. cbn in *. subst n1 n2. f_equal. unfold plen in *. cbn in *.
    apply (nth_ext _ _ [] []); [lia|]. intros j Hj. apply (prep_unique rQ (l + 1) c1 c2 _ _ j P1 P2); [lia|reflexivity]. }
  pose proof (NewKS_pool (e_lz env)) as Hk0.
  assert (HALL : exists ct', ctall (mkeys ctOut) ct' (fun id p => base l ctOut id p /\ prep rQ (fun q => q) (l + 1) (p_co p) (mulout env f0 f1 E1 E2 E3 L0 L1 id))).
  { destruct (MulRelinH_ok env He (fun _ x => x) l l0 op0 op1 ctOut L0 L1 (mkeys ctOut) rlks usk f0 f1 D0 D1 _ _ _ DZ U E1 Zv E2 E3 (snd (NewKeySwitcher (e_lz env) pp)) (fun _ _ => Permutation_refl _) Hl HlO Hlev0 ltac:(lia) (conj N0 I0) (conj N1 I1) Hf0' Hf1' Hrk Eu Hu3 HM Hct Hk2 Hk0 h0 h1 Hosrc0 Hosrc1) as (ct' & _ & _ & _ & HC). now exists ct'. }
  destruct HALL as (ct' & HC). exists ct'. split; [apply HR, HC|]. split; [|intros id Hid; destruct HC as [_ HC]; destruct (HC id Hid) as (p & Ep & _ & HP'); now exists p].
  intros o k Ho Hk. split.
  - intros h0' h1' HS0 HS1. destruct (MulRelinH_ok env He o l l0 op0 op1 ctOut L0 L1 (mkeys ctOut) rlks usk f0 f1 D0 D1 _ _ _ DZ U E1 Zv E2 E3 k Ho Hl HlO Hlev0 ltac:(lia) (conj N0 I0) (conj N1 I1) Hf0' Hf1' Hrk Eu Hu3 HM Hct Hk2 Hk h0' h1' HS0 HS1) as (ct2 & k' & EQ & Hk' & HC').
    exists k'. split; [|auto]. rewrite EQ. now rewrite (HU2 ct' ct2 HC HC').
  - intros HS0 HS1. destruct (MulRelin_ok env He o l l0 op0 op1 ctOut L0 L1 (mkeys ctOut) rlks usk f0 f1 D0 D1 _ _ _ DZ U E1 Zv E2 E3 k Ho Hl HlO Hlev0 ltac:(lia) (conj N0 I0) (conj N1 I1) Hf0' Hf1' Hrk Eu Hu3 HM Hct Hk2 Hk HS0 HS1) as (ct2 & k' & EQ & Hk' & HC').
    exists k'. split; [|auto]. rewrite EQ. now rewrite (HU2 ct' ct2 HC HC').
Qed.
Lemma mul_main ctOut : ct_ok pp l ctOut -> (forall id, In id (mkeys ctOut) <-> In id (mkeys op0) \/ In id (mkeys op1)) -> forall h0 h1 f0 f1 D0 D1,
  (forall id, In id (mkeys op0) -> exists p, sget op0 id = Some p /\ prep rQ (fun q => q + 1) (l0 + 1) (p_co p) (f0 id) /\ p_ntt p = false /\ plen p = (l0 + 1)%nat /\ shp N (p_co p)) ->
  (forall id, In id (mkeys op1) -> exists p, sget op1 id = Some p /\ prep rQ (fun q => q + 1) (l1 + 1) (p_co p) (f1 id) /\ p_ntt p = false /\ plen p = (l1 + 1)%nat /\ shp N (p_co p)) ->
  dig_ok l h0 op0 f0 D0 Dm L0 -> dig_ok l h1 op1 f1 D1 Dm L1 ->
  exists ct' w, pnorm_le N (pscale (bigP pp) w) (mul_noise_bound N (Z.of_nat (length L0)) (Z.of_nat (length L1)) (Z.of_nat (Bt l)) Bs Be Dm (bigP pp)) /\
    mul_good ctOut ct' w /\ same_out ctOut ct' D0 D1.
Proof.
  intros HO Hkeys h0 h1 f0 f1 D0 D1 A1 A2 A3 A4. destruct (mul_all h0 h1 f0 f1 D0 D1 A1 A2 A3 A4) as (F & w & Hw & HF). destruct (HF ctOut HO Hkeys) as (ct' & G1 & G2 & _). now exists ct', w.
Qed.
End Main.
End Env.
