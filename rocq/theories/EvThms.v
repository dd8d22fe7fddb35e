(** Phases of evaluator results; rescaling theorems. *)
From Coq Require Import String ZArith Znumtheory List Lia Setoid Morphisms Bool Permutation.
From Verif Require Import Spec SpecProofs Go GoProofs Lattigo LattigoProofs Arith Fermat NegRing NegRingProofs NTT NTTProofs F64 BasisExt BasisExtProofs ModDownProofs DecomposeProofs RingOps RingOpsProofs Maps MapsProofs Params Elements KeySwitch KeySets EncDec Utils Evaluator KSProofs KSMulProofs Crt ParamsProofs KSAlg KSNorm Repr SpecCt KSSem SpecEnc EncProofs EncThms CkEncThms SpecEv EvProofs RescaleProofs.
Import ListNotations.
Local Open Scope Z_scope.
Local Open Scope list_scope.

Section Ph.
Context (pp : params) (Hpp : params_ok pp).
Notation N := (pa_N pp).
Let HN : (0 < N)%nat := deg_pos _.

Lemma limb_none ct id j : ~ In id (mkeys ct) -> forall x, limb ct id j x = 0.
Proof. intros H x. unfold limb. destruct (sget ct id) eqn:E; auto. exfalso. apply H. eapply mget_key; eauto. exact seqb. Qed.
Lemma phase_over M s ct j K : NoDup (mkeys ct) -> NoDup K -> (forall x, In x (mkeys ct) -> In x K) ->
  peq N M (phase N s ct j) (psumL (fun id => pmul N (secret s id) (limb ct id j)) K).
Proof.
  intros H1 H2 H3. unfold phase. rewrite <- (psumL_restrict N M _ K (mkeys ct) H2 H1 H3). apply psumL_ext. intros x _. destruct (inb x (mkeys ct)) eqn:E; [reflexivity|].
  assert (~ In x (mkeys ct)) as Hn by (intros X; apply inb_In in X; congruence). symmetry. transitivity (pmul N (secret s x) pzero); [|now apply pmul_zero_r]. apply pmul_proper; [reflexivity|].
  intros y _. rewrite (limb_none ct x j Hn). reflexivity.
Qed.
Lemma phase_same s a b j M : same_ct a b -> peq N M (phase N s a j) (phase N s b j).
Proof.
  intros H. pose proof H as (H1 & H2 & H3). rewrite (phase_over M s a j (mkeys b) H1 H2 (fun x => proj1 (same_ct_keys _ _ H x))). unfold phase. apply psumL_ext. intros x _. apply pmul_proper; [reflexivity|].
  intros y _. unfold limb. now rewrite H3.
Qed.
Lemma psumL_scale M c (F : string -> zpoly) K : peq N M (pscale c (psumL F K)) (psumL (fun x => pscale c (F x)) K).
Proof. induction K as [|a K IH]; cbn [psumL]; [intros x _; unfold pscale, pzero; apply cong_eq; ring|]. rewrite <- IH. intros x _. unfold pscale, padd. apply cong_eq. ring. Qed.
Lemma psumL_psub M (F G : string -> zpoly) K : peq N M (psumL (fun x => psub (F x) (G x)) K) (psub (psumL F K) (psumL G K)).
Proof. induction K as [|a K IH]; cbn [psumL]; [intros x _; unfold psub, pzero; apply cong_eq; ring|]. rewrite IH. intros x _. unfold psub, padd. apply cong_eq. ring. Qed.
Lemma psumL_padd M (F G : string -> zpoly) K : peq N M (psumL (fun x => padd (F x) (G x)) K) (padd (psumL F K) (psumL G K)).
Proof. induction K as [|a K IH]; cbn [psumL]; [intros x _; unfold padd, pzero; apply cong_eq; ring|]. rewrite IH. intros x _. unfold padd. apply cong_eq. ring. Qed.
Section MM.
Context (M : Z).
Add Ring rr : (peq_ring N M HN) (setoid (peq_equiv N M) (peq_ext N M)).
Lemma pmul_psub_r a b c : peq N M (pmul N a (psub b c)) (psub (pmul N a b) (pmul N a c)).
Proof. ring. Qed.
Lemma pmul_padd_r a b c : peq N M (pmul N a (padd b c)) (padd (pmul N a b) (pmul N a c)).
Proof. ring. Qed.
End MM.

Lemma nparties_ids ct : NoDup (mkeys ct) -> In "0"%string (mkeys ct) -> Z.of_nat (List.length (ids_of_ct ct)) = nparties ct.
Proof.
  intros H1 H2. unfold nparties. assert (P : Permutation (mkeys ct) ("0"%string :: ids_of_ct ct)).
  { apply NoDup_Permutation; auto. - constructor; [|now apply NoDup_filter]. unfold ids_of_ct. rewrite filter_In. intros [_ X]. discriminate.
    - intros x. cbn. unfold ids_of_ct. rewrite filter_In, negb_true_iff, String.eqb_neq. destruct (string_dec x "0") as [->|]; intuition congruence. }
  rewrite (Permutation_length P). cbn [List.length]. lia.
Qed.
(** the sum of the secrets times small components *)
Lemma small_sum s Bs B (R : string -> zpoly) ct : NoDup (mkeys ct) -> In "0"%string (mkeys ct) -> secrets_le pp s Bs ct -> (forall id, In id (mkeys ct) -> pnorm_le N (R id) B) ->
  pnorm_le N (psumL (fun id => pmul N (secret s id) (R id)) (mkeys ct)) (B + nparties ct * (Z.of_nat N * (Bs * B))).
Proof.
  intros H1 H2 Hs HR. pose proof (ids_of_ct_ok ct H1) as [I1 I2]. pose proof (pnorm_nonneg N _ _ HN (HR _ H2)) as HB. eapply pnorm_peq; [symmetry; apply (phase_split (default_env pp) 0 s R (mkeys ct) (ids_of_ct ct)); auto|]. change (e_pp (default_env pp)) with pp.
  apply pnorm_add; [now apply HR|]. rewrite <- (nparties_ids ct H1 H2). destruct (ids_of_ct ct) as [|a L] eqn:EL. { cbn. intros i _. cbn. lia. }
  assert (HBs : 0 <= Bs). { apply (pnorm_nonneg N (s a)); auto. apply Hs. apply I2. now left. }
  apply pnorm_psumL_le; [nia|lia|]. intros x Hx. apply I2 in Hx. apply pnorm_mul; [now apply Hs|apply HR; tauto].
Qed.
Lemma rescaled_phase l n cin cout s Bs : (n <= l)%nat -> (l < QCount pp)%nat -> NoDup (mkeys cin) -> In "0"%string (mkeys cin) -> rescaled pp l n cin cout -> secrets_le pp s Bs cin ->
  exists w, pnorm_le N w (rescale_noise N (nparties cin) Bs (dropped (pa_Q pp) l n)) /\ divided pp l n (phase N s cin) w (phase N s cout).
Proof.
  intros Hn Hl H1 H2 (Hc & Hk & R & HR) Hs. exists (psumL (fun id => pmul N (secret s id) (R id)) (mkeys cin)). split.
  - apply small_sum; auto. intros id Hi. apply (HR id Hi).
  - assert (HC : forall id, In id (mkeys cin) -> divcong pp l n (limb cin id) (R id) (limb cout id)) by (intros id Hi; apply divcong_divided; auto; apply (HR id Hi)).
    apply divcong_divided; auto. split.
    + intros j Hj. unfold phase. apply psumL_ext. intros id Hi. apply pmul_proper; [reflexivity|]. now apply (HC id Hi).
    + intros j Hj. rewrite (phase_over (modulus (pa_Q pp) j) s cout j (mkeys cin)); [|apply Hc|auto|intros x; apply Hk]. unfold phase at 1. rewrite psumL_scale, <- psumL_psub. apply psumL_ext. intros id Hi.
      rewrite <- pscale_mul_r, <- pmul_psub_r. apply pmul_proper; [reflexivity|]. now apply (HC id Hi).
Qed.
End Ph.

Section Rs.
Context (ce : ckenv).
Notation pp := (e_pp (ce_env ce)).
Context (He : env_ok (ce_env ce)).
Notation N := (pa_N pp).
Let Hpp : params_ok pp := eo_pp _ He.

Lemma NewEvaluator_ok o lz cp : params_ok (cp_pp cp) -> order_ok o -> let '(ce, st) := NewEvaluator o lz cp in env_ok (ce_env ce) /\ e_pp (ce_env ce) = cp_pp cp /\ ce_scale ce = cp_scale cp /\ ev_ok (cp_pp cp) st.
Proof.
  intros H Ho. unfold NewEvaluator. destruct (NewKeySwitcher lz (cp_pp cp)) as [e k] eqn:E. cbn. assert (Ee : e = fst (NewKeySwitcher lz (cp_pp cp))) by (rewrite E; reflexivity). assert (Ek : k = snd (NewKeySwitcher lz (cp_pp cp))) by (rewrite E; reflexivity).
  destruct (NewCiphertext_ok o (cp_pp cp) NewIDSet (maxLevel (cp_pp cp)) Ho) as (A1 & A2 & A3).
  split; [subst e; constructor; cbn; auto|]. split; [subst e; reflexivity|]. split; [reflexivity|]. constructor; cbn.
  - exact A1.
  - apply A2. now left.
  - intros id p Ep. rewrite (A3 id p Ep). unfold plen, newPoly. cbn. rewrite repeat_length. pose proof (po_Q _ H). unfold maxLevel. lia.
  - unfold plen, ringPoly, newPoly. cbn. now rewrite repeat_length.
  - subst k. apply (NewKS_pool (default_env (cp_pp cp))).
Qed.

Lemma zero_recipient o l ids : order_ok o -> recipient l (NewCiphertext o pp ids l).
Proof.
  intros Ho. destruct (NewCiphertext_ok o pp ids l Ho) as (A1 & A2 & A3). split; [exact A1|]. intros id p E. rewrite (A3 id p E). split; [reflexivity|]. unfold plen, newPoly. cbn. now rewrite repeat_length.
Qed.
Lemma NewCt_same o1 o2 ids1 ids2 l : order_ok o1 -> order_ok o2 -> (forall x, In x (mkeys ids1) <-> In x (mkeys ids2)) -> same_ct (NewCiphertext o1 pp ids1 l) (NewCiphertext o2 pp ids2 l).
Proof.
  intros Ho1 Ho2 H. destruct (NewCiphertext_ok o1 pp ids1 l Ho1) as (A1 & A2 & A3). destruct (NewCiphertext_ok o2 pp ids2 l Ho2) as (B1 & B2 & B3). split; [auto|]. split; [auto|]. intros id.
  assert (HK : In id (mkeys (NewCiphertext o1 pp ids1 l)) <-> In id (mkeys (NewCiphertext o2 pp ids2 l))) by (rewrite A2, B2, H; tauto).
  destruct (sget (NewCiphertext o1 pp ids1 l) id) as [p|] eqn:E1.
  - assert (X : In id (mkeys (NewCiphertext o1 pp ids1 l))) by (eapply mget_key; eauto; exact seqb). apply HK in X. destruct (mget_ex _ seqb _ _ X) as (q & E2). rewrite E2. f_equal. rewrite (A3 _ _ E1), (B3 _ _ E2). reflexivity.
  - destruct (sget (NewCiphertext o2 pp ids2 l) id) as [q|] eqn:E2; auto. exfalso. assert (X : In id (mkeys (NewCiphertext o2 pp ids2 l))) by (eapply mget_key; eauto; exact seqb). apply HK, (mget_In _ seqb) in X. congruence.
Qed.
Definition o_id : order := fun _ l => l.
Lemma o_id_ok : order_ok o_id. Proof. intros n l. apply Permutation_refl. Qed.

(** RescaleNew *)
Lemma rescale_new cin scale thr l n : (l < QCount pp)%nat -> ct_ok pp l cin -> ~ rescale_err l scale thr -> rescale_count (pa_Q pp) l scale (fdiv thr (f_of_Z 2)) n -> n <> O ->
  exists cout, rescaled pp l n cin cout /\ reduced pp (l - n) cout /\
    (forall s Bs, secrets_le pp s Bs cin -> exists w, pnorm_le N w (rescale_noise N (nparties cin) Bs (dropped (pa_Q pp) l n)) /\
       divided pp l n (phase N s cin) w (phase N s cout)) /\
    forall o st, order_ok o -> ev_ok pp st -> exists out st', RescaleNew ce o (mkCk cin scale) thr st = Ok (None, out, st') /\ same_ct (c_ct out) cout /\
      c_scale out = scale_after (pa_Q pp) l scale n /\ ev_ok pp st'.
Proof.
  intros Hl Hc Hne Hn Hn0. destruct (lifts_ex ce He l cin Hl Hc) as (f & Hf). destruct (ctIDSet_ok o_id cin o_id_ok) as (ids0 & E0 & _ & H0).
  set (z0 := NewCiphertext o_id pp ids0 l). destruct (NewCiphertext_ok o_id pp ids0 l o_id_ok) as (A1 & A2 & A3).
  assert (KZ : forall ids o, order_ok o -> (forall x, In x (mkeys ids) <-> In x (mkeys cin) /\ x <> "0"%string) -> forall id, In id (mkeys (NewCiphertext o pp ids l)) <-> In id (mkeys cin)).
  { intros ids o Ho Hi id. destruct (NewCiphertext_ok o pp ids l Ho) as (_ & B2 & _). rewrite B2, Hi. pose proof (ck_0 _ _ _ Hc). destruct (string_dec id "0"%string) as [->|]; tauto. }
  destruct (rs_out_rescaled ce He l n cin f z0 Hl (proj1 Hn) Hc Hf A1 (KZ ids0 o_id o_id_ok H0)) as [HR Hred]; [intros ->; congruence|].
  exists (rs_out ce l n f z0). split; [exact HR|]. split; [auto|]. split.
  { intros s Bs Hs. apply rescaled_phase; auto; first [exact (proj1 Hn) | exact (ck_nd _ _ _ Hc) | exact (ck_0 _ _ _ Hc)]. }
  intros o st Ho Hst. unfold RescaleNew. cbn [c_ct c_scale]. destruct (ctIDSet_ok o cin Ho) as (ids & E & _ & Hi). rewrite E. cbn [bind]. rewrite (lifts_level ce l cin f Hf (ck_0 _ _ _ Hc)). cbn [bind].
  destruct (Rescale_gen ce He l n cin scale thr f (NewCiphertext o pp ids l) scale o st) as (e & st' & Er & Hst' & Hee); auto.
  { apply Hc. } { now apply zero_recipient. } { intros id. now apply KZ. } { right. auto. }
  unfold ckNewCiphertext. cbn [cp_pp]. assert (e = None) as -> by (destruct e; auto; exfalso; apply Hne, Hee; discriminate).
  eexists _, st'. split; [exact Er|]. cbn [c_ct c_scale]. split; [|auto]. apply rs_out_same. apply NewCt_same; auto using o_id_ok. intros x. rewrite Hi, H0. tauto.
Qed.
(** no division: an error, or the scale is already small: a zero ciphertext comes back *)
Lemma rescale_new_zero cin scale thr l : (l < QCount pp)%nat -> ct_ok pp l cin -> rescale_steps (pa_Q pp) l scale thr 0 ->
  forall o st, order_ok o -> ev_ok pp st -> exists e out st', RescaleNew ce o (mkCk cin scale) thr st = Ok (e, out, st') /\
    all_zero pp l (c_ct out) /\ same_keys (c_ct out) cin /\ c_scale out = scale /\ (e = None <-> ~ rescale_err l scale thr) /\ ev_ok pp st'.
Proof.
  intros Hl Hc Hn o st Ho Hst. destruct (lifts_ex ce He l cin Hl Hc) as (f & Hf). unfold RescaleNew. cbn [c_ct c_scale]. destruct (ctIDSet_ok o cin Ho) as (ids & E & _ & Hi). rewrite E. cbn [bind]. rewrite (lifts_level ce l cin f Hf (ck_0 _ _ _ Hc)). cbn [bind].
  destruct (NewCiphertext_ok o pp ids l Ho) as (B1 & B2 & B3).
  assert (KZ : same_keys (NewCiphertext o pp ids l) cin). { intros id. rewrite B2, Hi. pose proof (ck_0 _ _ _ Hc). destruct (string_dec id "0"%string) as [->|]; tauto. }
  destruct (Rescale_gen ce He l 0 cin scale thr f (NewCiphertext o pp ids l) scale o st) as (e & st' & Er & Hst' & Hee); auto.
  { apply Hc. } { now apply zero_recipient. } { intros id. apply KZ. }
  eexists e, _, st'. split; [exact Er|]. cbn [c_ct c_scale rs_out]. split; [exact B3|]. split; [exact KZ|]. split; [destruct e; reflexivity|]. split; [|auto]. rewrite <- Hee. destruct e; split; intros; try congruence. exfalso. apply H. discriminate.
Qed.
Lemma rescale_new_panics cin scale thr l : (l < QCount pp)%nat -> ct_ok pp l cin -> ~ rescale_err l scale thr ->
  (forall i, (1 <= i <= l + 1)%nat -> fleb (fdiv thr (f_of_Z 2)) (scale_after (pa_Q pp) l scale i) = true) ->
  forall o st, order_ok o -> RescaleNew ce o (mkCk cin scale) thr st = Panic PIndex.
Proof.
  intros Hl Hc Hne H o st Ho. destruct (lifts_ex ce He l cin Hl Hc) as (f & Hf). unfold RescaleNew. cbn [c_ct c_scale]. destruct (ctIDSet_ok o cin Ho) as (ids & E & _ & Hi). rewrite E. cbn [bind]. rewrite (lifts_level ce l cin f Hf (ck_0 _ _ _ Hc)). cbn [bind].
  unfold ckNewCiphertext. cbn [cp_pp]. eapply Rescale_panics; eauto. apply Hc.
Qed.
(** one of the three cases always applies *)
Lemma rescale_cases Q l scale thr : rescale_err l scale thr \/ ~ rescale_err l scale thr /\ ((exists n, rescale_count Q l scale (fdiv thr (f_of_Z 2)) n) \/
  forall i, (1 <= i <= l + 1)%nat -> fleb (fdiv thr (f_of_Z 2)) (scale_after Q l scale i) = true).
Proof.
  assert (D : rescale_err l scale thr \/ ~ rescale_err l scale thr). { unfold rescale_err. destruct (fleb thr f0), (feqb scale f0), (Nat.eq_dec l 0); intuition congruence. }
  destruct D; [auto|]. right. split; [auto|]. set (h := fdiv thr _). clearbody h. 
  assert (G : forall m, (m <= l + 1)%nat -> (exists n, (n < m)%nat /\ (forall i, (1 <= i <= n)%nat -> fleb h (scale_after Q l scale i) = true) /\ fleb h (scale_after Q l scale (n + 1)) = false) \/ forall i, (1 <= i <= m)%nat -> fleb h (scale_after Q l scale i) = true).
  { induction m as [|m IH]; intros Hm. { right. intros; lia. } destruct (IH ltac:(lia)) as [(n & H1 & H2 & H3)|H1]. { left. exists n. repeat split; auto; lia. }
    destruct (fleb h (scale_after Q l scale (m + 1))) eqn:E.
    - right. intros i Hi. destruct (Nat.eq_dec i (m + 1)) as [->|]; [exact E|]. apply H1. lia.
    - left. exists m. repeat split; auto. }
  destruct (G (l + 1)%nat ltac:(lia)) as [(n & H1 & H2 & H3)|H1]; [left; exists n; split; [lia|auto]|right; exact H1].
Qed.
End Rs.
