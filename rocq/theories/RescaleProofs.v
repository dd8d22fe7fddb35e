(** Rescale. *)
From Coq Require Import String ZArith Znumtheory List Lia Setoid Morphisms Bool Permutation.
From Verif Require Import Spec SpecProofs Go GoProofs Lattigo LattigoProofs Arith Fermat NegRing NegRingProofs NTT NTTProofs F64 BasisExt BasisExtProofs ModDownProofs DecomposeProofs RingOps RingOpsProofs Maps MapsProofs Params Elements KeySwitch KeySets EncDec Utils Evaluator KSProofs KSMulProofs Crt ParamsProofs Repr SpecCt KSSem SpecEnc EncProofs EncThms CkEncThms SpecEv EvProofs.
Import ListNotations.
Local Open Scope Z_scope.
Local Open Scope list_scope.

Lemma scale_after_shift Q l s i : scale_after Q l s (S i) = scale_after Q (l - 1) (fdiv s (f_of_Z (modulus Q l))) i.
Proof.
  induction i as [|i IH]. { cbn [scale_after]. now rewrite Nat.sub_0_r. }
  change (scale_after Q l s (S (S i))) with (fdiv (scale_after Q l s (S i)) (f_of_Z (modulus Q (l - S i)))). rewrite IH.
  cbn [scale_after]. replace (l - 1 - i)%nat with (l - S i)%nat by lia. reflexivity.
Qed.
Lemma rescale_count_unique Q l s h n m : rescale_count Q l s h n -> rescale_count Q l s h m -> n = m.
Proof.
  intros (H1 & H2 & H3) (G1 & G2 & G3). destruct (Nat.lt_trichotomy n m) as [H|[H|H]]; auto.
  - rewrite G2 in H3 by lia. discriminate.
  - rewrite H2 in G3 by lia. discriminate.
Qed.
Lemma rescale_steps_unique Q l s t n m : rescale_steps Q l s t n -> rescale_steps Q l s t m -> n = m.
Proof. intros [[H ->]|[H H']] [[G ->]|[G G']]; auto; try contradiction. eapply rescale_count_unique; eauto. Qed.

Section Div.
Context (pp : params) (Hpp : params_ok pp).
Notation N := (pa_N pp).
Notation qq j := (nth j (pa_Q pp) 0).
(** exact division, as congruences *)
Definition divcong (l n : nat) (A : nat -> zpoly) (w : zpoly) (B : nat -> zpoly) : Prop :=
  (forall j, (l - n < j <= l)%nat -> peq N (modulus (pa_Q pp) j) (A j) w) /\
  forall j, (j <= l - n)%nat -> peq N (modulus (pa_Q pp) j) (pscale (dropped (pa_Q pp) l n) (B j)) (psub (A j) w).
Lemma Q_pairwise : pairwise_coprime (pa_Q pp). Proof. eapply good_pairwise, (po_good _ Hpp). Qed.
Lemma dropped_nth l n i : (n <= l)%nat -> (l < QCount pp)%nat -> (i < n)%nat -> nth i (firstn n (skipn (l + 1 - n) (pa_Q pp))) 0 = qq (l + 1 - n + i).
Proof.
  intros Hn Hl Hi. rewrite nth_firstn_lt by lia. rewrite <- (firstn_skipn (l + 1 - n) (pa_Q pp)) at 2. rewrite app_nth2; rewrite firstn_length; unfold QCount in Hl; [f_equal; lia|lia].
Qed.
Lemma dropped_cong l n x y : (n <= l)%nat -> (l < QCount pp)%nat -> (forall j, (l - n < j <= l)%nat -> cong (modulus (pa_Q pp) j) x y) -> cong (dropped (pa_Q pp) l n) x y.
Proof.
  intros Hn Hl H. unfold dropped. rewrite product_prodZ. apply crt_cong.
  - apply firstn_pairwise. apply primes_pairwise; [apply Forall_skipn, (gm_prQ _ _ (po_good _ Hpp))|]. apply NoDup_skipn. eapply NoDup_app_l, (gm_nd _ _ (po_good _ Hpp)).
  - apply Forall_of_nth with (d := 0). intros i Hi. rewrite firstn_length, skipn_length in Hi. unfold QCount in Hl. rewrite dropped_nth by (unfold QCount; lia). apply H. lia.
Qed.
Lemma dropped_coprime l n j : (n <= l)%nat -> (l < QCount pp)%nat -> (j <= l - n)%nat -> rel_prime (modulus (pa_Q pp) j) (dropped (pa_Q pp) l n).
Proof.
  intros Hn Hl Hj. rewrite (dprod_dropped pp n l Hn Hl). revert l Hn Hl Hj. induction n as [|n IH]; intros l Hn Hl Hj; cbn [dprod]; [apply rel_prime_sym, rel_prime_1|].
  apply rel_prime_mult; [|apply IH; lia]. unfold modulus. pose proof (q_prime pp Hpp j ltac:(lia)) as P1. pose proof (q_prime pp Hpp l Hl) as P2.
  apply prime_rel_prime; [exact P1|]. apply prime_ne_ndiv; auto. intros Ee. assert (l = j) by (eapply (NoDup_nth (pa_Q pp) 0); eauto; unfold QCount in *; try lia; eapply NoDup_app_l, (gm_nd _ _ (po_good _ Hpp))). lia.
Qed.
Lemma dropped_pos l n : (n <= l)%nat -> (l < QCount pp)%nat -> 0 < dropped (pa_Q pp) l n.
Proof.
  intros Hn Hl. rewrite (dprod_dropped pp n l Hn Hl). revert l Hn Hl. induction n as [|n IH]; intros l Hn Hl; cbn [dprod]; [lia|]. destruct (qbig pp Hpp l Hl) as [Hq _]. unfold modulus in Hq. specialize (IH (l - 1)%nat ltac:(lia) ltac:(lia)). nia.
Qed.
Lemma dropped_divide l n j : (n <= l)%nat -> (l < QCount pp)%nat -> (l - n < j <= l)%nat -> (modulus (pa_Q pp) j | dropped (pa_Q pp) l n).
Proof.
  intros Hn Hl Hj. unfold dropped. rewrite product_prodZ. assert (Hx : (j - (l + 1 - n) < n)%nat) by lia. pose proof (dropped_nth l n (j - (l + 1 - n)) Hn Hl Hx) as X. replace (l + 1 - n + (j - (l + 1 - n)))%nat with j in X by lia.
  unfold modulus. rewrite <- X. apply prodZ_divide. apply nth_In. rewrite firstn_length, skipn_length. unfold QCount in Hl. lia.
Qed.
Lemma divcong_divided l n A w B : (n <= l)%nat -> (l < QCount pp)%nat -> divcong l n A w B <-> divided pp l n A w B.
Proof.
  intros Hn Hl. pose proof (dropped_pos l n Hn Hl) as HD. set (D := dropped (pa_Q pp) l n) in *. split.
  - intros [H1 H2] M HM. assert (Hd : forall i, (i < N)%nat -> (D | M i - w i)).
    { intros i Hi. change (cong D (M i) (w i)). apply dropped_cong; auto. intros j Hj. transitivity (A j i); [symmetry; apply (HM j ltac:(lia) i Hi)|apply (H1 j Hj i Hi)]. }
    exists (fun i => (M i - w i) / D). assert (Hex : forall i, (i < N)%nat -> D * ((M i - w i) / D) = M i - w i). { intros i Hi. destruct (Hd i Hi) as [k ->]. rewrite Z.div_mul by lia. ring. }
    split; [exact Hex|]. intros j Hj i Hi. pose proof (H2 j Hj i Hi) as C. unfold pscale, psub in C.
    pose proof (HM j ltac:(lia) i Hi) as C2. assert (C3 : cong (modulus (pa_Q pp) j) (D * B j i) (D * ((M i - w i) / D))). { rewrite (Hex i Hi). transitivity (A j i - w i); [exact C|]. apply cong_sub; [exact C2|reflexivity]. }
    unfold cong in *. apply Gauss with D; [|now apply dropped_coprime]. replace (D * (B j i - (M i - w i) / D)) with (D * B j i - D * ((M i - w i) / D)) by ring. exact C3.
  - intros H. destruct (crt_poly (pa_Q pp) A Q_pairwise) as (M & HM). destruct (H M) as (M' & E & HM'). { intros j Hj i Hi. symmetry. apply HM. unfold QCount in Hl. lia. }
    split.
    + intros j Hj i Hi. transitivity (M i). { symmetry. apply HM. unfold QCount in Hl. lia. } replace (M i) with (w i + D * M' i) by (rewrite E by auto; lia). unfold cong. replace (w i + D * M' i - w i) with (D * M' i) by ring.
      apply Z.divide_mul_l. now apply dropped_divide.
    + intros j Hj i Hi. unfold pscale, psub. transitivity (D * M' i). { apply cong_mul; [reflexivity|now apply HM']. } rewrite E by auto. apply cong_sub; [|reflexivity]. apply HM. unfold QCount in Hl. lia.
Qed.
Lemma divided_ext l n A A' w B B' : divided pp l n A w B -> (forall j, (j <= l)%nat -> peq N (modulus (pa_Q pp) j) (A j) (A' j)) -> (forall j, (j <= l - n)%nat -> peq N (modulus (pa_Q pp) j) (B j) (B' j)) -> divided pp l n A' w B'.
Proof.
  intros H HA HB M HM. destruct (H M) as (M' & E & HM'). { intros j Hj. rewrite (HA j Hj). now apply HM. } exists M'. split; [exact E|]. intros j Hj. rewrite <- (HB j Hj). now apply HM'.
Qed.
End Div.

Section Rs.
Context (ce : ckenv).
Notation pp := (e_pp (ce_env ce)).
Context (He : env_ok (ce_env ce)).
Notation N := (pa_N pp).
Notation rQ := (ringQ pp).
Notation qq j := (nth j (pa_Q pp) 0).
Notation id_b := (fun q : Z => q).
Let Hpp : params_ok pp := eo_pp _ He.
Let HrQ : ring_ok rQ := po_rQ _ Hpp.
Let HN : (0 < N)%nat := deg_pos _.

Lemma rescaleLoop_char half : forall l scale, (l < QCount pp)%nat ->
  (exists n, rescaleLoop ce l scale half = Ok (scale_after (pa_Q pp) l scale n, n) /\ rescale_count (pa_Q pp) l scale half n) \/
  (rescaleLoop ce l scale half = Panic PIndex /\ forall i, (1 <= i <= l + 1)%nat -> fleb half (scale_after (pa_Q pp) l scale i) = true).
Proof.
  induction l as [|l IH]; intros scale Hl.
  - cbn [rescaleLoop]. rewrite (idx_nth (pa_Q pp) 0 0) by exact Hl. cbn [bind]. destruct (fleb half _) eqn:E.
    + right. split; [reflexivity|]. intros i Hi. assert (i = 1)%nat as -> by lia. exact E.
    + left. exists 0%nat. split; [reflexivity|]. split; [lia|]. split; [lia|exact E].
  - cbn [rescaleLoop]. rewrite (idx_nth (pa_Q pp) (S l) 0) by exact Hl. cbn [bind]. destruct (fleb half _) eqn:E.
    + set (s1 := fdiv scale _) in *. destruct (IH s1 ltac:(lia)) as [(n & E1 & H1 & H2 & H3)|(E1 & H1)]; rewrite E1; cbn [bind].
      * left. exists (S n). rewrite scale_after_shift. replace (S l - 1)%nat with l by lia. split; [reflexivity|]. split; [lia|]. split.
        -- intros [|[|i]] Hi; [lia|exact E|]. rewrite scale_after_shift. replace (S l - 1)%nat with l by lia. apply H2. lia.
        -- replace (S n + 1)%nat with (S (n + 1)) by lia. rewrite scale_after_shift. replace (S l - 1)%nat with l by lia. exact H3.
      * right. split; [reflexivity|]. intros [|[|i]] Hi; [lia|exact E|]. rewrite scale_after_shift. replace (S l - 1)%nat with l by lia. apply H1. lia.
    + left. exists 0%nat. split; [reflexivity|]. split; [lia|]. split; [lia|exact E].
Qed.
Lemma rescaleLoop_ok half l scale n : (l < QCount pp)%nat -> rescale_count (pa_Q pp) l scale half n -> rescaleLoop ce l scale half = Ok (scale_after (pa_Q pp) l scale n, n).
Proof.
  intros Hl Hn. destruct (rescaleLoop_char half l scale Hl) as [(m & E & Hm)|(_ & H)].
  - now rewrite (rescale_count_unique _ _ _ _ _ _ Hn Hm).
  - destruct Hn as (H1 & _ & H3). rewrite H in H3 by lia. discriminate.
Qed.
Lemma rescaleLoop_panic half l scale : (l < QCount pp)%nat -> (forall i, (1 <= i <= l + 1)%nat -> fleb half (scale_after (pa_Q pp) l scale i) = true) -> rescaleLoop ce l scale half = Panic PIndex.
Proof.
  intros Hl H. destruct (rescaleLoop_char half l scale Hl) as [(m & _ & H1 & _ & H3)|(E & _)]; auto. rewrite H in H3 by lia. discriminate.
Qed.

(** f lifts the components of ct to the integers *)
Definition lifts (l : nat) (ct : ciphertext) (f : string -> zpoly) : Prop := forall id, In id (mkeys ct) ->
  exists p, sget ct id = Some p /\ prep rQ (fun q => q + 1) (l + 1) (p_co p) (f id) /\ p_ntt p = false /\ plen p = (l + 1)%nat.
Lemma lifts_ex l ct : (l < QCount pp)%nat -> ct_ok pp l ct -> exists f, lifts l ct f.
Proof. intros Hl Hc. destruct (ct_lift (ce_env ce) He l ct Hl Hc) as (f & H). exists f. intros id Hi. destruct (H id Hi) as (p & ? & ? & ? & ? & _). eauto. Qed.
Lemma lifts_same l a b f : same_ct a b -> lifts l a f -> lifts l b f.
Proof. intros H Hf id Hi. apply (same_ct_keys _ _ H) in Hi. destruct (Hf id Hi) as (p & E & R). exists p. destruct H as (_ & _ & H). rewrite <- H. auto. Qed.
Lemma lifts_level l ct f : lifts l ct f -> In "0"%string (mkeys ct) -> ctLevel ct = Ok l.
Proof. intros H Hi. destruct (H _ Hi) as (p & E & _ & _ & L). unfold ctLevel, mptr. rewrite E. cbn [bind]. rewrite L, Nat.add_1_r. reflexivity. Qed.

(** a ciphertext in canonical (reduced) form, from integer polynomials *)
Definition canon (l : nat) (A : zpoly) : poly := mkPoly false (limbs_of pp false (l + 1) A).
Lemma canon_held l A : (l < QCount pp)%nat -> prep rQ id_b (l + 1) (p_co (canon l A)) A /\ plen (canon l A) = (l + 1)%nat.
Proof. intros Hl. exact (limbs_of_held pp Hpp false l A false Hl). Qed.
Lemma canon_eq l p A : (l < QCount pp)%nat -> p_ntt p = false -> plen p = (l + 1)%nat -> prep rQ id_b (l + 1) (p_co p) A -> p = canon l A.
Proof.
  intros Hl Hf HL H. destruct (canon_held l A Hl) as [H1 H2]. destruct p as [n c]. cbn in Hf. subst n. unfold canon. f_equal.
  change c with (p_co (mkPoly false c)). change (limbs_of pp false (l + 1) A) with (p_co (canon l A)). eapply (held_unique pp Hpp false); [exact H|exact H1|reflexivity|auto|auto].
Qed.
Definition recipient (l : nat) (out : ciphertext) : Prop := NoDup (mkeys out) /\ forall id p, sget out id = Some p -> p_ntt p = false /\ plen p = (l + 1)%nat.
Lemma rescale_fold l n cin f out o st : (l < QCount pp)%nat -> (0 < n <= l)%nat -> lifts l cin f -> recipient l out -> (forall id, In id (mkeys out) -> In id (mkeys cin)) -> order_ok o ->
  plen (ev_q st) = QCount pp ->
  exists q, foldM (fun '(out, q) i => bind (sptr cin i) (fun a => bind (sptr out i) (fun p => bind (DivRoundByLastModulusManyLvl rQ l n a q p) (fun '(q, p) => bind (pTrunc (l + 1 - n) p) (fun p => Ok (sset out i p, q))))))
    (o 0%nat (mkeys out)) (out, ev_q st) = Ok (upd_all (mkeys out) (fun id => canon (l - n) (rdivs pp l n (f id))) out, q) /\ plen q = QCount pp.
Proof.
  intros Hl Hn Hf [Hnd Hr] Hk Ho Hq.
  destruct (fold_upd (fun '(out, q) i => bind (sptr cin i) (fun a => bind (sptr out i) (fun p => bind (DivRoundByLastModulusManyLvl rQ l n a q p) (fun '(q, p) => bind (pTrunc (l + 1 - n) p) (fun p => Ok (sset out i p, q))))))
    (fun q => plen q = QCount pp) (o 0%nat (mkeys out)) (fun id => canon (l - n) (rdivs pp l n (f id))) out (ev_q st)) as (q' & E & HQ); auto.
  - now apply order_nodup.
  - intros c q id Hid _ Ec HI. rewrite order_in in Hid by auto. destruct (Hf id (Hk id Hid)) as (a & Ea & Pa & Fa & La). unfold mptr. rewrite Ea. cbn [bind]. rewrite Ec.
    destruct (mget_ex _ seqb out id Hid) as (p & Ep). rewrite Ep. cbn [bind]. destruct (Hr id p Ep) as [Fp Lp].
    destruct (DivRoundMany_ok pp Hpp l n a q p (f id) Hn Hl Pa ltac:(lia) ltac:(lia)) as (q' & d & E & Lq & _ & Wd & Pd). rewrite E. cbn [bind].
    unfold pTrunc. rewrite (wlen Wd). destruct (Nat.leb_spec (l + 1 - n) (plen p)); [|lia]. cbn [bind]. exists q'. split; [|congruence]. do 3 f_equal.
    replace (l + 1 - n)%nat with (l - n + 1)%nat by lia. apply canon_eq; [lia|cbn; now rewrite (wntt Wd)|unfold plen; cbn [p_co]; rewrite firstn_length; pose proof (wlen Wd) as X; unfold plen in *; lia|].
    cbn [p_co]. eapply prep_ext; [|intros j Hj; apply nth_firstn_lt; lia|exact Pd]. rewrite firstn_length. pose proof (wlen Wd) as X; unfold plen in *; lia.
  - intros id. now rewrite order_in.
  - exists q'. split; [|exact HQ]. etransitivity; [exact E|]. f_equal. f_equal. apply upd_all_perm. apply Ho.
Qed.

Definition rs_out (l n : nat) (f : string -> zpoly) (out : ciphertext) : ciphertext :=
  match n with O => out | _ => upd_all (mkeys out) (fun id => canon (l - n) (rdivs pp l n (f id))) out end.
Lemma set_q_ok st q : ev_ok pp st -> plen q = QCount pp -> ev_ok pp (set_q q st).
Proof. intros [H1 H2 H3 H4 H5] H. constructor; auto. Qed.
(** the general form: error or not, the receiver becomes [rs_out] *)
Lemma Rescale_gen l n cin scale thr f out so o st : (l < QCount pp)%nat -> lifts l cin f -> In "0"%string (mkeys cin) -> recipient l out -> (forall id, In id (mkeys out) -> In id (mkeys cin)) -> order_ok o ->
  ev_ok pp st -> rescale_steps (pa_Q pp) l scale thr n -> exists e st',
  Rescale ce o (mkCk cin scale) thr (mkCk out so) st = Ok (e, mkCk (rs_out l n f out) (match e with None => scale_after (pa_Q pp) l scale n | Some _ => so end), st') /\ ev_ok pp st' /\
  (e <> None <-> rescale_err l scale thr).
Proof.
  intros Hl Hf H0 Hr Hk Ho Hst Hs. unfold Rescale. cbn [c_scale c_ct]. rewrite (lifts_level l cin f Hf H0). destruct (fleb thr f0) eqn:E1; [|destruct (feqb scale f0) eqn:E2; [|cbn [bind]; destruct (Nat.eqb_spec l 0) as [E3|E3]]].
  1-3: assert (HE : rescale_err l scale thr) by (unfold rescale_err; auto); destruct Hs as [[_ ->]|[Hs _]]; [|contradiction]; eexists (Some _), st; split; [reflexivity|]; split; [auto|]; split; [auto|discriminate].
  destruct Hs as [[Hs _]|[Hs Hc]]; [unfold rescale_err in Hs; intuition congruence|]. rewrite (rescaleLoop_ok _ l scale n Hl Hc). cbn [bind]. pose proof Hc as (Hn & _).
  destruct n as [|n].
  - exists None, st. cbn [Nat.eqb]. split; [reflexivity|]. split; [auto|]. split; [congruence|contradiction].
  - set (m := S n) in *. change (Nat.eqb m 0) with false. cbv iota. destruct (rescale_fold l m cin f out o st Hl ltac:(lia) Hf Hr Hk Ho (eo_q _ _ Hst)) as (q & E & Hq).
    match goal with |- context [bind (foldM ?F ?L ?i) ?k] => assert (X : foldM F L i = Ok (upd_all (mkeys out) (fun id => canon (l - m) (rdivs pp l m (f id))) out, q)) by exact E; rewrite X end. cbn [bind]. exists None, (set_q q st). split; [reflexivity|]. split; [now apply set_q_ok|]. split; [congruence|contradiction].
Qed.
Lemma Rescale_panics l cin scale thr out so o st f : (l < QCount pp)%nat -> lifts l cin f -> In "0"%string (mkeys cin) -> ~ rescale_err l scale thr ->
  (forall i, (1 <= i <= l + 1)%nat -> fleb (fdiv thr (f_of_Z 2)) (scale_after (pa_Q pp) l scale i) = true) ->
  Rescale ce o (mkCk cin scale) thr (mkCk out so) st = Panic PIndex.
Proof.
  intros Hl Hf H0 Hs H. unfold Rescale. cbn [c_scale c_ct]. rewrite (lifts_level l cin f Hf H0). unfold rescale_err in Hs.
  destruct (fleb thr f0); [tauto|]. destruct (feqb scale f0); [tauto|]. cbn [bind]. destruct (Nat.eqb_spec l 0); [tauto|]. now rewrite (rescaleLoop_panic _ l scale Hl H).
Qed.

(** what the output says about the input *)
Lemma canon_limb_ok l A j : (l < QCount pp)%nat -> (j <= l)%nat -> List.length (nth j (p_co (canon l A)) []) = N /\ forall x, (x < N)%nat -> 0 <= nth x (nth j (p_co (canon l A)) []) 0 < qq j.
Proof. intros Hl Hj. destruct (canon_held l A Hl) as [(_ & _ & H) _]. destruct (H j ltac:(lia)) as [H1 H2]. split; [exact H1|]. intros x Hx. apply (H2 x Hx). Qed.
Lemma rs_out_keys l n f out : mkeys (rs_out l n f out) = mkeys out.
Proof. destruct n; [reflexivity|]. apply upd_all_keys. Qed.
Lemma rs_out_get l n f out id : n <> O -> In id (mkeys out) -> sget (rs_out l n f out) id = Some (canon (l - n) (rdivs pp l n (f id))).
Proof.
  intros Hn Hi. destruct n; [lia|]. unfold rs_out. rewrite upd_all_get. destruct (mget_ex _ seqb out id Hi) as (p & ->). apply inb_In in Hi. now rewrite Hi.
Qed.
Lemma rs_out_rescaled l n cin f out : (l < QCount pp)%nat -> (n <= l)%nat -> ct_ok pp l cin -> lifts l cin f -> NoDup (mkeys out) -> (forall id, In id (mkeys out) <-> In id (mkeys cin)) ->
  (n = O -> out = cin) -> rescaled pp l n cin (rs_out l n f out) /\ (n <> O -> reduced pp (l - n) (rs_out l n f out)).
Proof.
  intros Hl Hn Hc Hf Hnd Hk H0. destruct n as [|n].
  - rewrite (H0 eq_refl) in *. split; [|congruence]. cbn [rs_out]. split; [rewrite Nat.sub_0_r; exact Hc|]. split; [tauto|]. exists (fun _ => pzero). intros id _. split. { intros i Hi. cbn. unfold dropped. cbn. lia. }
    apply (divcong_divided pp Hpp); auto. split; [intros j Hj; lia|]. intros j Hj x Hx. unfold dropped, pscale, psub, pzero. cbn. apply cong_eq. destruct (limb cin id j x); reflexivity || lia.
  - set (m := S n) in *. assert (Hm : m <> O) by lia. split.
    + split; [constructor|split].
      * now rewrite rs_out_keys.
      * rewrite rs_out_keys. apply Hk, (ck_0 _ _ _ Hc).
      * intros id p E. assert (Hi : In id (mkeys out)) by (rewrite <- (rs_out_keys l m f out); eapply mget_key; eauto; exact seqb). rewrite (rs_out_get l m f out id Hm Hi) in E. injection E as <-.
        split; [reflexivity|]. split; [apply canon_held; lia|]. intros j Hj. destruct (canon_limb_ok (l - m) (rdivs pp l m (f id)) j ltac:(lia) Hj) as [A1 A2]. split; [exact A1|]. intros x Hx. destruct (A2 x Hx) as [B1 B2]. split; [exact B1|]. apply Z.lt_le_incl. exact B2.
      * intros id. now rewrite rs_out_keys.
      * exists (fun id => psub (f id) (pscale (dropped (pa_Q pp) l m) (rdivs pp l m (f id)))). intros id Hi. split.
        -- intros x Hx. unfold psub, pscale. rewrite (dprod_dropped pp m l ltac:(lia) Hl). destruct (rdivs_rem pp Hpp m l (f id) ltac:(lia) Hl x) as (r & E1 & E2). rewrite E1. apply Z.div_le_lower_bound; lia.
        -- apply (divcong_divided pp Hpp); auto. split.
           { intros j Hj x Hx. destruct (Hf id Hi) as (p & Ep & Pp & _). rewrite (limb_prep (ce_env ce) _ _ _ _ _ _ j Ep Pp ltac:(lia) x Hx). unfold psub, pscale, cong.
             match goal with |- (_ | ?a - (?a - ?b)) => replace (a - (a - b)) with b by ring end. apply Z.divide_mul_l. apply (dropped_divide pp); auto. }
           intros j Hj x Hx. destruct (Hf id Hi) as (p & Ep & Pp & _). apply Hk in Hi. pose proof (rs_out_get l m f out id Hm Hi) as Eo. destruct (canon_held (l - m) (rdivs pp l m (f id)) ltac:(lia)) as [Pc _].
           pose proof (limb_prep (ce_env ce) _ _ _ _ _ _ j Eo Pc Hj x Hx) as C1. pose proof (limb_prep (ce_env ce) _ _ _ _ _ _ j Ep Pp ltac:(lia) x Hx) as C2.
           unfold pscale, psub. unfold modulus. transitivity (dropped (pa_Q pp) l m * rdivs pp l m (f id) x). { apply cong_mul; [reflexivity|exact C1]. }
           transitivity (f id x - (f id x - dropped (pa_Q pp) l m * rdivs pp l m (f id) x)); [apply cong_eq; lia|]. apply cong_sub; [now symmetry|reflexivity].
    + intros _ id p E j x Hj Hx. assert (Hi : In id (mkeys out)) by (rewrite <- (rs_out_keys l m f out); eapply mget_key; eauto; exact seqb). rewrite (rs_out_get l m f out id Hm Hi) in E. injection E as <-.
      apply (canon_limb_ok (l - m) (rdivs pp l m (f id)) j); auto. lia.
Qed.
Lemma rs_out_same l n f a b : same_ct a b -> same_ct (rs_out l n f a) (rs_out l n f b).
Proof. intros H. destruct n; [exact H|]. apply same_ct_upd; auto. intros x. now apply same_ct_keys. Qed.
End Rs.
