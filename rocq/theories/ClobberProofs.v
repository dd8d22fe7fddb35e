(** Rescaling with an overwritten last limb: the results are those of the plain model; the operand of RescaleNew keeps all limbs but its last. *)
From Coq Require Import String ZArith Znumtheory List Lia Bool Permutation Setoid Morphisms.
From Verif Require Import Spec Go GoProofs Lattigo Arith NegRing NegRingProofs F64 NTT RingOps RingOpsProofs Maps MapsProofs Params Elements KeySwitch KeySets KeyGen EncDec Utils Evaluator Repr KSProofs SpecCt KSSem KSMulProofs ConcProofs SpecEnc SpecEv EvProofs RescaleProofs EvThms Alias AliasProofs AliasThms Clobber.
Import ListNotations.
Local Open Scope Z_scope.
Local Open Scope list_scope.

Lemma firstn_ext {A} n (l l' : list A) : firstn n l = firstn n l' -> forall i, (i < n)%nat -> nth_error l i = nth_error l' i.
Proof. intros H i Hi. assert (X : forall k : list A, nth_error (firstn n k) i = nth_error k i). { intros k. revert i k Hi. clear. induction n as [|n IH]; intros [|i] [|x k] Hi; cbn; auto; [lia..|]. apply IH. lia. } now rewrite <- (X l), <- (X l'), H. Qed.
Lemma idx_ext {A} (l l' : list A) i : nth_error l i = nth_error l' i -> idx l i = idx l' i.
Proof. unfold idx. now intros ->. Qed.
Lemma setLimb_firstn p k x n : (n <= k)%nat -> (k < plen p)%nat -> firstn n (p_co (setLimb p k x)) = firstn n (p_co p).
Proof.
  intros H Hk. unfold setLimb, plen in *. cbn [p_co]. rewrite firstn_app, firstn_firstn, firstn_length. replace (n - Nat.min k (List.length (p_co p)))%nat with O by lia. cbn [firstn]. rewrite app_nil_r. f_equal. lia.
Qed.
Lemma setLimb_plen p k x : (k < plen p)%nat -> plen (setLimb p k x) = plen p.
Proof. intros H. unfold setLimb, plen in *. cbn [p_co]. rewrite app_length, firstn_length. cbn [List.length]. rewrite skipn_length. lia. Qed.
Lemma mapM_ext_in {A B} (f g : A -> res B) l : (forall a, In a l -> f a = g a) -> mapM f l = mapM g l.
Proof. induction l as [|a l IH]; intros H; [reflexivity|]. cbn [mapM]. rewrite (H a) by now left. destruct (g a); cbn [bind]; [|reflexivity]. rewrite IH; auto. intros; apply H; now right. Qed.
Lemma mapM_length {A B} (f : A -> res B) l : forall r, mapM f l = Ok r -> List.length r = List.length l.
Proof. induction l as [|a l IH]; cbn [mapM]; intros r H; [injection H as <-; reflexivity|]. destruct (f a); [|discriminate]. cbn [bind] in H. destruct (mapM f l) as [bs|]; [|discriminate]. injection H as <-. cbn. now rewrite (IH bs). Qed.

Section C.
Context (cl : Z -> list Z -> list Z) (r : ringd).
(** the last limb of an operand after the call *)
Definition spoiled (l : nat) (a : poly) : poly := setLimb a l (cl (nth l (r_mods r) 0) (nth l (p_co a) [])).
Lemma div_step l a dst d a' dst' : DivRoundByLastModulusLvl r (S l) a dst = Ok d -> firstn (S l + 1) (p_co a') = firstn (S l + 1) (p_co a) -> (l < plen dst')%nat ->
  exists d', DivRoundByLastModulusLvl r (S l) a' dst' = Ok d' /\ p_ntt d' = p_ntt dst' /\ plen d' = plen dst' /\ firstn (S l) (p_co d') = firstn (S l) (p_co d) /\
    (forall i, (S l <= i)%nat -> nth_error (p_co d') i = nth_error (p_co dst') i) /\ (S l < plen a')%nat /\ (S l < List.length (r_mods r))%nat /\ plen d = plen dst /\ p_ntt d = p_ntt dst.
Proof.
  unfold DivRoundByLastModulusLvl. intros H Ha Hd. destruct (idx (r_mods r) (S l)) as [p|] eqn:Ep; [|discriminate]. cbn [bind] in *.
  rewrite (idx_ext (p_co a') (p_co a) (S l)) by (apply (firstn_ext (S l + 1)); [auto|lia]). destruct (idx (p_co a) (S l)) as [xl|] eqn:Ex; [|discriminate]. cbn [bind] in *.
  assert (LA : (S l < plen a')%nat). { unfold plen. apply nth_error_Some. rewrite (firstn_ext (S l + 1) _ (p_co a)); [|auto|lia]. unfold idx in Ex. destruct (nth_error (p_co a) (S l)); congruence. }
  assert (LM : (S l < List.length (r_mods r))%nat) by (apply nth_error_Some; unfold idx in Ep; destruct (nth_error (r_mods r) (S l)); congruence).
  rewrite (mapM_ext_in _ (fun i => bind (idx (r_mods r) i) (fun q => bind (idx (p_co a) i) (fun xi => Ok (divRound1 ((p - 1) / 2) p xl q xi))))).
  2:{ intros i Hi. apply in_seq in Hi. rewrite (idx_ext (p_co a') (p_co a) i); [reflexivity|]. apply (firstn_ext (S l + 1)); [auto|lia]. }
  destruct (mapM _ (seq 0 (S l))) as [ls|] eqn:El; [|discriminate]. cbn [bind] in *. apply mapM_length in El. rewrite seq_length in El. unfold write in *.
  destruct (Nat.leb_spec (plen dst) l); [discriminate|]. destruct (Nat.leb_spec (plen dst') l); [lia|]. injection H as <-. eexists. split; [reflexivity|]. cbn [p_ntt p_co plen]. split; [reflexivity|].
  split; [unfold plen in *; cbn [p_co]; rewrite app_length, skipn_length; lia|]. split; [rewrite !firstn_app, <- El, Nat.sub_diag, !firstn_O; reflexivity|]. split; [|split; [exact LA|split; [exact LM|split; [unfold plen in *; cbn [p_co]; rewrite app_length, skipn_length; lia|reflexivity]]]].
  intros i Hi. rewrite nth_error_app2 by lia. assert (X : forall (k : list (list Z)) n j, nth_error (skipn n k) j = nth_error k (n + j)) by (intros k n; revert k; induction n as [|n IH]; intros [|x k] j; cbn; auto; now destruct j). rewrite X. f_equal. lia.
Qed.
Lemma divC_some l a dst d a' dst' : DivRoundByLastModulusLvl r (S l) a dst = Ok d -> firstn (S l + 1) (p_co a') = firstn (S l + 1) (p_co a) -> (l < plen dst')%nat ->
  exists d', DivRoundC cl r (S l) (Some a') dst' = Ok (Some (spoiled (S l) a'), d') /\ p_ntt d' = p_ntt dst' /\ plen d' = plen dst' /\ firstn (S l) (p_co d') = firstn (S l) (p_co d) /\ plen (spoiled (S l) a') = plen a' /\
    p_ntt d = p_ntt dst /\ plen d = plen dst.
Proof.
  intros H Ha Hd. destruct (div_step l a dst d a' dst' H Ha Hd) as (d' & E & E1 & E2 & E3 & E4 & LA & LM & E5 & E6). exists d'. unfold DivRoundC. cbn [rd].
  destruct (nth_error (r_mods r) (S l)) as [p|] eqn:Ep; [|apply nth_error_None in Ep; lia]. destruct (nth_error (p_co a') (S l)) as [xl|] eqn:Ex; [|apply nth_error_None in Ex; unfold plen in LA; lia].
  unfold idx. rewrite Ep, Ex. cbn [bind]. rewrite E. cbn [bind]. split; [|repeat split; auto; apply setLimb_plen; auto]. unfold spoiled. now rewrite (nth_error_nth _ _ 0 Ep), (nth_error_nth _ _ [] Ex).
Qed.
Lemma divC_none l a dst d a' : DivRoundByLastModulusLvl r (S l) a dst = Ok d -> firstn (S l + 1) (p_co a') = firstn (S l + 1) (p_co a) ->
  exists d', DivRoundC cl r (S l) None a' = Ok (None, d') /\ p_ntt d' = p_ntt a' /\ plen d' = plen a' /\ firstn (S l) (p_co d') = firstn (S l) (p_co d) /\ p_ntt d = p_ntt dst /\ plen d = plen dst.
Proof.
  intros H Ha. assert (LA : (S l < plen a')%nat).
  { unfold plen. apply nth_error_Some. rewrite (firstn_ext (S l + 1) _ (p_co a)); [|auto|lia]. unfold DivRoundByLastModulusLvl in H. destruct (idx (r_mods r) (S l)); [|discriminate]. cbn [bind] in H. unfold idx in H. destruct (nth_error (p_co a) (S l)); [discriminate|discriminate]. }
  destruct (div_step l a dst d a' a' H Ha ltac:(lia)) as (d' & E & E1 & E2 & E3 & E4 & _ & LM & E5 & E6). unfold DivRoundC. cbn [rd].
  destruct (nth_error (r_mods r) (S l)) as [p|] eqn:Ep; [|apply nth_error_None in Ep; lia]. destruct (nth_error (p_co a') (S l)) as [xl|] eqn:Ex; [|apply nth_error_None in Ex; unfold plen in LA; lia].
  unfold idx. rewrite Ep, Ex. cbn [bind]. rewrite E. cbn [bind]. eexists. split; [reflexivity|]. split; [exact E1|]. split; [rewrite setLimb_plen; lia|]. split; [rewrite setLimb_firstn by lia; exact E3|auto].
Qed.
Lemma loopC n : forall l pool dst q d pool' dst', (0 < n <= l)%nat -> divRoundLoop r l n pool dst = Ok (q, d) -> firstn (l + 1) (p_co pool') = firstn (l + 1) (p_co pool) -> p_ntt dst' = p_ntt dst -> plen dst' = plen dst ->
  exists q' d', divRoundLoopC cl r l n pool' dst' = Ok (q', d') /\ plen q' = plen pool' /\ p_ntt d' = p_ntt d /\ plen d' = plen d /\ plen d = plen dst /\ firstn (l + 1 - n) (p_co d') = firstn (l + 1 - n) (p_co d) /\ plen q = plen pool.
Proof.
  induction n as [|n IH]; intros l pool dst q d pool' dst' Hn H Hp Hd1 Hd2; [lia|]. destruct l as [|l]; [lia|]. destruct n as [|n].
  - cbn [divRoundLoop] in H. destruct (DivRoundByLastModulusLvl r (S l) pool dst) as [d0|] eqn:E; [|discriminate]. injection H as <- <-.
    assert (Ld : (l < plen dst')%nat). { rewrite Hd2. unfold DivRoundByLastModulusLvl in E. destruct (idx (r_mods r) (S l)); [|discriminate]. cbn [bind] in E. destruct (idx (p_co pool) (S l)); [|discriminate]. cbn [bind] in E. destruct (mapM _ _); [|discriminate]. cbn [bind] in E. unfold write in E. destruct (Nat.leb_spec (plen dst) l); [discriminate|lia]. }
    destruct (divC_some l pool dst d0 pool' dst' E Hp Ld) as (d' & E' & R1 & R2 & R3 & R4 & R5 & R6). cbn [divRoundLoopC]. rewrite E'. cbn [bind rd]. eexists _, d'. split; [reflexivity|]. repeat split; try congruence. replace (S l + 1 - 1)%nat with (S l) by lia. exact R3.
  - set (m := S n) in *. change (divRoundLoop r (S l) (S m) pool dst) with (bind (DivRoundByLastModulusLvl r (S l) pool pool) (fun pool => divRoundLoop r (S l - 1) m pool dst)) in H.
    destruct (DivRoundByLastModulusLvl r (S l) pool pool) as [p1|] eqn:E; [|discriminate]. cbn [bind] in H.
    destruct (divC_none l pool pool p1 pool' E Hp) as (p1' & E' & R1 & R2 & R3 & _ & R6).
    change (divRoundLoopC cl r (S l) (S m) pool' dst') with (bind (DivRoundC cl r (S l) None pool') (fun '(_, pool) => divRoundLoopC cl r (S l - 1) m pool dst')). rewrite E'. cbn [bind].
    replace (S l - 1)%nat with l in * by lia. destruct (IH l p1 dst q d p1' dst' ltac:(lia) H) as (q' & d' & E2 & S1 & S2 & S3 & S4 & S5 & S6); auto; [replace (l + 1)%nat with (S l) by lia; exact R3|].
    exists q', d'. split; [exact E2|]. repeat split; try congruence. replace (S l + 1 - S m)%nat with (l + 1 - m)%nat by lia. exact S5.
Qed.
Lemma dst_len l a dst d : DivRoundByLastModulusLvl r (S l) a dst = Ok d -> (l < plen dst)%nat.
Proof. intros E. unfold DivRoundByLastModulusLvl in E. destruct (idx (r_mods r) (S l)); [|discriminate]. cbn [bind] in E. destruct (idx (p_co a) (S l)); [|discriminate]. cbn [bind] in E. destruct (mapM _ _); [|discriminate]. cbn [bind] in E. unfold write in E. destruct (Nat.leb_spec (plen dst) l); [discriminate|lia]. Qed.
(** the pools may differ, as long as they have the same length *)
Lemma manyC l n src pool dst q d pool' p2 : (0 < n <= l)%nat -> DivRoundByLastModulusManyLvl r l n (rd src dst) pool dst = Ok (q, d) -> plen pool' = plen pool -> pTrunc (l + 1 - n) d = Ok p2 ->
  exists q' d', DivRoundManyC cl r l n src pool' dst = Ok (option_map (spoiled l) src, q', d') /\ plen q' = plen pool' /\ plen q = plen pool /\ pTrunc (l + 1 - n) d' = Ok p2.
Proof.
  intros Hn H Hp HT. destruct l as [|l]; [lia|].
  assert (T : forall d', p_ntt d' = p_ntt d -> plen d' = plen d -> firstn (S l + 1 - n) (p_co d') = firstn (S l + 1 - n) (p_co d) -> pTrunc (S l + 1 - n) d' = Ok p2). { intros d' H1 H2 H3. rewrite <- HT. unfold pTrunc. now rewrite H1, H2, H3. }
  destruct n as [|[|n]]; [lia|..].
  - cbn [DivRoundByLastModulusManyLvl] in H. destruct (DivRoundByLastModulusLvl r (S l) (rd src dst) dst) as [d0|] eqn:E; [|discriminate]. injection H as <- <-. pose proof (dst_len _ _ _ _ E) as Ld. cbn [DivRoundManyC]. destruct src as [a|]; cbn [rd option_map] in *.
    + destruct (divC_some l a dst d0 a dst E eq_refl Ld) as (d' & E' & R1 & R2 & R3 & R4 & R5 & R6). rewrite E'. cbn [bind]. exists pool', d'. split; [reflexivity|]. split; [reflexivity|]. split; [reflexivity|]. apply T; try congruence. replace (S l + 1 - 1)%nat with (S l) by lia. exact R3.
    + destruct (divC_none l dst dst d0 dst E eq_refl) as (d' & E' & R1 & R2 & R3 & R5 & R6). rewrite E'. cbn [bind]. exists pool', d'. split; [reflexivity|]. split; [reflexivity|]. split; [reflexivity|]. apply T; try congruence. replace (S l + 1 - 1)%nat with (S l) by lia. exact R3.
  - set (m := S n) in *. change (DivRoundByLastModulusManyLvl r (S l) (S m) (rd src dst) pool dst) with (bind (DivRoundByLastModulusLvl r (S l) (rd src dst) pool) (fun pool => divRoundLoop r (S l - 1) m pool dst)) in H.
    destruct (DivRoundByLastModulusLvl r (S l) (rd src dst) pool) as [p1|] eqn:E; [|discriminate]. cbn [bind] in H. replace (S l - 1)%nat with l in * by lia. pose proof (dst_len _ _ _ _ E) as Ld.
    destruct (divC_some l (rd src dst) pool p1 (rd src dst) pool' E eq_refl ltac:(lia)) as (p1' & E' & R1 & R2 & R3 & R4 & R5 & R6).
    unfold DivRoundManyC. fold m. change (S m) with (S (S n)). cbv iota. fold m. rewrite E'. cbn [bind rd]. replace (S l - 1)%nat with l by lia.
    destruct (loopC m l p1 dst q d p1' (match src with Some _ => dst | None => spoiled (S l) (rd src dst) end) ltac:(lia) H) as (q' & d' & E2 & S1 & S2 & S3 & S4 & S5 & S6).
    + replace (l + 1)%nat with (S l) by lia. exact R3.
    + destruct src; reflexivity.
    + destruct src; [reflexivity|exact R4].
    + rewrite E2. cbn [bind]. exists q', d'. split; [destruct src; reflexivity|]. split; [congruence|]. split; [congruence|]. apply T; [congruence..|]. replace (S l + 1 - S m)%nat with (l + 1 - m)%nat by lia. exact S5.
Qed.
End C.

Section R.
Context (cl : Z -> list Z -> list Z) (ce : ckenv).
Notation pp := (e_pp (ce_env ce)).
Notation rQ := (ringQ pp).
(** the operand after the loop *)
Definition spoil (l : nat) (keys : list string) (c : ciphertext) : ciphertext := fold_left (fun c id => match sget c id with Some a => sset c id (spoiled cl rQ l a) | None => c end) keys c.
Lemma spoil_keys l ks : forall c, mkeys (spoil l ks c) = mkeys c.
Proof. induction ks as [|k ks IH]; intros c; [reflexivity|]. unfold spoil in *. cbn [fold_left]. rewrite IH. destruct (sget c k) eqn:E; [|reflexivity]. apply (mkeys_mset_in _ seqb). eapply (mget_key _ seqb); eauto. Qed.
Lemma spoil_get l ks : NoDup ks -> forall c id, sget (spoil l ks c) id = if inb id ks then option_map (spoiled cl rQ l) (sget c id) else sget c id.
Proof.
  induction ks as [|k ks IH]; intros Hn c id; [reflexivity|]. apply NoDup_cons_iff in Hn as [Hk Hn]. unfold spoil in *. cbn [fold_left]. rewrite (IH Hn). destruct (string_dec id k) as [->|Hne].
  - assert (inb k ks = false) as -> by (destruct (inb k ks) eqn:E; auto; apply inb_In in E; contradiction). assert (inb k (k :: ks) = true) as -> by (apply inb_In; now left).
    destruct (sget c k) eqn:E; cbn [option_map]; [now rewrite (mget_mset_same _ seqb)|exact E].
  - assert (X : sget (match sget c k with Some a => sset c k (spoiled cl rQ l a) | None => c end) id = sget c id) by (destruct (sget c k); [apply (mget_mset_other _ seqb); auto|reflexivity]). rewrite X.
    assert (inb id (k :: ks) = inb id ks) as -> by (apply eq_true_iff_eq; rewrite !inb_In; cbn; intuition congruence). reflexivity.
Qed.
Lemma foldC level nb (src : option ciphertext) ks : (0 < nb <= level)%nat -> NoDup ks -> forall out out' q q' q2 cin, plen q2 = plen q ->
  match src, cin with Some c0, Some c => forall id, In id ks -> sget c id = sget c0 id | None, None => True | _, _ => False end ->
  foldM (fun '(out, q) i => bind (sptr (rd src out) i) (fun a => bind (sptr out i) (fun p => bind (DivRoundByLastModulusManyLvl rQ level nb a q p) (fun '(q, p) => bind (pTrunc (level + 1 - nb) p) (fun p => Ok (sset out i p, q)))))) ks (out, q) = Ok (out', q') ->
  plen q' = plen q /\
  exists q3, foldM (fun '(cin, out, q) i => bind (match cin with Some c => bind (sptr c i) (fun a => Ok (Some a)) | None => Ok None end) (fun a => bind (sptr out i) (fun p => bind (DivRoundManyC cl rQ level nb a q p) (fun '(a, q, p) => bind (pTrunc (level + 1 - nb) p) (fun p =>
      Ok (match cin, a with Some c, Some a => Some (sset c i a) | _, _ => cin end, sset out i p, q)))))) ks (cin, out, q2) = Ok (option_map (spoil level ks) cin, out', q3) /\ plen q3 = plen q2.
Proof.
  intros Hn. induction ks as [|i ks IH]; intros Hnd out out' q q' q2 cin Hq Hc H.
  - cbn [foldM] in *. injection H as <- <-. split; [reflexivity|]. exists q2. split; [destruct cin; reflexivity|reflexivity].
  - apply NoDup_cons_iff in Hnd as [Hi Hnd]. cbn [foldM] in *. apply bind_inv in H as ([o1 q1] & H1 & H).
    apply bind_inv in H1 as (a & Ea & H1). apply bind_inv in H1 as (p & Ep & H1). apply bind_inv in H1 as ([qq pp1] & Ed & H1). apply bind_inv in H1 as (p2 & Et & H1). injection H1 as <- <-.
    set (ao := option_map (fun _ => a) src). assert (Er : rd ao p = a). { unfold ao. destruct src as [c0|]; [reflexivity|]. cbn [rd option_map] in *. congruence. }
    rewrite <- Er in Ed. destruct (manyC cl rQ level nb ao q p qq pp1 q2 p2 Hn Ed Hq Et) as (q3 & d' & E3 & L3 & L4 & T3).
    assert (Es : match cin with Some c => bind (sptr c i) (fun a => Ok (Some a)) | None => Ok None end = Ok ao).
    { unfold ao. destruct src as [c0|], cin as [c|]; try contradiction; [|reflexivity]. cbn [rd] in Ea. rewrite (sptr_ext c c0 i) by (apply Hc; now left). rewrite Ea. reflexivity. }
    rewrite Es. cbn [bind]. rewrite Ep. cbn [bind]. rewrite E3. cbn [bind]. rewrite T3. cbn [bind].
    set (cin' := match cin, option_map (spoiled cl rQ level) ao with Some c, Some a => Some (sset c i a) | _, _ => cin end).
    destruct (IH Hnd (sset out i p2) out' qq q' q3 cin' ltac:(congruence)) as (LL & q4 & E4 & L5).
    + unfold cin', ao. destruct src as [c0|], cin as [c|]; try contradiction; [|exact I]. cbn [option_map]. intros id Hid. rewrite (mget_mset_other _ seqb) by (intros ->; contradiction). apply Hc. now right.
    + exact H.
    + split; [congruence|]. exists q4. split; [|congruence]. etransitivity; [exact E4|]. do 3 f_equal. unfold cin', ao. destruct src as [c0|], cin as [c|]; try contradiction; [|reflexivity]. cbn [option_map]. unfold spoil. cbn [fold_left]. cbn [rd] in Ea. apply sptr_inv in Ea. rewrite (Hc i) by now left. now rewrite Ea.
Qed.
(** RescaleC gives what Rescale gives; the operand loses its last limb *)
Lemma RescaleC_of o src ms ctOut st e out st1 : order_ok o -> NoDup (mkeys (c_ct ctOut)) ->
  RescaleAt ce o src ms ctOut st = Ok (e, out, st1) ->
  (forall l sc n, fleb ms f0 = false -> feqb (c_scale (rd src ctOut)) f0 = false -> l <> O -> ctLevel (c_ct (rd src ctOut)) = Ok l -> rescaleLoop ce l (c_scale (rd src ctOut)) (fdiv ms (f_of_Z 2)) = Ok (sc, n) -> (n <= l)%nat) ->
  exists q, RescaleC cl ce o src ms ctOut st = Ok (e,
    match src with Some ct => if fleb ms f0 || feqb (c_scale ct) f0 then src else match ctLevel (c_ct ct) with Ok (S l) => match rescaleLoop ce (S l) (c_scale ct) (fdiv ms (f_of_Z 2)) with Ok (_, S _) => Some (mkCk (spoil (S l) (o 0%nat (mkeys (c_ct ctOut))) (c_ct ct)) (c_scale ct)) | _ => src end | _ => src end | None => None end,
    out, set_q q st1) /\ plen q = plen (ev_q st1).
Proof.
  intros Ho Hn HH Hl. revert HH. unfold RescaleAt, RescaleC. set (ctIn := rd src ctOut) in *.
  assert (Hm : forall st, set_q (ev_q st) st = st) by (intros []; reflexivity).
  destruct (fleb ms f0) eqn:E1; [intros [= <- <- <-]; exists (ev_q st); rewrite Hm; split; [destruct src; reflexivity|reflexivity]|].
  destruct (feqb (c_scale ctIn) f0) eqn:E2; [intros [= <- <- <-]; exists (ev_q st); rewrite Hm; split; [destruct src; [cbn [rd] in ctIn; subst ctIn; rewrite E2; reflexivity|reflexivity]|reflexivity]|].
  destruct (ctLevel (c_ct ctIn)) as [level|] eqn:El; [|discriminate]. cbn [bind].
  destruct (Nat.eqb_spec level 0) as [->|Hl0]; [intros [= <- <- <-]; exists (ev_q st); rewrite Hm; split; [destruct src; [cbn [rd] in ctIn; subst ctIn; rewrite E2, El; reflexivity|reflexivity]|reflexivity]|].
  destruct (rescaleLoop ce level (c_scale ctIn) _) as [[sc nb]|] eqn:Er; [|discriminate]. cbn [bind]. destruct level as [|l]; [congruence|].
  destruct nb as [|nb]; [cbn [Nat.eqb]; intros [= <- <- <-]; exists (ev_q st); rewrite Hm; split; [destruct src; [cbn [rd] in ctIn; subst ctIn; rewrite E2, El, Er; reflexivity|reflexivity]|reflexivity]|].
  specialize (Hl _ _ _ eq_refl eq_refl Hl0 eq_refl Er). cbn [Nat.eqb]. intros H. apply bind_inv in H as ([o1 q1] & H & HE). injection HE as <- <- <-.
  destruct (foldC (S l) (S nb) (option_map c_ct src) (o 0%nat (mkeys (c_ct ctOut))) ltac:(lia) (order_nodup _ _ _ Ho Hn) (c_ct ctOut) o1 (ev_q st) q1 (ev_q st) (option_map c_ct src) eq_refl) as (LL & q3 & E3 & L3).
  - destruct src; cbn [option_map]; auto.
  - exact H.
  - match goal with |- context [bind (foldM ?F ?L ?i) ?k] => assert (X : foldM F L i = Ok (option_map (spoil (S l) (o 0%nat (mkeys (c_ct ctOut)))) (option_map c_ct src), o1, q3)) by exact E3; rewrite X end. cbn [bind]. exists q3. split; [|cbn; congruence].
    destruct src as [ct|]; [|reflexivity]. cbn [rd option_map] in *. subst ctIn. rewrite E2, El, Er. reflexivity.
Qed.
End R.
