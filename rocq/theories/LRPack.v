(** The packing of the mini-batch program, and its training loop. *)
From Coq Require Import ZArith Lia List Bool Ring_theory InitialRing Ring.
From Verif Require Import Go LR SpecSlots SpecLR SlotThms LRProofs.
Import ListNotations.
Local Open Scope Z_scope.

Lemma mapM_ok {A B} (f : A -> res B) g l : (forall x, In x l -> f x = Ok (g x)) -> mapM f l = Ok (map g l).
Proof. induction l as [|x l IH]; intros H; cbn; [reflexivity|]. rewrite H by (left; auto). cbn [bind]. rewrite IH by (intros; apply H; right; auto). reflexivity. Qed.
(** the indices below [m] of an interval *)
Definition below (m a k : nat) : list nat := filter (fun d => Nat.ltb d m) (seq a k).
Lemma below_app m a k1 k2 : below m a (k1 + k2) = below m a k1 ++ below m (a + k1) k2.
Proof. unfold below. rewrite seq_app, filter_app. reflexivity. Qed.
Lemma below_all m a k : (a + k <= m)%nat -> below m a k = seq a k.
Proof.
  intros H. unfold below. rewrite <- (filter_ext_in (fun _ => true)); [|intros d Hd; apply in_seq in Hd; destruct (Nat.ltb_spec d m); [auto|lia]].
  induction (seq a k) as [|x l IH]; cbn; [reflexivity|]. now rewrite IH.
Qed.

Section Ring.
Context {R : Type} (rO rI : R) (radd rmul rsub : R -> R -> R) (ropp : R -> R).
Context (RT : ring_theory rO rI radd rmul rsub ropp (@eq R)).
Add Ring R_ring3 : RT.
Notation "x +' y" := (radd x y) (at level 50, left associativity).
Notation "x -' y" := (rsub x y) (at level 50, left associativity).
Notation "x *' y" := (rmul x y) (at level 40, left associativity).
Notation gr := (gradient rO radd rmul rsub).
Notation nst := (nesterov rO rI radd rmul rsub).
Notation nsf := (nesterovFrom rO rI radd rmul rsub).
Notation nsa := (nesterovAll rO rI radd rmul rsub).
Notation SO := (sumOver rO radd).
Notation XO := (exactOps rO radd rmul).
Notation VK := (vconst rO rI rmul rsub ropp).

Lemma sumOver_below m base (g h : nat -> R) : forall k a, (forall t, (a <= t < a + k)%nat -> g t = if Nat.ltb (base + t) m then h (base + t)%nat else rO) ->
  SO (seq a k) g = SO (below m (base + a) k) h.
Proof.
  induction k as [|k IH]; intros a H; [reflexivity|]. unfold below. cbn [seq filter sumOver]. rewrite (H a) by lia.
  rewrite (IH (S a)) by (intros; apply H; lia). rewrite Nat.add_succ_r. unfold below. destruct (Nat.ltb_spec (base + a) m); cbn [sumOver]; ring.
Qed.
Lemma sumOver_zero g l : (forall t, In t l -> g t = rO) -> SO l g = rO.
Proof. induction l as [|x l IH]; intros H; cbn [sumOver]; [reflexivity|]. rewrite H, IH by (intros; try apply H; cbn; auto). ring. Qed.

(** ** The loops that fill one vector *)
Lemma packLoop_ok numTrain nct real spd nf b i item (f : nat -> nat -> R) : (0 < spd)%nat -> (nf <= spd)%nat -> (forall d k, (d < numTrain)%nat -> (k < nf)%nat -> item d k = Ok (f d k)) ->
  forall m a v, ((a + m) * spd <= length v)%nat ->
  exists v', packLoop numTrain nct real spd nf b i item (seq a m) v = Ok v' /\ length v' = length v /\
    forall k, nth k v' rO = if Nat.leb a (k / spd) && Nat.ltb (k / spd) (a + m) && Nat.ltb (dataId nct real b i (k / spd)) numTrain && Nat.ltb (k mod spd) nf
                            then f (dataId nct real b i (k / spd)) (k mod spd)%nat else nth k v rO.
Proof.
  intros Hspd Hnf Hitem. induction m as [|m IH]; intros a v Hl; cbn [seq packLoop].
  - exists v. split; [reflexivity|]. split; [reflexivity|]. intros k. destruct (Nat.leb_spec a (k / spd)); destruct (Nat.ltb_spec (k / spd) (a + 0)); cbn [andb]; auto; lia.
  - destruct (Nat.leb_spec numTrain (dataId nct real b i a)) as [Hd|Hd].
    + exists v. split; [reflexivity|]. split; [reflexivity|]. intros k. destruct (Nat.leb_spec a (k / spd)) as [Ha|Ha]; [|reflexivity].
      destruct (Nat.ltb_spec (dataId nct real b i (k / spd)) numTrain) as [Hd2|Hd2]; [unfold dataId in *; lia|]. rewrite andb_false_r. reflexivity.
    + assert (Hb : (a * spd + 0 + nf <= length v)%nat) by nia.
      destruct (writes_ok rO (item (dataId nct real b i a)) (f (dataId nct real b i a)) (a * spd) nf 0 v) as (v1 & E1 & L1 & N1); [intros k Hk; apply Hitem; lia|exact Hb|].
      rewrite E1. cbn [bind]. destruct (IH (S a) v1) as (v2 & E2 & L2 & N2); [rewrite L1; nia|]. exists v2. split; [exact E2|]. split; [congruence|]. intros k. rewrite N2, N1.
      pose proof (Nat.div_mod k spd ltac:(lia)) as Dk. pose proof (Nat.mod_upper_bound k spd ltac:(lia)) as Mk.
      destruct (Nat.eq_dec (k / spd) a) as [Ea|Ea].
      * rewrite Ea. destruct (Nat.leb_spec (S a) a); [lia|]. destruct (Nat.leb_spec a a); [|lia]. destruct (Nat.ltb_spec a (a + S m)); [|lia]. destruct (Nat.ltb_spec (dataId nct real b i a) numTrain); [|lia].
        cbn [andb]. rewrite Ea in Dk. destruct (Nat.leb_spec (a * spd + 0) k); [|lia]. destruct (Nat.ltb_spec (k mod spd) nf); destruct (Nat.ltb_spec k (a * spd + 0 + nf)); cbn [andb]; try lia; auto. f_equal. lia.
      * assert (Eo : Nat.leb (a * spd + 0) k && Nat.ltb k (a * spd + 0 + nf) = false).
        { destruct (Nat.leb_spec (a * spd + 0) k) as [H1|H1]; [|reflexivity]. destruct (Nat.ltb_spec k (a * spd + 0 + nf)) as [H2|H2]; [|reflexivity]. exfalso. apply Ea. symmetry. apply Nat.div_unique with (k - a * spd)%nat; lia. }
        rewrite Eo. destruct (Nat.leb_spec (S a) (k / spd)); destruct (Nat.leb_spec a (k / spd)); destruct (Nat.ltb_spec (k / spd) (S a + m)); destruct (Nat.ltb_spec (k / spd) (a + S m)); cbn [andb]; auto; lia.
Qed.

Section Config.
Context (s nf batchSize numTrain : nat).
Context (Hs : (Nat.log2_up nf <= s)%nat) (Hbs : (0 < batchSize)%nat).
Notation c := (Nat.log2_up nf).
Notation r := (s - Nat.log2_up nf)%nat.
Notation real := (realNumDataPerCt (2 ^ s) nf batchSize).
Notation nct := (numCtPerBatch (2 ^ s) nf batchSize).
Lemma nf_le : (nf <= 2 ^ c)%nat.
Proof. destruct (Nat.le_gt_cases nf 1) as [H|H]; [|apply Nat.log2_up_spec; lia]. destruct nf as [|[|]]; cbn; lia. Qed.
Lemma perCt : numDataPerCt (2 ^ s) nf = (2 ^ r)%nat. Proof. unfold numDataPerCt. rewrite Nat.log2_pow2 by lia. reflexivity. Qed.
Lemma slots_split : (2 ^ s = 2 ^ r * 2 ^ c)%nat. Proof. rewrite <- Nat.pow_add_r. f_equal. lia. Qed.
Lemma real_le : (0 < real /\ real <= 2 ^ r)%nat.
Proof. unfold realNumDataPerCt. rewrite perCt. pose proof (pow2_pos r). destruct (Nat.ltb_spec batchSize (2 ^ r)); lia. Qed.
(** a batch holds at least batchSize data points *)
Lemma batch_covers : (batchSize <= nct * real)%nat.
Proof.
  unfold numCtPerBatch, realNumDataPerCt. rewrite perCt. pose proof (pow2_pos r) as Hp. set (p := (2 ^ r)%nat) in *. destruct (Nat.ltb_spec batchSize p) as [H|H].
  - assert (0 < (batchSize + p - 1) / p)%nat by (apply Nat.div_str_pos; lia). nia.
  - pose proof (Nat.div_mod (batchSize + p - 1) p ltac:(lia)). pose proof (Nat.mod_upper_bound (batchSize + p - 1) p ltac:(lia)). nia.
Qed.
Lemma batch_exact : (nct * real = batchSize)%nat <-> (batchSize < 2 ^ r)%nat \/ Nat.divide (2 ^ r) batchSize.
Proof.
  unfold numCtPerBatch, realNumDataPerCt. rewrite perCt. pose proof (pow2_pos r) as Hp. set (p := (2 ^ r)%nat) in *. destruct (Nat.ltb_spec batchSize p) as [H|H].
  - assert (E : ((batchSize + p - 1) / p)%nat = 1%nat). { symmetry. apply Nat.div_unique with (batchSize - 1)%nat; lia. } rewrite E. split; [auto|lia].
  - split.
    + intros E. right. exists ((batchSize + p - 1) / p)%nat. lia.
    + intros [H1|[q Hq]]; [lia|]. subst batchSize. assert (E : ((q * p + p - 1) / p)%nat = q). { symmetry. apply Nat.div_unique with (p - 1)%nat; [lia|]. lia. } rewrite E. reflexivity.
Qed.

(** one vector: row j holds the data point of index dataId, or zeros *)
Definition rowHeld (b i t : nat) : bool := Nat.ltb t real && Nat.ltb (dataId nct real b i t) numTrain.
Lemma pack_slots item (f : nat -> nat -> R) b i : (forall d k, (d < numTrain)%nat -> (k < nf)%nat -> item d k = Ok (f d k)) ->
  exists v, packLoop numTrain nct real (slotsPerData nf) nf b i item (seq 0 real) (repeat rO (2 ^ s)) = Ok v /\ length v = (2 ^ s)%nat /\
    forall t k, (t < 2 ^ r)%nat -> (k < 2 ^ c)%nat -> nth (2 ^ c * t + k) v rO = if rowHeld b i t && Nat.ltb k nf then f (dataId nct real b i t) k else rO.
Proof.
  intros Hitem. pose proof real_le as [_ Hr]. pose proof (pow2_pos c) as Hc.
  destruct (packLoop_ok numTrain nct real (slotsPerData nf) nf b i item f) with (m := real) (a := 0%nat) (v := repeat rO (2 ^ s)) as (v & E & L & N); [exact Hc|exact nf_le|exact Hitem| |].
  - rewrite repeat_length. unfold slotsPerData. cbn [Nat.add]. apply Nat.le_trans with (2 ^ r * 2 ^ c)%nat; [apply Nat.mul_le_mono_r; exact Hr|]. rewrite <- slots_split. apply le_n.
  - rewrite repeat_length in L. exists v. split; [exact E|]. split; [exact L|]. intros t k Ht Hk. rewrite N, nth_repeat0. unfold slotsPerData.
    assert (E1 : ((2 ^ c * t + k) / 2 ^ c)%nat = t) by (symmetry; apply Nat.div_unique with k; lia). assert (E2 : ((2 ^ c * t + k) mod 2 ^ c)%nat = k) by (symmetry; apply Nat.mod_unique with t; lia).
    rewrite E1, E2. change (Nat.leb 0 t) with true. cbn [andb Nat.add]. reflexivity.
Qed.
Context (feature : list (list R)) (label : list R) (Ht : table feature numTrain nf) (Hlab : (numTrain <= length label)%nat).
Notation X' := (featureOf rO feature nf).
Notation Y' := (entry1 rO label).
Definition ctX (b i t k : nat) : R := if rowHeld b i t then X' (dataId nct real b i t) k else rO.
Definition ctY (b i t : nat) : R := if rowHeld b i t then Y' (dataId nct real b i t) else rO.
Notation C := (2 ^ Z.of_nat c).
Notation n := (2 ^ Z.of_nat r * 2 ^ Z.of_nat c).
Lemma slot_index i : 0 <= i < n -> exists t k, (t < 2 ^ r)%nat /\ (k < 2 ^ c)%nat /\ Z.to_nat i = (2 ^ c * t + k)%nat /\ Z.to_nat (i / C) = t /\ Z.to_nat (i mod C) = k.
Proof.
  intros Hi. destruct (slot_bounds r c i Hi) as [H1 H2]. exists (Z.to_nat (i / C)), (Z.to_nat (i mod C)). repeat split; auto.
  rewrite div_nat, mod_nat by lia. apply Nat.div_mod. pose proof (pow2_pos c). lia.
Qed.
Lemma packZ_ok b i : exists zl, packZ rO (2 ^ s) nf batchSize numTrain feature b i = Ok zl /\ dataOf C n (ctX b i) (ofList rO zl).
Proof.
  destruct Ht as [Ht1 Ht2]. destruct (pack_slots (fun d k => let* row := idx feature d in idx row k) (entry rO feature) b i) as (v & E & _ & N).
  - intros d k Hd Hk. rewrite (idx_nth feature d []) by lia. cbn [bind]. apply idx_nth. specialize (Ht2 d Hd). lia.
  - exists v. split; [exact E|]. intros x Hx. destruct (slot_index x Hx) as (t & k & H1 & H2 & E0 & E1 & E2). unfold ofList. rewrite E0, E1, E2, (N t k H1 H2). unfold ctX, featureOf. destruct (rowHeld b i t); cbn [andb]; reflexivity.
Qed.
Lemma packLabel_ok b i zl : packZ rO (2 ^ s) nf batchSize numTrain feature b i = Ok zl ->
  exists yl, packLabel rO (2 ^ s) nf batchSize numTrain label b i = Ok yl /\ labelsOf rO C n (ctY b i) (ofList rO zl) (ofList rO yl).
Proof.
  intros Ez. destruct (packZ_ok b i) as (zl' & Ez' & Hz). rewrite Ez in Ez'. inversion Ez'; subst zl'.
  destruct (pack_slots (fun d _ => idx label d) (fun d _ => Y' d) b i) as (v & E & _ & N).
  - intros d k Hd Hk. apply idx_nth. lia.
  - exists v. split; [exact E|]. intros x Hx. rewrite (Hz x Hx). destruct (slot_index x Hx) as (t & k & H1 & H2 & E0 & E1 & E2). unfold ofList. rewrite E0, E1, E2, (N t k H1 H2). unfold ctX, ctY, featureOf.
    destruct (rowHeld b i t); cbn [andb]; [|auto]. destruct (Nat.ltb_spec k nf); auto.
Qed.
(** ciphertext [i] of batch [b] *)
Definition ctOf (b i : nat) : ctData :=
  mkCtData (match packZ rO (2 ^ s) nf batchSize numTrain feature b i with Ok z => ofList rO z | _ => fun _ => rO end)
           (match packLabel rO (2 ^ s) nf batchSize numTrain label b i with Ok z => ofList rO z | _ => fun _ => rO end) (ctX b i) (ctY b i).
Lemma ctOf_ok b i : dataOk rO r c (ctOf b i).
Proof.
  unfold ctOf. destruct (packZ_ok b i) as (zl & Ez & Hz). destruct (packLabel_ok b i zl Ez) as (yl & Ey & Hy). rewrite Ez, Ey. split; assumption.
Qed.

Context (gn c0 c1 c3 c13 : R) (Hc13 : c3 *' c13 = c1) (etas : list R).
Lemma ct_gradient b i V j : gr c0 c1 c3 (2 ^ c) (ctX b i) (ctY b i) (seq 0 (2 ^ r)) V j = gr c0 c1 c3 (2 ^ c) X' Y' (below numTrain (b * nct * real + i * real) real) V j.
Proof.
  pose proof real_le as [_ Hr]. unfold gradient. replace (2 ^ r)%nat with (real + (2 ^ r - real))%nat by lia. rewrite seq_app, (sumOver_app rO rI radd rmul rsub ropp RT).
  rewrite (sumOver_zero _ (seq (0 + real) (2 ^ r - real))).
  - rewrite (sumOver_below numTrain (b * nct * real + i * real) _ (fun d => (sigma3 radd rmul c0 c1 c3 (dot rO radd rmul (2 ^ c) (X' d) V) -' Y' d) *' X' d j) real 0).
    + rewrite Nat.add_0_r. ring.
    + intros t Ht0. unfold ctX, ctY, rowHeld, dataId. destruct (Nat.ltb_spec t real); [|lia]. cbn [andb]. destruct (Nat.ltb (b * nct * real + i * real + t) numTrain); [reflexivity|]. ring.
  - intros t Ht0. apply in_seq in Ht0. unfold ctX, ctY, rowHeld. destruct (Nat.ltb_spec t real); [lia|]. cbn [andb]. ring.
Qed.
Lemma gradAll_batch b V j : gradAll rO radd rmul rsub r c c0 c1 c3 V (map (ctOf b) (seq 0 nct)) j = gr c0 c1 c3 nf X' Y' (below numTrain (b * (nct * real)) (nct * real)) V j.
Proof.
  assert (HX : forall i k, (nf <= k)%nat -> X' i k = rO). { intros i k Hk. unfold featureOf. destruct (Nat.ltb_spec k nf); [lia|reflexivity]. }
  rewrite <- (gradient_dim rO rI radd rmul rsub ropp RT c0 c1 c3 nf (2 ^ c) X' Y' _ V j nf_le HX).
  assert (G : forall m a, gradAll rO radd rmul rsub r c c0 c1 c3 V (map (ctOf b) (seq a m)) j = gr c0 c1 c3 (2 ^ c) X' Y' (below numTrain (b * nct * real + a * real) (m * real)) V j).
  { induction m as [|m IH]; intros a; [reflexivity|]. cbn [seq map gradAll]. rewrite IH. unfold ctOf at 1 2. cbn [d_X d_Y]. rewrite ct_gradient. cbn [Nat.mul]. rewrite below_app.
    unfold gradient at 3. rewrite (sumOver_app rO rI radd rmul rsub ropp RT). unfold gradient. do 3 f_equal. lia. }
  rewrite (G nct 0%nat). do 2 f_equal. lia.
Qed.

Notation numBatch := (numTrain / batchSize)%nat.
(** the data points used by iteration [a] *)
Definition batchIds (a : nat) : list nat := below numTrain (a mod numBatch * (nct * real)) (nct * real).
Context (Hnb : (batchSize <= numTrain)%nat).
Lemma numBatch_pos : (0 < numBatch)%nat. Proof. apply Nat.div_str_pos. lia. Qed.
Definition allBatches : list (list (@slotvec R * @slotvec R * list (@slotvec R))) :=
  map (fun b => map (fun d => ctArg rO rI rmul rsub ropp gn c0 c3 c13 etas d) (map (ctOf b) (seq 0 nct))) (seq 0 numBatch).
Lemma trainBatch_ok mask y0 : maskOf rO rI C n (ofList rO mask) ->
  forall m a V B v b, (a + m <= length etas)%nat -> rowsOf C n V v -> rowsOf C n B b ->
  exists v' b', sfold (batchIter (XO n) (VK gn c0 c3 c13 etas mask y0) (2 ^ Z.of_nat r) C allBatches) (seq a m) (v, b) tt = Ok ((v', b'), tt) /\
    let nb := nsf c0 c1 c3 gn nf X' Y' batchIds a (firstn m (skipn a etas)) (V, B) in rowsOf C n (fst nb) v' /\ rowsOf C n (snd nb) b'.
Proof.
  intros Hmask. induction m as [|m IH]; intros a V B v b Hl Hv Hb; cbn [seq sfold].
  - exists v, b. split; [reflexivity|]. split; assumption.
  - destruct (nth_error etas a) as [eta|] eqn:Ea; [|apply nth_error_None in Ea; lia].
    assert (El : length allBatches = numBatch) by (unfold allBatches; rewrite map_length, seq_length; reflexivity). pose proof numBatch_pos as Hp.
    assert (Hmod : (a mod numBatch < numBatch)%nat) by (apply Nat.mod_upper_bound; lia).
    set (ds := map (ctOf (a mod numBatch)) (seq 0 nct)).
    destruct (batchIter_ok rO rI radd rmul rsub ropp RT r c gn c0 c1 c3 c13 Hc13 etas mask y0 Hmask allBatches V B v b a eta ds Ea Hv Hb) as (v1 & b1 & E1 & H1 & H2).
    + lia.
    + rewrite El. unfold allBatches. rewrite nth_error_map. rewrite (nth_error_nth' (seq 0 numBatch) 0%nat) by (rewrite seq_length; exact Hmod). rewrite seq_nth by exact Hmod. reflexivity.
    + unfold ds. apply Forall_forall. intros d Hd. apply in_map_iff in Hd. destruct Hd as (i & <- & _). apply ctOf_ok.
    + rewrite (sbind_ok _ _ _ _ _ E1). set (nb := nst c0 c1 c3 gn nf X' Y' (batchIds a) eta (V, B)).
      destruct (IH (S a) (fst nb) (snd nb) v1 b1) as (v2 & b2 & E2 & H3); [lia| | |].
      * intros i Hi. rewrite (H1 i Hi). unfold ds. rewrite gradAll_batch. reflexivity.
      * intros i Hi. rewrite (H2 i Hi). unfold ds. rewrite gradAll_batch. reflexivity.
      * exists v2, b2. split; [exact E2|]. rewrite (firstn_skipn_cons _ _ _ _ Ea). cbn [nesterovFrom]. fold nb. rewrite <- surjective_pairing in H3. exact H3.
Qed.
Theorem lrTrainBatch_ok numIter : (numIter <= length etas)%nat ->
  exists v beta, lrTrainBatch rO rI radd rmul rsub ropp (2 ^ s) nf (2 ^ c) numTrain batchSize numIter gn c0 c3 c13 etas feature label = Ok (v, beta) /\
    let nb := nsa c0 c1 c3 gn nf (entry rO feature) (entry1 rO label) batchIds (firstn numIter etas) in
    forall row j, (row < 2 ^ r)%nat -> (j < nf)%nat -> let i := Z.of_nat (2 ^ c * row + j) in v i = fst nb j /\ beta i = snd nb j.
Proof.
  intros He. unfold lrTrainBatch, packBatches. rewrite (mapM_ok _ (fun b => map (fun d => ctArg rO rI rmul rsub ropp gn c0 c3 c13 etas d) (map (ctOf b) (seq 0 nct)))).
  2:{ intros b _. rewrite map_map. apply mapM_ok. intros i _. unfold ctArg, ctOf. cbn [d_z d_y]. destruct (packZ_ok b i) as (zl & Ez & _). destruct (packLabel_ok b i zl Ez) as (yl & Ey & _). rewrite Ez, Ey. reflexivity. }
  cbn [bind]. fold allBatches.
  assert (En : Z.of_nat (2 ^ s) = n) by (rewrite slots_split, Nat2Z.inj_mul, !Nat2Z.inj_pow; reflexivity).
  rewrite perCt. unfold slotsPerData. rewrite En, !(Nat2Z.inj_pow 2). change (Z.of_nat 2) with 2.
  destruct (trainBatch_ok (maskVector rO rI (2 ^ s) (2 ^ c)) (fun _ => rO) (mask_ok rO rI (2 ^ s) c n En)) with (m := numIter) (a := 0%nat) (V := fun _ : nat => rO) (B := fun _ : nat => rO) (v := fun _ : Z => rO) (b := fun _ : Z => rO) as (v & b & E & Hv & Hb).
  - lia.
  - intros i _. reflexivity.
  - intros i _. reflexivity.
  - exists v, b. unfold trainBatch. rewrite E. split; [reflexivity|]. intros row j Hrow Hj. set (i := Z.of_nat (2 ^ c * row + j)). pose proof nf_le.
    destruct (slot_split r c row j Hrow ltac:(lia)) as (Hi & _ & E2).
    assert (Ei : i = C * Z.of_nat row + Z.of_nat j). { unfold i. rewrite Nat2Z.inj_add, Nat2Z.inj_mul, Nat2Z.inj_pow. reflexivity. }
    rewrite Ei, (Hv _ Hi), (Hb _ Hi), E2. unfold nesterovAll. apply nesterovFrom_agree; [|auto|exact Hj].
    intros i0 k Hk. unfold featureOf. destruct (Nat.ltb_spec k nf); [reflexivity|lia].
Qed.
End Config.
End Ring.
