(** Consequences of the data-preparation lemmas, in the form in which Props_Data.v states them. *)
From Coq Require Import Reals String ZArith List Lia Lra Bool.
From Coq.Floats Require Import SpecFloat.
From Flocq Require Import Core.
From Verif Require Import Spec Go GoProofs Arith F64 F64Proofs SpecLR SpecLREnc Utils LR LRData SpecData LRDataProofs LRNorm LRCount LREncProofs LREncLR Shipped EvWorld LRDataWorld.
Import ListNotations.
Local Open Scope nat_scope.

Lemma labels k numData label : (Z.abs k <= 2 ^ 53)%Z -> numData <= length label -> exists label', relabel (isClass (f_of_Z k)) numData label = Ok label' /\ length label' = length label /\
  forall i l, i < numData -> nth_error label i = Some l -> finite l -> exists b, nth_error label' i = Some (lab b) /\ (b = true <-> fR l = IZR k).
Proof.
  intros Hk H. destruct (relabel_ok (isClass (f_of_Z k)) numData label H) as (l' & E & L & R & _). exists l'. split; [exact E|]. split; [exact L|]. intros i l Hi El Hf. exists (isClass (f_of_Z k) l).
  rewrite (R i l Hi El). split; [destruct (isClass _ l); reflexivity|]. now apply class_eq.
Qed.
Lemma labels_int numData label : numData <= length label -> exists label', relabel (isClassInt 0) numData label = Ok label' /\ length label' = length label /\
  forall i l, i < numData -> nth_error label i = Some l -> finite l -> exists b, nth_error label' i = Some (lab b) /\ (b = true <-> (-1 < fR l < 1)%R).
Proof.
  intros H. destruct (relabel_ok (isClassInt 0) numData label H) as (l' & E & L & R & _). exists l'. split; [exact E|]. split; [exact L|]. intros i l Hi El Hf. exists (isClassInt 0 l).
  rewrite (R i l Hi El). split; [destruct (isClassInt 0 l); reflexivity|]. now apply class_int_0.
Qed.
Lemma missing_rows parse numData numFeature recs F L : readData parse numData numFeature recs = Ok (F, L) -> length (tl recs) < numData -> forall isC, isC = isClass f0 \/ isC = isClassInt 0 -> exists L', relabel isC numData L = Ok L' /\
  forall i, length (tl recs) <= i < numData -> nth_error F i = Some [] /\ nth_error L' i = Some (lab true).
Proof.
  intros E Hs isC HC. assert (Hok : file_ok parse numData numFeature recs) by (apply read_iff; eauto). destruct (read_ok _ _ _ _ Hok) as (F' & L' & E' & [HF HL _ HR]). rewrite E in E'. injection E' as <- <-.
  destruct (relabel_ok isC numData L ltac:(lia)) as (L' & E2 & _ & R & _). exists L'. split; [exact E2|]. intros i Hi. destruct (HR i Hi) as [H1 H2]. split; [exact H1|]. rewrite (R i f0 ltac:(lia) H2). destruct HC as [->| ->]; reflexivity.
Qed.
Lemma normalise_missing_rows parse numData numFeature recs F L : readData parse numData numFeature recs = Ok (F, L) -> length (tl recs) < numData -> 0 < numFeature -> forall m dv t', normalise f64num numData numFeature m dv F <> Ok t'.
Proof.
  intros E Hs Hd m dv t'. destruct (missing_rows _ _ _ _ _ _ E Hs (isClassInt 0) (or_intror eq_refl)) as (L' & _ & H). destruct (H (length (tl recs)) ltac:(lia)) as [H1 _].
  exact (normalise_missing f64num numData numFeature m dv F _ Hs H1 Hd t').
Qed.
Lemma labels_disagree : finite fhalf /\ fR fhalf = (1 / 2)%R /\ isClass f0 fhalf = false /\ isClassInt 0 fhalf = true.
Proof. split; [reflexivity|]. split; [exact (fR_fval _ _ fval_half)|]. split; reflexivity. Qed.
Lemma count_nan_all fs labels : Forall (eq S754_nan) fs -> countCorrect fs labels = 0.
Proof.
  intros H. unfold countCorrect. generalize 0. revert labels. induction H as [|x fs <- H IH]; intros ls c; [reflexivity|]. destruct ls; [reflexivity|]. cbn [combine fold_left fst snd]. apply IH.
Qed.
Lemma kept_spec j : kept j <-> scaled j = false.
Proof.
  unfold kept, scaled. destruct (Nat.eqb_spec j 1), (Nat.eqb_spec j 3), (Nat.eqb_spec j 5), (Nat.ltb_spec j 17); cbn; split; intros; try discriminate; try reflexivity; lia.
Qed.
Lemma normalise_normalised numData d m dv tab : table tab numData d -> 0 < m <= numData -> (0 < dv)%R -> exists tab', normalise Rnum numData d m dv tab = Ok tab' /\ normalised numData d m dv tab tab'.
Proof.
  intros H1 H2 H3. destruct (normalise_real numData d m dv tab H1 H2 H3) as (t & E & T & K & S). exists t. split; [exact E|]. split; [exact T|]. split.
  - intros i j Hi Hj Hk. apply K; auto. now apply kept_spec.
  - intros j Hj Hk. apply S; [exact Hj|]. destruct (scaled j) eqn:Es; [reflexivity|]. destruct Hk. now apply kept_spec.
Qed.
Lemma normalise_toy numData d m tab : table tab numData d -> 0 < m <= numData -> exists tab', normaliseToy Rnum numData d m tab = Ok tab' /\ normalised numData d m (INR m) tab tab'.
Proof. intros H1 H2. apply normalise_normalised; auto. cbn. apply lt_0_INR. lia. Qed.
Lemma normalise_minibatch_toy numData d m tab : table tab numData d -> 1 < m <= numData -> exists tab', normaliseMinibatchToy Rnum numData d m tab = Ok tab' /\ normalised numData d m (INR m - 1) tab tab'.
Proof. intros H1 H2. apply (normalise_normalised numData d m (INR m - 1)); auto; [lia|]. assert (1 < INR m)%R by (apply lt_1_INR; lia). lra. Qed.
Lemma normalise_case : let tab := [[1; 5]; [3; 6]; [4; 7]]%R in table tab 3 2 /\ 1 < 2 <= 3 /\ ~ kept 0 /\ kept 1 /\ entry 0%R tab 0 0 <> entry 0%R tab 1 0.
Proof. cbv zeta. split; [|split; [lia|split; [unfold kept; lia|split; [unfold kept; lia|unfold entry; cbn; lra]]]]. split; [cbn; lia|]. intros [|[|[|i]]] Hi; cbn; lia. Qed.
Lemma constant_kept numData d m dv tab j k : table tab numData d -> 0 < m <= numData -> j < d -> ~ kept j -> (Z.abs k * Z.of_nat m <= 2 ^ 53)%Z ->
  (forall i, i < m -> finite (entry f0 tab i j) /\ fR (entry f0 tab i j) = IZR k) ->
  exists tab', normalise f64num numData d m dv tab = Ok tab' /\ forall i, i < m -> entry f0 tab' i j = S754_nan.
Proof. intros H1 H2 H3 Hk. apply constant_column; auto. destruct (scaled j) eqn:Es; [reflexivity|]. destruct Hk. now apply kept_spec. Qed.
Lemma constant_case : let tab := repeat [f_of_Z 7] 4 in table tab 4 1 /\ (Z.abs 7 * Z.of_nat 3 <= 2 ^ 53)%Z /\ forall i, i < 3 -> finite (entry f0 tab i 0) /\ fR (entry f0 tab i 0) = 7%R.
Proof.
  cbv zeta. split; [split; [cbn; lia|intros [|[|[|[|i]]]] Hi; cbn; lia]|]. split; [lia|]. intros i Hi. assert (E : entry f0 (repeat [f_of_Z 7] 4) i 0 = f_of_Z 7) by (destruct i as [|[|[|i]]]; [reflexivity..|lia]). rewrite E.
  assert (F : fval (f_of_Z 7) 7) by (apply fval_small; lia). split; [apply finite_fval; eauto|now apply fR_fval].
Qed.
