(** Which rotation keys the logistic-regression programs use. *)
From Coq Require Import String ZArith List Lia Bool.
From Verif Require Import Go GoProofs Lattigo BasisExt Arith NTT RingOps Maps MapsProofs Params Elements KeySwitch KeySets KeyGen F64 EncDec Evaluator SpecRot SpecRotUse LR LREval LRSetup ConcProofs KSMulProofs KSSem RotEvThms AliasProofs.
Import ListNotations.
Local Open Scope Z_scope.

(** ** two key sets *)
Section K.
Context (ce : ckenv).
Notation pp := (e_pp (ce_env ce)).
Context (rks rks' : rotset) (Hk : same_powers pp rks rks').

Lemma foldM_pw {A S} (f g : S -> A -> res S) l : (forall s a, f s a = g s a) -> forall s, foldM f l s = foldM g l s.
Proof. intros H. induction l as [|a l IH]; intros s; [reflexivity|]. cbn [foldM]. rewrite H. destruct (g s a); [apply IH|reflexivity]. Qed.
Lemma bind_pw {A B} (m : res A) (f g : A -> res B) : (forall a, f a = g a) -> bind m f = bind m g.
Proof. intros H. destruct m; [apply H|reflexivity]. Qed.
Lemma normNeg_pos logN k : 0 <= k -> normNeg logN k = k.
Proof. intros H. unfold normNeg. now rewrite (proj2 (Z.ltb_ge _ _) H). Qed.
Lemma rotate_pow o tmp i out kp : (i < pa_logN pp - 1)%nat -> Rotate (ce_env ce) o tmp (2 ^ Z.of_nat i) rks out kp = Rotate (ce_env ce) o tmp (2 ^ Z.of_nat i) rks' out kp.
Proof.
  intros Hi. unfold Rotate, RotateGen. rewrite normNeg_pos by (apply Z.pow_nonneg; lia).
  apply bind_pw. intros level. apply bind_pw. intros ids. apply bind_pw. intros li. destruct (li <? level)%nat; [reflexivity|].
  apply bind_pw. intros c0. apply bind_pw. intros ct. f_equal. apply foldM_pw. intros [ct1 k1] id. now rewrite (Hk id i Hi).
Qed.
Lemma rotBits_pow o p : forall a tmp out kp, Z.pos p * 2 ^ Z.of_nat a < 2 ^ Z.of_nat (pa_logN pp - 1) ->
  rotBits ce o p (2 ^ Z.of_nat a) rks tmp out kp = rotBits ce o p (2 ^ Z.of_nat a) rks' tmp out kp.
Proof.
  assert (ST : forall a, 2 * 2 ^ Z.of_nat a = 2 ^ Z.of_nat (S a)). { intros a. rewrite Nat2Z.inj_succ, Z.pow_succ_r by lia. reflexivity. }
  assert (LT : forall q a, Z.pos q * 2 ^ Z.of_nat a < 2 ^ Z.of_nat (pa_logN pp - 1) -> (a < pa_logN pp - 1)%nat).
  { intros q a H. pose proof (Z.pow_pos_nonneg 2 (Z.of_nat a) ltac:(lia) ltac:(lia)). assert (H1 : 2 ^ Z.of_nat a < 2 ^ Z.of_nat (pa_logN pp - 1)) by nia.
    apply Z.pow_lt_mono_r_iff in H1; lia. }
  induction p as [p IH|p IH|]; intros a tmp out kp H; cbn [rotBits].
  - rewrite (rotate_pow o tmp a out kp (LT _ _ H)). apply bind_pw. intros [out1 kp1]. apply bind_pw. intros tmp1. rewrite ST. apply IH. rewrite <- ST. lia.
  - rewrite ST. apply IH. rewrite <- ST. lia.
  - now rewrite (rotate_pow o tmp a out kp (LT _ _ H)).
Qed.
Lemma half_pow : (1 <= pa_logN pp)%nat -> Z.of_nat (pa_N pp) / 2 = 2 ^ Z.of_nat (pa_logN pp - 1).
Proof.
  intros H. unfold pa_N, deg. rewrite Nat2Z.inj_pow. replace (Z.of_nat (pa_logN pp)) with (Z.of_nat (pa_logN pp - 1) + 1) by lia. rewrite Z.pow_add_r by lia.
  change (Z.of_nat 2 ^ 1) with 2. now rewrite Z.div_mul by lia.
Qed.
Lemma rotateNew_powers o ct k st : (1 <= pa_logN pp)%nat -> by_powers pp k -> RotateNew ce o ct k rks st = RotateNew ce o ct k rks' st.
Proof.
  intros Hl Hp. unfold RotateNew. apply bind_pw. intros ids. apply bind_pw. intros l. unfold normRot. unfold by_powers in Hp. pose proof (half_pow Hl) as Eh.
  assert (Hh : 0 < Z.of_nat (pa_N pp) / 2) by (rewrite Eh; apply Z.pow_pos_nonneg; lia). pose proof (Z.mod_pos_bound k _ Hh) as Hb.
  destruct (k mod (Z.of_nat (pa_N pp) / 2)) as [|p|p] eqn:Er; [reflexivity| |reflexivity].
  destruct (mhas Z.eqb (pa_CRS pp) (Z.pos p)) eqn:Em.
  - destruct Hp as [Hp|[Hp|(i & Hi)]]; [discriminate| |].
    + rewrite has_crs_nb in Em by exact Hp. discriminate.
    + rewrite Hi. rewrite (rotate_pow o (c_ct ct) i); [reflexivity|]. rewrite Hi, Eh in Hb. apply Nat2Z.inj_lt. apply (Z.pow_lt_mono_r_iff 2); lia.
  - apply bind_pw. intros tmp. change 1 with (2 ^ Z.of_nat 0). rewrite rotBits_pow; [reflexivity|]. rewrite <- Eh. cbn. lia.
Qed.
End K.

(** ** two sets of operations that agree on the rotations a program asks for *)
Section Ops.
Context {S ct pt : Type} (E E' : heops S ct pt) (Pk : Z -> Prop).
Context (Hmul : forall f a b st, o_mul E f a b st = o_mul E' f a b st) (Hmulp : forall a p st, o_mulp E a p st = o_mulp E' a p st)
  (Hadd : forall a b st, o_add E a b st = o_add E' a b st) (Hrot : forall a k st, Pk k -> o_rot E a k st = o_rot E' a k st) (Hzero : forall st, o_zero E st = o_zero E' st).
Definition seq_ {A} (m m' : SM S A) : Prop := forall st, m st = m' st.
Lemma sb {A B} (m m' : SM S A) (k k' : A -> SM S B) : seq_ m m' -> (forall a, seq_ (k a) (k' a)) -> seq_ (sbind m k) (sbind m' k').
Proof. intros H1 H2 st. unfold sbind. rewrite H1. destruct (m' st) as [[a st1]|]; [apply H2|reflexivity]. Qed.
Lemma sr {A} (m : SM S A) : seq_ m m. Proof. intros st. reflexivity. Qed.
Lemma sumLoop_eq amount : (forall j : nat, Pk (amount (2 ^ Z.of_nat j))) -> forall fuel j bound c, seq_ (sumLoop E fuel (2 ^ Z.of_nat j) bound amount c) (sumLoop E' fuel (2 ^ Z.of_nat j) bound amount c).
Proof.
  intros HP. induction fuel as [|fuel IH]; intros j bound c; cbn [sumLoop]; destruct (2 ^ Z.of_nat j <? bound); try apply sr.
  apply sb; [intros st; now apply Hrot|]. intros r. apply sb; [intros st; apply Hadd|]. intros c'.
  replace (2 * 2 ^ Z.of_nat j) with (2 ^ Z.of_nat (Datatypes.S j)) by (rewrite Nat2Z.inj_succ, Z.pow_succ_r by lia; reflexivity). apply IH.
Qed.
Lemma rotSum_eq bound amount c : (forall j : nat, Pk (amount (2 ^ Z.of_nat j))) -> seq_ (rotSum E bound amount c) (rotSum E' bound amount c).
Proof. intros HP. unfold rotSum. change 1 with (2 ^ Z.of_nat 0). now apply sumLoop_eq. Qed.
Context (numRow numCol : Z) (HP1 : forall j : nat, Pk (2 ^ Z.of_nat j)) (HP2 : forall j : nat, Pk (numCol * 2 ^ Z.of_nat j)).
(* the backward rotations happen only while 2^j < numCol *)
Lemma sumLoop_neg : (forall j : nat, 2 ^ Z.of_nat j < numCol -> Pk (- 2 ^ Z.of_nat j)) -> forall fuel j c, seq_ (sumLoop E fuel (2 ^ Z.of_nat j) numCol (fun i => - i) c) (sumLoop E' fuel (2 ^ Z.of_nat j) numCol (fun i => - i) c).
Proof.
  intros HP. induction fuel as [|fuel IH]; intros j c; cbn [sumLoop]; destruct (Z.ltb_spec (2 ^ Z.of_nat j) numCol) as [Hlt|]; try apply sr.
  apply sb; [intros st; now apply Hrot, HP|]. intros r. apply sb; [intros st; apply Hadd|]. intros c'.
  replace (2 * 2 ^ Z.of_nat j) with (2 ^ Z.of_nat (Datatypes.S j)) by (rewrite Nat2Z.inj_succ, Z.pow_succ_r by lia; reflexivity). apply IH.
Qed.
Context (HP3 : forall j : nat, 2 ^ Z.of_nat j < numCol -> Pk (- 2 ^ Z.of_nat j)).
Lemma SumCol_eq c mask : seq_ (SumColVec E c mask numRow numCol) (SumColVec E' c mask numRow numCol).
Proof.
  unfold SumColVec. apply sb; [now apply rotSum_eq|]. intros c1. apply sb; [intros st; apply Hmulp|]. intros c2. unfold rotSum. change 1 with (2 ^ Z.of_nat 0). now apply sumLoop_neg.
Qed.
Lemma SumRow_eq c : seq_ (SumRowVec E c numRow numCol) (SumRowVec E' c numRow numCol).
Proof. unfold SumRowVec. now apply rotSum_eq. Qed.
Ltac ag := repeat (first [apply sr | (intros ?st; first [apply Hmul|apply Hmulp|apply Hadd|apply Hzero|(apply Hrot; auto)]) | apply SumCol_eq | apply SumRow_eq | (apply rotSum_eq; assumption) | (apply sb; [|intros ?x])]).
Lemma trainIter_eq K z vb a : seq_ (trainIter E K numRow numCol z vb a) (trainIter E' K numRow numCol z vb a).
Proof. destruct vb as [v beta]. unfold trainIter. ag. Qed.
Lemma sfold_eq {A B} (f g : B -> A -> SM S B) : (forall b a, seq_ (f b a) (g b a)) -> forall l b, seq_ (sfold f l b) (sfold g l b).
Proof. intros H. induction l as [|a l IH]; intros b; cbn [sfold]; [apply sr|]. apply sb; [apply H|exact IH]. Qed.
Lemma infer_eq K nf t beta : seq_ (infer E K nf t beta) (infer E' K nf t beta).
Proof. unfold infer. ag. Qed.
Lemma batchCt_eq K a v acc d : seq_ (batchCt E K numRow numCol a v acc d) (batchCt E' K numRow numCol a v acc d).
Proof. destruct acc as [g u], d as [[z c1] c2]. unfold batchCt. ag. Qed.
Lemma batchIter_eq K bs vb a : seq_ (batchIter E K numRow numCol bs vb a) (batchIter E' K numRow numCol bs vb a).
Proof.
  destruct vb as [v beta]. unfold batchIter. apply sb; [apply sr|]. intros batch. apply sb; [intros st; apply Hzero|]. intros g. apply sb; [intros st; apply Hzero|]. intros u.
  apply sb; [apply sfold_eq; intros; apply batchCt_eq|]. intros [g1 u1]. ag.
Qed.
Lemma lrRun_eq K n nf z vb t : seq_ (lrRun E K numRow numCol n nf z vb t) (lrRun E' K numRow numCol n nf z vb t).
Proof. unfold lrRun, train. apply sb; [apply sfold_eq; intros; apply trainIter_eq|]. intros vb1. apply sb; [apply infer_eq|]. intros; apply sr. Qed.
Lemma lrRunBatch_eq K bs n nf vb t : seq_ (lrRunBatch E K numRow numCol bs n nf vb t) (lrRunBatch E' K numRow numCol bs n nf vb t).
Proof. unfold lrRunBatch, trainBatch. apply sb; [apply sfold_eq; intros; apply batchIter_eq|]. intros vb1. apply sb; [apply infer_eq|]. intros; apply sr. Qed.
End Ops.

(** ** the amounts *)
Section Amounts.
Context (pp : params) (Hl : (1 <= pa_logN pp)%nat).
Lemma half_pow' : Z.of_nat (pa_N pp) / 2 = 2 ^ Z.of_nat (pa_logN pp - 1).
Proof.
  unfold pa_N, deg. rewrite Nat2Z.inj_pow. replace (Z.of_nat (pa_logN pp)) with (Z.of_nat (pa_logN pp - 1) + 1) by lia. rewrite Z.pow_add_r by lia.
  change (Z.of_nat 2 ^ 1) with 2. now rewrite Z.div_mul by lia.
Qed.
Lemma pow_mod0 j : (pa_logN pp - 1 <= j)%nat -> 2 ^ Z.of_nat j mod 2 ^ Z.of_nat (pa_logN pp - 1) = 0.
Proof. intros H. replace (Z.of_nat j) with (Z.of_nat (j - (pa_logN pp - 1)) + Z.of_nat (pa_logN pp - 1)) by lia. rewrite Z.pow_add_r by lia. apply Z_mod_mult. Qed.
Lemma pow_lt' i j : (i < j)%nat -> 2 ^ Z.of_nat i < 2 ^ Z.of_nat j.
Proof. intros H. apply Z.pow_lt_mono_r; lia. Qed.
Lemma pow_pos' i : 0 < 2 ^ Z.of_nat i. Proof. apply Z.pow_pos_nonneg; lia. Qed.
Lemma pow_by j : by_powers pp (2 ^ Z.of_nat j).
Proof.
  unfold by_powers. rewrite half_pow'. destruct (le_lt_dec (pa_logN pp - 1) j) as [H|H]; [left; now apply pow_mod0|]. right; right. exists j.
  apply Z.mod_small. split; [pose proof (pow_pos' j); lia|now apply pow_lt'].
Qed.
Lemma row_by c j : by_powers pp (2 ^ Z.of_nat c * 2 ^ Z.of_nat j).
Proof. rewrite <- Z.pow_add_r, <- Nat2Z.inj_add by lia. apply pow_by. Qed.
Lemma back_by numCol j : no_backward pp numCol -> 2 ^ Z.of_nat j < numCol -> by_powers pp (- 2 ^ Z.of_nat j).
Proof.
  intros H Hj. specialize (H j Hj). unfold by_powers. rewrite half_pow' in *. set (h := (pa_logN pp - 1)%nat) in *. pose proof (pow_pos' j). pose proof (pow_pos' h).
  destruct (le_lt_dec h j) as [Hle|Hlt]. { left. rewrite Z.mod_opp_l_z; [reflexivity|lia|]. now apply pow_mod0. }
  pose proof (pow_lt' j h Hlt). assert (E : (- 2 ^ Z.of_nat j) mod 2 ^ Z.of_nat h = 2 ^ Z.of_nat h - 2 ^ Z.of_nat j). { symmetry. apply Z.mod_unique with (-1); lia. }
  rewrite E. destruct (Nat.eq_dec (S j) h) as [Eh|Hne]; [|right; left; apply H; lia].
  right; right. exists j. rewrite <- Eh, Nat2Z.inj_succ, Z.pow_succ_r by lia. lia.
Qed.
End Amounts.

(** ** the programs *)
Section Programs.
Context (ce : ckenv) (orders : nat -> order) (rnd : nat -> small * small * small) (pk : pubkey) {Msg : Type} (encode : poly -> Msg -> poly) (zero_msg : Msg).
Notation pp := (e_pp (ce_env ce)).
Notation E rks := (evalOps ce orders rnd rks pk encode zero_msg).
Theorem runs_use_powers c rks rks' : (1 <= pa_logN pp)%nat -> same_powers pp rks rks' -> let numCol := 2 ^ Z.of_nat c in no_backward pp numCol ->
  (forall K numRow numIter nf z vb t st, lrRun (E rks) K numRow numCol numIter nf z vb t st = lrRun (E rks') K numRow numCol numIter nf z vb t st) /\
  (forall K numRow bs numIter nf vb t st, lrRunBatch (E rks) K numRow numCol bs numIter nf vb t st = lrRunBatch (E rks') K numRow numCol bs numIter nf vb t st).
Proof.
  intros Hl Hk numCol Hn.
  assert (R : forall a k st, by_powers pp k -> o_rot (E rks) a k st = o_rot (E rks') a k st).
  { intros a k st Hp. cbn [o_rot evalOps]. now rewrite (rotateNew_powers ce rks rks' Hk). }
  split; intros.
  - apply (lrRun_eq (E rks) (E rks') (by_powers pp)); try reflexivity; try exact R; [exact (pow_by pp Hl)|exact (row_by pp Hl c)|intros j; now apply back_by].
  - apply (lrRunBatch_eq (E rks) (E rks') (by_powers pp)); try reflexivity; try exact R; [exact (pow_by pp Hl)|exact (row_by pp Hl c)|intros j; now apply back_by].
Qed.
End Programs.

(** ** the set-up of the programs *)
Lemma zget_zset_keys (m : gmap Z swk) a v k : (exists w, zget (zset m a v) k = Some w) -> (exists w, zget m k = Some w) \/ k = a.
Proof. intros (w & Hw). destruct (Z.eq_dec k a) as [->|Hne]; [now right|]. rewrite (mget_mset_other Z.eqb Z.eqb_eq) in Hw by auto. left. eauto. Qed.
Lemma addCRSs_keys smp : forall rots k pp pp', addCRSs smp k rots pp = Ok pp' -> pa_logN pp' = pa_logN pp /\ forall x, has_crs pp' x -> has_crs pp x \/ In x rots.
Proof.
  induction rots as [|r rots IH]; intros k pp pp' H; cbn [addCRSs] in H. { injection H as <-. split; [reflexivity|]. intros; now left. }
  apply bind_inv in H as (p1 & E1 & H). unfold AddCRS in E1. apply bind_inv in E1 as (v & _ & E1). injection E1 as <-. apply IH in H as [H1 H2]. split; [exact H1|].
  intros x Hx. destruct (H2 x Hx) as [Hy|Hy]; [|right; now right]. unfold has_crs in *. cbn [pa_CRS] in Hy. destruct (zget_zset_keys _ _ _ _ Hy) as [Hz| ->]; [now left|right; now left].
Qed.
Lemma newParams_keys logN Q P psiQ psiP gamma smp pp : NewParameters logN Q P psiQ psiP gamma smp = Ok pp -> pa_logN pp = logN /\ forall x, has_crs pp x -> In x (crsIndices logN).
Proof.
  unfold NewParameters. destruct (Nat.eqb gamma 0); [discriminate|]. cbv zeta. destruct (Nat.eqb (Alpha _) 0); [discriminate|]. intros H. apply bind_inv in H as (crs & E & H). injection H as <-.
  split; [reflexivity|]. unfold has_crs. cbn [pa_CRS]. revert E. generalize (crsIndices logN) as l. intros l.
  assert (G : forall l m crs, foldM (fun m ix => let* v := genCRS (mkParams logN Q P psiQ psiP gamma []) (Z.to_nat (ceil_div_f (Z.of_nat (Datatypes.length Q)) (Z.of_nat (Alpha (mkParams logN Q P psiQ psiP gamma []))))) (smp ix) in Ok (zset m ix v)) l m = Ok crs ->
     forall x, (exists v, zget crs x = Some v) -> (exists v, zget m x = Some v) \/ In x l).
  { clear. induction l as [|a l IH]; intros m crs E x Hx; cbn [foldM] in E. { injection E as <-. now left. }
    apply bind_inv in E as (m1 & E1 & E). apply bind_inv in E1 as (v & _ & E1). injection E1 as <-. destruct (IH _ _ E x Hx) as [H|H]; [|right; now right]. destruct (zget_zset_keys _ _ _ _ H) as [H'| ->]; [now left|right; now left]. }
  intros E x Hx. destruct (G l [] crs E x Hx) as [(v & Hv)|H]; [discriminate|exact H].
Qed.
Theorem shipped_no_backward o Q P psiQ psiP gamma smp0 pp0 ids smp rnd tc numCol : NewParameters 15 Q P psiQ psiP gamma smp0 = Ok pp0 -> genTestParams o pp0 lrRots ids smp rnd = Ok tc ->
  no_backward (tc_pp tc) numCol.
Proof.
  intros E0 E. destruct (newParams_keys _ _ _ _ _ _ _ _ E0) as [L0 K0]. unfold genTestParams in E. apply bind_inv in E as (pp & Ep & E). apply bind_inv in E as ([tc1 pools] & Ef & E). injection E as <-.
  destruct (addCRSs_keys _ _ _ _ _ Ep) as [L1 K1].
  assert (Et : tc_pp tc1 = pp).
  { assert (G : forall l st st', foldM (genParty pp0 pp (lrRots ++ map (fun i => 2 ^ Z.of_nat i) (seq 0 (pa_logN pp - 1))) rnd) l st = Ok st' -> tc_pp (fst st') = tc_pp (fst st)).
    { induction l as [|a l IH]; intros st st' H; cbn [foldM] in H; [injection H as <-; reflexivity|]. apply bind_inv in H as (s1 & E1 & H). rewrite (IH _ _ H). destruct st as [tc [q1 q2]]. unfold genParty in E1. cbv zeta in E1.
      apply bind_inv in E1 as ([sk pk] & _ & E1). apply bind_inv in E1 as (r & _ & E1). apply bind_inv in E1 as ([rlk [a1 a2]] & _ & E1). apply bind_inv in E1 as ([rk a3] & _ & E1). injection E1 as <-. reflexivity. }
    exact (G _ _ _ Ef). }
  rewrite Et. intros j _ Hj Hc. rewrite L1, L0 in Hj. rewrite half_pow' in Hc by (rewrite L1, L0; lia). rewrite L1, L0 in Hc. destruct (K1 _ Hc) as [H|H].
  - apply K0 in H. revert Hj H. clear. intros Hj H. unfold crsIndices in H. do 13 (destruct j as [|j]; [cbn in H; lia|]). lia.
  - revert Hj H. clear. intros Hj H. unfold lrRots in H. do 13 (destruct j as [|j]; [cbn in H; lia|]). lia.
Qed.
