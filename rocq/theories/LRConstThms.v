(** Packing on float64 values, and the programs run on constants prepared in float64 arithmetic. *)
From Coq Require Import Reals String ZArith List Lia Lra Psatz FunctionalExtensionality.
From Coq.Floats Require Import SpecFloat.
From Verif Require Import Spec Go GoProofs Arith NegRing NTT F64 F64Proofs F64More BasisExt RingOps Maps Params Elements KeySwitch KeySets KeyGen EncDec Evaluator Repr SpecKeys SpecCt SpecEnc SpecEv EvFloat SpecRot SpecSlots SlotRing Utils LR LRData SpecLR LRProofs LRPack LRThms LREval LRShadow LRRel SpecLREnc LREncProofs LREncThms Shipped EvWorld LRShipped LREncLR LREncShip LRConst SpecLRConst LRConstProofs.
Import ListNotations.
Local Open Scope R_scope.

(** ** a map on values commutes with the packing *)
Definition rmap {A B} (f : A -> B) (r : res A) : res B := match r with Ok a => Ok (f a) | Panic p => Panic p end.
Section M.
Context {A B : Type} (f : A -> B) (z : A).
Lemma idx_map (l : list A) i : idx (map f l) i = rmap f (idx l i).
Proof. unfold idx. rewrite nth_error_map. destruct (nth_error l i); reflexivity. Qed.
Lemma setAt_map v i x : setAt (map f v) i (f x) = rmap (map f) (setAt v i x).
Proof. unfold setAt. rewrite map_length. destruct (_ && _)%bool; [|reflexivity]. cbn [rmap]. f_equal. rewrite map_app. cbn [map]. now rewrite firstn_map, skipn_map. Qed.
Lemma foldM_map {I S S'} (F : S -> S') (g : S -> I -> res S) (g' : S' -> I -> res S') l s : (forall s a, g' (F s) a = rmap F (g s a)) -> foldM g' l (F s) = rmap F (foldM g l s).
Proof. intros H. revert s. induction l as [|a l IH]; intros s; cbn [foldM]; [reflexivity|]. rewrite H. destruct (g s a); cbn [rmap bind]; [apply IH|reflexivity]. Qed.
Lemma repeat_map n : repeat (f z) n = map f (repeat z n).
Proof. induction n; cbn; congruence. Qed.
Lemma nth_map_d l i : nth i (map f l) (f z) = f (nth i l z). Proof. apply map_nth. Qed.
Lemma zVector_map n b c nf t : zVector (f z) n b c nf (map (map f) t) = rmap (map f) (zVector z n b c nf t).
Proof.
  unfold zVector. rewrite repeat_map. apply foldM_map. intros v i. apply foldM_map. intros w j.
  destruct (Nat.leb _ _); cbn [bind].
  - assert (E : idx (map (map f) t) i = rmap (map f) (idx t i)). { unfold idx. rewrite nth_error_map. destruct (nth_error t i); reflexivity. }
    rewrite E. destruct (idx t i) as [row|p]; cbn [rmap bind]; [|reflexivity]. rewrite idx_map. destruct (idx row j); cbn [rmap bind]; [apply setAt_map|reflexivity].
  - apply setAt_map.
Qed.
Lemma labelVector_map n b c t : labelVector (f z) n b c (map f t) = rmap (map f) (labelVector z n b c t).
Proof. unfold labelVector. rewrite repeat_map. apply foldM_map. intros v i. apply foldM_map. intros w j. rewrite idx_map. destruct (idx t i); cbn [rmap bind]; [apply setAt_map|reflexivity]. Qed.
Lemma testVector_map n nf x : testVector (f z) n nf (map f x) = rmap (map f) (testVector z n nf x).
Proof. unfold testVector. rewrite repeat_map. apply foldM_map. intros v j. rewrite idx_map. destruct (idx x j); cbn [rmap bind]; [apply setAt_map|reflexivity]. Qed.
Lemma maskVector_map o n c : maskVector (f z) (f o) n c = map f (maskVector z o n c).
Proof. unfold maskVector. rewrite map_map. apply map_ext. intros i. destruct (Nat.eqb _ _); reflexivity. Qed.
Lemma packLoop_map nt nct rl spd nf b i item item' js v : (forall d k, item' d k = rmap f (item d k)) -> packLoop nt nct rl spd nf b i item' js (map f v) = rmap (map f) (packLoop nt nct rl spd nf b i item js v).
Proof.
  intros H. revert v. induction js as [|j js IH]; intros v; cbn [packLoop]; [reflexivity|]. destruct (Nat.leb _ _); [reflexivity|].
  rewrite (foldM_map (map f) (fun v k => let* x := item (dataId nct rl b i j) k in setAt v (Z.of_nat (j * spd + k)) x)).
  - destruct (foldM _ _ v); cbn [rmap bind]; [apply IH|reflexivity].
  - intros w k. rewrite H. destruct (item _ k); cbn [rmap bind]; [apply setAt_map|reflexivity].
Qed.
Lemma packZ_map n nf bs nt t b i : packZ (f z) n nf bs nt (map (map f) t) b i = rmap (map f) (packZ z n nf bs nt t b i).
Proof.
  unfold packZ. rewrite repeat_map. apply packLoop_map. intros d k.
  assert (E : idx (map (map f) t) d = rmap (map f) (idx t d)). { unfold idx. rewrite nth_error_map. destruct (nth_error t d); reflexivity. }
  rewrite E. destruct (idx t d) as [row|p]; cbn [rmap bind]; [apply idx_map|reflexivity].
Qed.
Lemma packLabel_map n nf bs nt t b i : packLabel (f z) n nf bs nt (map f t) b i = rmap (map f) (packLabel z n nf bs nt t b i).
Proof. unfold packLabel. rewrite repeat_map. apply packLoop_map. intros d k. apply idx_map. Qed.
End M.

(** ** every entry of a label vector is a label or zero *)
Section P.
Context {A : Type} (P : A -> Prop) (z : A) (Hz : P z).
Lemma foldM_P {I S} (Q : S -> Prop) (g : S -> I -> res S) l s s' : (forall s a s', Q s -> g s a = Ok s' -> Q s') -> Q s -> foldM g l s = Ok s' -> Q s'.
Proof. intros H. revert s. induction l as [|a l IH]; intros s Hs E; cbn [foldM] in E; [congruence|]. destruct (g s a) as [s1|] eqn:E1; [|discriminate]. cbn [bind] in E. eapply IH; [|exact E]. eapply H; eauto. Qed.
Lemma setAt_P v i x w : Forall P v -> P x -> setAt v i x = Ok w -> Forall P w.
Proof.
  intros Hv Hx E. unfold setAt in E. destruct (_ && _)%bool; [|discriminate]. injection E as <-. rewrite Forall_forall in *. intros a Ha. apply in_app_or in Ha. destruct Ha as [Ha|[<-|Ha]]; auto.
  - apply Hv. rewrite <- (firstn_skipn (Z.to_nat i) v). apply in_or_app; now left.
  - apply Hv. rewrite <- (firstn_skipn (S (Z.to_nat i)) v). apply in_or_app; now right.
Qed.
Lemma idx_P l i x : Forall P l -> idx l i = Ok x -> P x.
Proof. intros H E. unfold idx in E. destruct (nth_error l i) eqn:E1; [|discriminate]. injection E as <-. rewrite Forall_forall in H. apply H. eapply nth_error_In; eauto. Qed.
Lemma repeat_P n : Forall P (repeat z n). Proof. apply Forall_forall. intros a Ha. apply repeat_spec in Ha. now subst. Qed.
Lemma labelVector_P n b c l v : Forall P l -> labelVector z n b c l = Ok v -> Forall P v.
Proof.
  intros Hl. unfold labelVector. apply foldM_P; [|apply repeat_P]. intros s i s' Hs. apply foldM_P; [|exact Hs]. intros w j w' Hw E.
  destruct (idx l i) as [x|] eqn:E1; [|discriminate]. cbn [bind] in E. eapply setAt_P; [exact Hw|exact (idx_P l i x Hl E1)|exact E].
Qed.
Lemma packLoop_P nt nct rl spd nf b i item js v w : (forall d k x, item d k = Ok x -> P x) -> Forall P v -> packLoop nt nct rl spd nf b i item js v = Ok w -> Forall P w.
Proof.
  intros H. revert v. induction js as [|j js IH]; intros v Hv E; cbn [packLoop] in E; [congruence|]. destruct (Nat.leb _ _); [congruence|].
  destruct (foldM _ _ v) as [v'|] eqn:E1; [|discriminate]. cbn [bind] in E. refine (IH v' _ E). revert E1. apply foldM_P; [|exact Hv]. intros s k s' Hs E1.
  destruct (item _ k) as [x|] eqn:E2; [|discriminate]. cbn [bind] in E1. eapply setAt_P; [exact Hs|exact (H _ _ _ E2)|exact E1].
Qed.
Lemma packLabel_P n nf bs nt l b i v : Forall P l -> packLabel z n nf bs nt l b i = Ok v -> Forall P v.
Proof. intros Hl. unfold packLabel. apply packLoop_P; [|apply repeat_P]. intros d k x. now apply idx_P. Qed.
Lemma ofList_P l i : Forall P l -> P (ofList z l i).
Proof. intros H. unfold ofList. destruct (Nat.lt_ge_cases (Z.to_nat i) (length l)) as [L|L]; [rewrite Forall_forall in H; apply H; now apply nth_In|now rewrite nth_overflow]. Qed.
End P.
Lemma F2_chg {A B C} (P Q : B -> C -> Prop) (g g' : A -> B) l L : (forall a c, P (g a) c -> Q (g' a) c) -> Forall2 P (map g l) L -> Forall2 Q (map g' l) L.
Proof. intros H. revert L. induction l; intros L HF; inversion HF; subst; constructor; auto. Qed.
Lemma mapM_F2 {I A B} (R0 : B -> A -> Prop) (g : I -> res A) (h : I -> res B) l r : (forall a x, h a = Ok x -> exists y, g a = Ok y /\ R0 x y) -> mapM h l = Ok r -> exists r', mapM g l = Ok r' /\ Forall2 R0 r r'.
Proof.
  intros H. revert r. induction l as [|a l IH]; intros r E; cbn [mapM] in *.
  - injection E as <-. exists []. split; [reflexivity|constructor].
  - destruct (h a) as [x|] eqn:E1; [|discriminate]. cbn [bind] in E. destruct (mapM h l) as [r0|] eqn:E2; [|discriminate]. injection E as <-.
    destruct (H _ _ E1) as (y & Ey & Hy). destruct (IH _ eq_refl) as (r' & Er & Hr). exists (y :: r'). rewrite Ey. cbn [bind]. rewrite Er. split; [reflexivity|now constructor].
Qed.

(** ** the constants *)
Lemma within_0 G : 1 <= G -> within G f0.
Proof. intros H. split; [exact I|]. unfold fR; cbn. rewrite Rabs_R0. lra. Qed.
Lemma fR_one : fR f1 = 1. Proof. apply fR_fval. apply (fval_Z 1). lia. Qed.
Lemma fin_1 : finite f1. Proof. assert (H : 1 <= 1 <= 2 ^ 100) by (split; [lra|apply pow_R1_Rle; lra]). exact (proj1 (fval_1 1 H 1%nat ltac:(lia))). Qed.
Lemma maskVector_fin n c : Forall finite (maskVector f0 f1 n c).
Proof. unfold maskVector. apply Forall_forall. intros x Hx. apply in_map_iff in Hx. destruct Hx as (i & <- & _). destruct (Nat.eqb _ _); [exact fin_1|exact I]. Qed.
Theorem consts_near G gamma n c0 c1 c3 etas label mask y : inputs_within G gamma c0 c1 c3 etas label -> (0 < n)%nat -> (Z.of_nat n <= 2 ^ 53)%Z -> Forall finite mask -> (forall i, within G (y i)) ->
  const_refine (near (const_err G)) (near (const_err G)) (exact_const gamma n c0 c1 c3 etas mask y) (fconst gamma n c0 c1 c3 etas mask y).
Proof. intros (HG & Hg & H0 & H3 & H1 & H3n & H13 & He & Hl) Hn Hn2 Hm Hy. apply const_near; auto. Qed.
Theorem batches_near_ok G gamma c0 c1 c3 etas feature label ns nf nt bs be : inputs_within G gamma c0 c1 c3 etas label -> (0 < bs)%nat -> (Z.of_nat bs <= 2 ^ 53)%Z ->
  exact_batches ns nf nt bs gamma c0 c1 c3 etas feature label = Ok be -> exists bf, fpackBatches ns nf nt bs gamma c0 c1 c3 etas feature label = Ok bf /\ batches_near (const_err G) be bf.
Proof.
  intros HI Hb Hb2. unfold exact_batches, packBatches, fpackBatches. apply mapM_F2. intros b be0. apply mapM_F2. intros i x.
  change (packZ 0) with (packZ (fR f0)). change (packLabel 0) with (packLabel (fR f0)). rewrite packZ_map, packLabel_map.
  destruct (packZ f0 _ _ _ _ _ _ _) as [z|] eqn:Ez; cbn [rmap bind]; [|discriminate]. destruct (packLabel f0 _ _ _ _ _ _ _) as [y|] eqn:Ey; cbn [rmap bind]; [|discriminate].
  intros E. injection E as <-. eexists. split; [reflexivity|]. cbn [fst snd].
  assert (HG : 1 <= G) by apply HI. assert (Hy : Forall (within G) y). { eapply packLabel_P; [|apply HI|exact Ey]. now apply within_0. }
  pose proof (consts_near G gamma bs c0 c1 c3 etas label [] (ofList f0 y) HI Hb Hb2 (Forall_nil _) (fun i => ofList_P _ _ (within_0 G HG) y i Hy)) as HK.
  assert (EL : forall i l, ofList 0 (map fR l) i = fR (ofList f0 l i)). { intros j l. unfold ofList. exact (map_nth fR l f0 (Z.to_nat j)). }
  split; [intros j; apply EL|]. split.
  - intros j. destruct (q_1 _ _ _ _ HK j) as [F D]. split; [exact F|]. cbn [k_1 vconst] in *. unfold exact_const, rslots in D. cbn [k_1 vconst] in D. rewrite EL. exact D.
  - pose proof (q_2 _ _ _ _ HK) as D. unfold exact_const in D. cbn [k_2 vconst] in *. revert D. apply F2_chg. intros eta f0' X j. specialize (X j). unfold rslots in X. rewrite EL. exact X.
Qed.
(** ** holding the float64 values is holding the exact ones, with the rounding error added *)
Section Held.
Context (pp : params) (sc : f64) (s : string -> zpoly) (ids : list string).
Lemma slot_shift (x : C2) a b d e : cnorm (csub x (creal (fR sc * a))) <= e -> Rabs (a - b) <= d -> cnorm (csub x (creal (fR sc * b))) <= e + Rabs (fR sc) * d.
Proof.
  intros H Hd. unfold cnorm, csub, cadd, copp, creal in *. cbn [fst snd] in *. destruct x as [p q]. cbn [fst snd] in *.
  assert (E : p + - (fR sc * b) = (p + - (fR sc * a)) + fR sc * (a - b)) by ring. rewrite E.
  pose proof (Rabs_triang (p + - (fR sc * a)) (fR sc * (a - b))) as T. rewrite (Rabs_mult (fR sc)) in T.
  assert (Rabs (fR sc) * Rabs (a - b) <= Rabs (fR sc) * d) by (apply Rmult_le_compat_l; [apply Rabs_pos|exact Hd]). lra.
Qed.
Lemma fresh_shift e d m m' ct : fresh pp sc s ids e m ct -> (forall i, Rabs (m i - m' i) <= d) -> fresh pp sc s ids (e + Rabs (fR sc) * d) m' ct.
Proof.
  intros [H1 H2 H3 H3b H4] Hd. constructor; auto. destruct H4 as (M & H4 & H5). exists M. split; [exact H4|]. intros i Hi. eapply slot_shift; [exact (H5 i Hi)|apply Hd].
Qed.
Lemma freshpt_shift e d m m' pt : freshpt pp sc e m pt -> (forall i, Rabs (m i - m' i) <= d) -> freshpt pp sc (e + Rabs (fR sc) * d) m' pt.
Proof.
  intros (H1 & H2 & M & H3 & H4) Hd. split; [exact H1|]. split; [exact H2|]. exists M. split; [exact H3|]. intros i Hi. eapply slot_shift; eauto.
Qed.
Lemma f2_comp {A B C} (P : A -> B -> Prop) (Q : B -> C -> Prop) (T : A -> C -> Prop) l1 l2 l3 : (forall a b c, P a b -> Q b c -> T a c) -> Forall2 P l1 l2 -> Forall2 Q l2 l3 -> Forall2 T l1 l3.
Proof. intros H H1. revert l3. induction H1; intros l3 H2; inversion H2; subst; constructor; eauto. Qed.
Lemma f2_mapl_inv {A B C} (P : C -> B -> Prop) (f : A -> C) l1 l2 : Forall2 P (map f l1) l2 -> Forall2 (fun a b => P (f a) b) l1 l2.
Proof. revert l2. induction l1; intros l2 H; inversion H; subst; constructor; auto. Qed.
Theorem held_float e d K F KE : const_refine (near d) (near d) K F -> consts_held pp sc s ids e (mapConst rslots rslots F) KE -> consts_held pp sc s ids (e + Rabs (fR sc) * d) K KE.
Proof.
  assert (S1 : forall (a : Z -> R) b c, near d a b -> fresh pp sc s ids e (rslots b) c -> fresh pp sc s ids (e + Rabs (fR sc) * d) a c). { intros a b c H1 H2. eapply fresh_shift; [exact H2|]. intros i. apply H1. }
  assert (S2 : forall (a : Z -> R) b c, near d a b -> freshpt pp sc e (rslots b) c -> freshpt pp sc (e + Rabs (fR sc) * d) a c). { intros a b c H1 H2. eapply freshpt_shift; [exact H2|]. intros i. apply H1. }
  intros [? ? ? ? ? ? ? ? ? ?] [? ? ? ? ? ? ? ? ? ?]. cbn [mapConst k_mask k_1 k_2 k_3 k_4 k_5 k_6 k_7 k_8 k_9] in *. 
  assert (S3 : forall l1 l2 l3, Forall2 (near d) l1 l2 -> Forall2 (freshpt pp sc e) (map rslots l2) l3 -> Forall2 (freshpt pp sc (e + Rabs (fR sc) * d)) l1 l3). { intros l1 l2 l3 H1 H2. apply f2_mapl_inv in H2. exact (f2_comp _ _ _ l1 l2 l3 S2 H1 H2). }
  constructor; [eapply S2|eapply S2|eapply S3|eapply S2|eapply S3|eapply S1|eapply S3|eapply S3|eapply S2|eapply S1]; eassumption.
Qed.
Theorem batches_float e d bs bf be : batches_near d bs bf -> batches_held pp sc s ids e (mapBatches rslots rslots bf) be -> 0 <= d -> batches_held pp sc s ids (e + Rabs (fR sc) * d) bs be.
Proof.
  intros HN HH Hd. unfold batches_held, mapBatches in *. apply f2_mapl_inv in HH. eapply f2_comp; [|exact HN|exact HH]. cbn beta. clear HN HH. intros x y c HN HH. apply f2_mapl_inv in HH. eapply f2_comp; [|exact HN|exact HH].
  cbn beta. clear HN HH. intros [[x1 x2] x3] [[y1 y2] y3] [[c1 c2] c3] (N1 & N2 & N3) (H1 & H2 & H3). cbn [fst snd] in *. split; [|split].
  - eapply fresh_shift; [exact H1|]. intros i. rewrite N1. unfold rslots. rewrite Rminus_diag_eq, Rabs_R0 by reflexivity. exact Hd.
  - eapply freshpt_shift; [exact H2|]. intros i. apply N2.
  - apply f2_mapl_inv in H3. eapply f2_comp; [|exact N3|exact H3]. cbn beta. intros a b c0 Ha Hb. eapply freshpt_shift; [exact Hb|]. intros i. apply Ha.
Qed.
End Held.

(** ** the four programs *)
Lemma ofList_fR l : ofList 0 (map fR l) = rslots (ofList f0 l).
Proof. apply functional_extensionality. intros i. unfold ofList, rslots. exact (map_nth fR l f0 (Z.to_nat i)). Qed.
Lemma mask_fR n c : maskVector 0 1 n c = map fR (maskVector f0 f1 n c).
Proof. rewrite <- fR_one. exact (maskVector_map fR f0 f1 n c). Qed.
Lemma zero_fR : (fun _ : Z => 0) = rslots (fun _ => f0). Proof. reflexivity. Qed.
Lemma rmap_inv {A B} (f : A -> B) r b : rmap f r = Ok b -> exists a, r = Ok a /\ b = f a.
Proof. destruct r; cbn; [|discriminate]. intros E. injection E as <-. eauto. Qed.
Lemma err_nonneg G : 1 <= G -> 0 <= const_err G.
Proof. intros H. unfold const_err. apply Rmult_le_pos; [|apply pow_le; lra]. unfold Rdiv. apply Rmult_le_pos; [lra|]. left. apply Rinv_0_lt_compat, pow_lt. lra. Qed.
Lemma table_fR t n d : table t n d -> table (map (map fR) t) n d.
Proof. intros [H1 H2]. split; [now rewrite map_length|]. intros i Hi. change (@nil R) with (map fR []). rewrite map_nth, map_length. auto. Qed.

Section Run.
Context (ce : ckenv) (g : nat -> Z) (A U : nat -> zpoly) (s r : string -> zpoly) (Bs Be Dm nr : Z) (ids : list string) (keys : rlkset) (rks : rotset).
Context (orders : nat -> order) (rnd : nat -> small * small * small) (pk : pubkey) {Msg : Type} (encode : poly -> Msg -> poly) (zero_msg : Msg) (Bu B : Z) (ez : R) (st : lrst).
Context (HS : lr_setting ce g A U s r Bs Be Dm nr ids keys rks orders rnd pk encode zero_msg Bu B ez st).
Notation pp := (e_pp (ce_env ce)).
Notation sc := (ce_scale ce).
Notation top := (maxLevel pp).
Notation EE := (evalOps ce orders rnd rks pk encode zero_msg).
Notation EA := (errOps (pa_N pp / 2) (lr_noise pp (Z.of_nat (List.length ids)) Bs Be Dm nr Bu B ez) (pa_Q pp) top sc).
Context (HQ : pa_Q pp = shippedQ) (Hsc : sc = sc38).
Lemma fresh_more e d m ct : 0 <= d -> fresh pp sc s ids e m ct -> fresh pp sc s ids (e + Rabs (fR sc) * d) m ct.
Proof. intros Hd H. eapply fresh_shift; [exact H|]. intros i. rewrite Rminus_diag_eq, Rabs_R0 by reflexivity. exact Hd. Qed.
Lemma float_lr G gamma c0 c1 c3 etas feature label x e :
  pa_logN pp = 15%nat -> inputs_within G gamma c0 c1 c3 etas label -> table feature (2 ^ 11) 7 -> (2 ^ 11 <= length label)%nat -> length etas = 4%nat -> (7 <= length x)%nat ->
  let n := (2 ^ 11 * 2 ^ 3)%nat in let gn := (fR gamma / INR (2 ^ 11)) in let e' := e + Rabs (fR sc) * const_err G in
  exists zv yv tv, zVector f0 n (2 ^ 11) (2 ^ 3) 7 feature = Ok zv /\ labelVector f0 n (2 ^ 11) (2 ^ 3) label = Ok yv /\ testVector f0 n 7 x = Ok tv /\
    let F := fconst gamma (2 ^ 11) c0 c1 c3 etas (maskVector f0 f1 n (2 ^ 3)) (ofList f0 yv) in
    let K := exact_const gamma (2 ^ 11) c0 c1 c3 etas (maskVector f0 f1 n (2 ^ 3)) (ofList f0 yv) in
    let nb := nesterovAll 0 1 Rplus Rmult Rminus (fR c0) (fR c1) (fR c3) gn 7 (entry 0 (map (map fR) feature)) (entry1 0 (map fR label)) (fun _ => seq 0 (2 ^ 11)) (map fR etas) in
    forall KE z v0 b0 test, consts_held pp sc s ids e (mapConst rslots rslots F) KE -> fresh pp sc s ids e (rslots (ofList f0 zv)) z ->
      fresh pp sc s ids e (fun _ => 0) v0 -> fresh pp sc s ids e (fun _ => 0) b0 -> fresh pp sc s ids e (rslots (ofList f0 tv)) test ->
    exists v b t st' av ab at',
      lrRun EE KE (2 ^ 11) (2 ^ 3) 4 7 z (v0, b0) test st = Ok ((v, b), t, st') /\
      lrRun EA (errConst top sc e' K) (2 ^ 11) (2 ^ 3) 4 7 (fa top sc e' (rslots (ofList f0 zv))) (fa top sc e' (fun _ => 0), fa top sc e' (fun _ => 0)) (fa top sc e' (rslots (ofList f0 tv))) [] = Ok ((av, ab), at', repeat 1%nat 56) /\
      learned pp s ids (2 ^ 11) (2 ^ 3) 7 (fR c0) (fR c1) (fR c3) (map fR x) nb 4 4 1 (S754_finite false 9007149865596385 (-15)) beta38 sc38 (a_e av) (a_e ab) (a_e at') v b t.
Proof.
  intros HN HI Ht Hl He Hx n gn e'. assert (Hc3 : fR c3 <> 0) by apply HI.
  assert (HG : 1 <= G) by apply HI. pose proof (err_nonneg G HG) as Hd.
  pose proof (shipped_lr _ _ _ _ _ _ _ _ _ _ _ _ _ _ _ _ _ _ _ _ _ _ HS HQ Hsc (fR gamma) (fR c0) (fR c1) (fR c3) (map fR etas) (map (map fR) feature) (map fR label) (map fR x) e' HN Hc3 (table_fR _ _ _ Ht)) as H.
  rewrite !map_length in H. specialize (H Hl He Hx). cbv zeta in H. destruct H as (zr & yr & tr & E1 & E2 & E3 & H).
  change (zVector 0) with (zVector (fR f0)) in E1. change (labelVector 0) with (labelVector (fR f0)) in E2. change (testVector 0) with (testVector (fR f0)) in E3.
  rewrite zVector_map in E1. rewrite labelVector_map in E2. rewrite testVector_map in E3. apply rmap_inv in E1 as (zv & E1 & ->). apply rmap_inv in E2 as (yv & E2 & ->). apply rmap_inv in E3 as (tv & E3 & ->).
  exists zv, yv, tv. do 3 (split; [assumption|]). cbv zeta. intros KE z v0 b0 test HK Hz Hv Hb Hte.
  rewrite mask_fR, !ofList_fR in H.
  assert (Hy : Forall (within G) yv). { eapply labelVector_P; [|apply HI|exact E2]. now apply within_0. }
  assert (HF : const_refine (near (const_err G)) (near (const_err G)) (exact_const gamma (2 ^ 11) c0 c1 c3 etas (maskVector f0 f1 n (2 ^ 3)) (ofList f0 yv)) (fconst gamma (2 ^ 11) c0 c1 c3 etas (maskVector f0 f1 n (2 ^ 3)) (ofList f0 yv))).
  { apply (consts_near G gamma (2 ^ 11) c0 c1 c3 etas label); auto; [apply Nat.neq_0_lt_0, Nat.pow_nonzero; lia|rewrite Nat2Z.inj_pow; apply Z.pow_le_mono_r; lia|apply maskVector_fin|]. intros i. apply ofList_P; [now apply within_0|exact Hy]. }
  destruct (H KE z v0 b0 test) as (v & b & t & st' & av & ab & at' & R1 & R2 & R3 & R4).
  - exact (held_float pp sc s ids e (const_err G) _ _ KE HF HK).
  - now apply fresh_more.
  - now apply fresh_more.
  - now apply fresh_more.
  - now apply fresh_more.
  - exists v, b, t, st', av, ab, at'. split; [exact R1|]. split; [exact R3|exact R4].
Qed.
Lemma float_toy G gamma c0 c1 c3 etas feature label x e :
  pa_logN pp = 15%nat -> inputs_within G gamma c0 c1 c3 etas label -> table feature (2 ^ 9) 20 -> (2 ^ 9 <= length label)%nat -> length etas = 2%nat -> (20 <= length x)%nat ->
  let n := (2 ^ 9 * 2 ^ 5)%nat in let gn := (fR gamma / INR (2 ^ 9)) in let e' := e + Rabs (fR sc) * const_err G in
  exists zv yv tv, zVector f0 n (2 ^ 9) (2 ^ 5) 20 feature = Ok zv /\ labelVector f0 n (2 ^ 9) (2 ^ 5) label = Ok yv /\ testVector f0 n 20 x = Ok tv /\
    let F := fconst gamma (2 ^ 9) c0 c1 c3 etas (maskVector f0 f1 n (2 ^ 5)) (ofList f0 yv) in
    let K := exact_const gamma (2 ^ 9) c0 c1 c3 etas (maskVector f0 f1 n (2 ^ 5)) (ofList f0 yv) in
    let nb := nesterovAll 0 1 Rplus Rmult Rminus (fR c0) (fR c1) (fR c3) gn 20 (entry 0 (map (map fR) feature)) (entry1 0 (map fR label)) (fun _ => seq 0 (2 ^ 9)) (map fR etas) in
    forall KE z v0 b0 test, consts_held pp sc s ids e (mapConst rslots rslots F) KE -> fresh pp sc s ids e (rslots (ofList f0 zv)) z ->
      fresh pp sc s ids e (fun _ => 0) v0 -> fresh pp sc s ids e (fun _ => 0) b0 -> fresh pp sc s ids e (rslots (ofList f0 tv)) test ->
    exists v b t st' av ab at',
      lrRun EE KE (2 ^ 9) (2 ^ 5) 2 20 z (v0, b0) test st = Ok ((v, b), t, st') /\
      lrRun EA (errConst top sc e' K) (2 ^ 9) (2 ^ 5) 2 20 (fa top sc e' (rslots (ofList f0 zv))) (fa top sc e' (fun _ => 0), fa top sc e' (fun _ => 0)) (fa top sc e' (rslots (ofList f0 tv))) [] = Ok ((av, ab), at', repeat 1%nat 30) /\
      learned pp s ids (2 ^ 9) (2 ^ 5) 20 (fR c0) (fR c1) (fR c3) (map fR x) nb 12 12 9 (S754_finite false 9007014574901172 (-15)) beta38 sc38 (a_e av) (a_e ab) (a_e at') v b t.
Proof.
  intros HN HI Ht Hl He Hx n gn e'. assert (Hc3 : fR c3 <> 0) by apply HI.
  assert (HG : 1 <= G) by apply HI. pose proof (err_nonneg G HG) as Hd.
  pose proof (shipped_toy _ _ _ _ _ _ _ _ _ _ _ _ _ _ _ _ _ _ _ _ _ _ HS HQ Hsc (fR gamma) (fR c0) (fR c1) (fR c3) (map fR etas) (map (map fR) feature) (map fR label) (map fR x) e' HN Hc3 (table_fR _ _ _ Ht)) as H.
  rewrite !map_length in H. specialize (H Hl He Hx). cbv zeta in H. destruct H as (zr & yr & tr & E1 & E2 & E3 & H).
  change (zVector 0) with (zVector (fR f0)) in E1. change (labelVector 0) with (labelVector (fR f0)) in E2. change (testVector 0) with (testVector (fR f0)) in E3.
  rewrite zVector_map in E1. rewrite labelVector_map in E2. rewrite testVector_map in E3. apply rmap_inv in E1 as (zv & E1 & ->). apply rmap_inv in E2 as (yv & E2 & ->). apply rmap_inv in E3 as (tv & E3 & ->).
  exists zv, yv, tv. do 3 (split; [assumption|]). cbv zeta. intros KE z v0 b0 test HK Hz Hv Hb Hte.
  rewrite mask_fR, !ofList_fR in H.
  assert (Hy : Forall (within G) yv). { eapply labelVector_P; [|apply HI|exact E2]. now apply within_0. }
  assert (HF : const_refine (near (const_err G)) (near (const_err G)) (exact_const gamma (2 ^ 9) c0 c1 c3 etas (maskVector f0 f1 n (2 ^ 5)) (ofList f0 yv)) (fconst gamma (2 ^ 9) c0 c1 c3 etas (maskVector f0 f1 n (2 ^ 5)) (ofList f0 yv))).
  { apply (consts_near G gamma (2 ^ 9) c0 c1 c3 etas label); auto; [apply Nat.neq_0_lt_0, Nat.pow_nonzero; lia|rewrite Nat2Z.inj_pow; apply Z.pow_le_mono_r; lia|apply maskVector_fin|]. intros i. apply ofList_P; [now apply within_0|exact Hy]. }
  destruct (H KE z v0 b0 test) as (v & b & t & st' & av & ab & at' & R1 & R2 & R3 & R4).
  - exact (held_float pp sc s ids e (const_err G) _ _ KE HF HK).
  - now apply fresh_more.
  - now apply fresh_more.
  - now apply fresh_more.
  - now apply fresh_more.
  - exists v, b, t, st', av, ab, at'. split; [exact R1|]. split; [exact R3|exact R4].
Qed.
Lemma float_mini G gamma c0 c1 c3 etas feature label x e :
  pa_logN pp = 15%nat -> inputs_within G gamma c0 c1 c3 etas label -> table feature (2 ^ 11) 7 -> (2 ^ 11 <= length label)%nat -> length etas = 4%nat -> (7 <= length x)%nat ->
  let n := (2 ^ 14)%nat in let gn := (fR gamma / INR (2 ^ 9)) in let e' := e + Rabs (fR sc) * const_err G in
  exists bs bf tv, exact_batches n 7 (2 ^ 11) (2 ^ 9) gamma c0 c1 c3 etas feature label = Ok bs /\ fpackBatches n 7 (2 ^ 11) (2 ^ 9) gamma c0 c1 c3 etas feature label = Ok bf /\ batches_near (const_err G) bs bf /\ testVector f0 n 7 x = Ok tv /\
    let F := fconst gamma (2 ^ 9) c0 c1 c3 etas (maskVector f0 f1 n (2 ^ 3)) (fun _ => f0) in
    let K := exact_const gamma (2 ^ 9) c0 c1 c3 etas (maskVector f0 f1 n (2 ^ 3)) (fun _ => f0) in
    let nb := nesterovAll 0 1 Rplus Rmult Rminus (fR c0) (fR c1) (fR c3) gn 7 (entry 0 (map (map fR) feature)) (entry1 0 (map fR label)) (fun a => seq (a mod 4 * 2 ^ 9) (2 ^ 9)) (map fR etas) in
    forall KE be v0 b0 test, consts_held pp sc s ids e (mapConst rslots rslots F) KE -> batches_held pp sc s ids e (mapBatches rslots rslots bf) be ->
      fresh pp sc s ids e (fun _ => 0) v0 -> fresh pp sc s ids e (fun _ => 0) b0 -> fresh pp sc s ids e (rslots (ofList f0 tv)) test ->
    exists v b t st' av ab at',
      lrRunBatch EE KE (2 ^ 11) (2 ^ 3) be 4 7 (v0, b0) test st = Ok ((v, b), t, st') /\
      lrRunBatch EA (errConst top sc e' K) (2 ^ 11) (2 ^ 3) (mapBatches (fa top sc e') (fp sc e') bs) 4 7 (fa top sc e' (fun _ => 0), fa top sc e' (fun _ => 0)) (fa top sc e' (rslots (ofList f0 tv))) [] = Ok ((av, ab), at', repeat 1%nat 56) /\
      learned pp s ids (2 ^ 11) (2 ^ 3) 7 (fR c0) (fR c1) (fR c3) (map fR x) nb 4 4 1 (S754_finite false 4503667274105103 (-14)) sc38 sc38 (a_e av) (a_e ab) (a_e at') v b t.
Proof.
  intros HN HI Ht Hl He Hx n gn e'. assert (Hc3 : fR c3 <> 0) by apply HI.
  assert (HG : 1 <= G) by apply HI. pose proof (err_nonneg G HG) as Hd.
  pose proof (shipped_mini _ _ _ _ _ _ _ _ _ _ _ _ _ _ _ _ _ _ _ _ _ _ HS HQ Hsc gn (fR c0) (fR c1) (fR c3) (map fR etas) (map (map fR) feature) (map fR label) (map fR x) e' HN Hc3 (table_fR _ _ _ Ht)) as H.
  rewrite !map_length in H. specialize (H Hl He Hx). cbv zeta in H. destruct H as (bs & tr & E1 & E3 & H).
  change (testVector 0) with (testVector (fR f0)) in E3. rewrite testVector_map in E3. apply rmap_inv in E3 as (tv & E3 & ->).
  rewrite mask_fR, !ofList_fR in H. fold n in E1.
  assert (P1 : (0 < 2 ^ 9)%nat) by (apply Nat.neq_0_lt_0, Nat.pow_nonzero; lia). assert (P2 : (Z.of_nat (2 ^ 9) <= 2 ^ 53)%Z) by (rewrite Nat2Z.inj_pow; apply Z.pow_le_mono_r; lia).
  destruct (batches_near_ok G gamma c0 c1 c3 etas feature label n 7 (2 ^ 11) (2 ^ 9) bs HI P1 P2 E1) as (bf & E2 & HB).
  exists bs, bf, tv. do 4 (split; [assumption|]). cbv zeta. intros KE be v0 b0 test HK Hz Hv Hb Hte.
  assert (HF : const_refine (near (const_err G)) (near (const_err G)) (exact_const gamma (2 ^ 9) c0 c1 c3 etas (maskVector f0 f1 n (2 ^ 3)) (fun _ => f0)) (fconst gamma (2 ^ 9) c0 c1 c3 etas (maskVector f0 f1 n (2 ^ 3)) (fun _ => f0))).
  { apply (consts_near G gamma (2 ^ 9) c0 c1 c3 etas label); auto; [apply maskVector_fin|]. intros i. now apply within_0. }
  destruct (H KE be v0 b0 test) as (v & b & t & st' & av & ab & at' & R1 & R2 & R3 & R4).
  - exact (held_float pp sc s ids e (const_err G) _ _ KE HF HK).
  - exact (batches_float pp sc s ids e (const_err G) bs bf be HB Hz Hd).
  - now apply fresh_more.
  - now apply fresh_more.
  - now apply fresh_more.
  - exists v, b, t, st', av, ab, at'. split; [exact R1|]. split; [exact R3|exact R4].
Qed.
Lemma float_mini_toy G gamma c0 c1 c3 etas feature label x e :
  pa_logN pp = 15%nat -> inputs_within G gamma c0 c1 c3 etas label -> table feature (2 ^ 9) 20 -> (2 ^ 9 <= length label)%nat -> length etas = 4%nat -> (20 <= length x)%nat ->
  let n := (2 ^ 14)%nat in let gn := (fR gamma / INR (2 ^ 7)) in let e' := e + Rabs (fR sc) * const_err G in
  exists bs bf tv, exact_batches n 20 (2 ^ 9) (2 ^ 7) gamma c0 c1 c3 etas feature label = Ok bs /\ fpackBatches n 20 (2 ^ 9) (2 ^ 7) gamma c0 c1 c3 etas feature label = Ok bf /\ batches_near (const_err G) bs bf /\ testVector f0 n 20 x = Ok tv /\
    let F := fconst gamma (2 ^ 7) c0 c1 c3 etas (maskVector f0 f1 n (2 ^ 5)) (fun _ => f0) in
    let K := exact_const gamma (2 ^ 7) c0 c1 c3 etas (maskVector f0 f1 n (2 ^ 5)) (fun _ => f0) in
    let nb := nesterovAll 0 1 Rplus Rmult Rminus (fR c0) (fR c1) (fR c3) gn 20 (entry 0 (map (map fR) feature)) (entry1 0 (map fR label)) (fun a => seq (a mod 4 * 2 ^ 7) (2 ^ 7)) (firstn 3 (map fR etas)) in
    forall KE be v0 b0 test, consts_held pp sc s ids e (mapConst rslots rslots F) KE -> batches_held pp sc s ids e (mapBatches rslots rslots bf) be ->
      fresh pp sc s ids e (fun _ => 0) v0 -> fresh pp sc s ids e (fun _ => 0) b0 -> fresh pp sc s ids e (rslots (ofList f0 tv)) test ->
    exists v b t st' av ab at',
      lrRunBatch EE KE (2 ^ 9) (2 ^ 5) be 3 20 (v0, b0) test st = Ok ((v, b), t, st') /\
      lrRunBatch EA (errConst top sc e' K) (2 ^ 9) (2 ^ 5) (mapBatches (fa top sc e') (fp sc e') bs) 3 20 (fa top sc e' (fun _ => 0), fa top sc e' (fun _ => 0)) (fa top sc e' (rslots (ofList f0 tv))) [] = Ok ((av, ab), at', repeat 1%nat 43) /\
      learned pp s ids (2 ^ 9) (2 ^ 5) 20 (fR c0) (fR c1) (fR c3) (map fR x) nb 8 8 5 sc38 sc38 (S754_finite false 4503707005784917 (-14)) (a_e av) (a_e ab) (a_e at') v b t.
Proof.
  intros HN HI Ht Hl He Hx n gn e'. assert (Hc3 : fR c3 <> 0) by apply HI.
  assert (HG : 1 <= G) by apply HI. pose proof (err_nonneg G HG) as Hd.
  pose proof (shipped_mini_toy _ _ _ _ _ _ _ _ _ _ _ _ _ _ _ _ _ _ _ _ _ _ HS HQ Hsc gn (fR c0) (fR c1) (fR c3) (map fR etas) (map (map fR) feature) (map fR label) (map fR x) e' HN Hc3 (table_fR _ _ _ Ht)) as H.
  rewrite !map_length in H. specialize (H Hl He Hx). cbv zeta in H. destruct H as (bs & tr & E1 & E3 & H).
  change (testVector 0) with (testVector (fR f0)) in E3. rewrite testVector_map in E3. apply rmap_inv in E3 as (tv & E3 & ->).
  rewrite mask_fR, !ofList_fR in H. fold n in E1.
  assert (P1 : (0 < 2 ^ 7)%nat) by (apply Nat.neq_0_lt_0, Nat.pow_nonzero; lia). assert (P2 : (Z.of_nat (2 ^ 7) <= 2 ^ 53)%Z) by (rewrite Nat2Z.inj_pow; apply Z.pow_le_mono_r; lia).
  destruct (batches_near_ok G gamma c0 c1 c3 etas feature label n 20 (2 ^ 9) (2 ^ 7) bs HI P1 P2 E1) as (bf & E2 & HB).
  exists bs, bf, tv. do 4 (split; [assumption|]). cbv zeta. intros KE be v0 b0 test HK Hz Hv Hb Hte.
  assert (HF : const_refine (near (const_err G)) (near (const_err G)) (exact_const gamma (2 ^ 7) c0 c1 c3 etas (maskVector f0 f1 n (2 ^ 5)) (fun _ => f0)) (fconst gamma (2 ^ 7) c0 c1 c3 etas (maskVector f0 f1 n (2 ^ 5)) (fun _ => f0))).
  { apply (consts_near G gamma (2 ^ 7) c0 c1 c3 etas label); auto; [apply maskVector_fin|]. intros i. now apply within_0. }
  destruct (H KE be v0 b0 test) as (v & b & t & st' & av & ab & at' & R1 & R2 & R3 & R4).
  - exact (held_float pp sc s ids e (const_err G) _ _ KE HF HK).
  - exact (batches_float pp sc s ids e (const_err G) bs bf be HB Hz Hd).
  - now apply fresh_more.
  - now apply fresh_more.
  - now apply fresh_more.
  - exists v, b, t, st', av, ab, at'. split; [exact R1|]. split; [exact R3|exact R4].
Qed.
End Run.

(** ** the shipped values *)
Definition lit (s : bool) (m : positive) (e : Z) : f64 := S754_finite s m e.
Lemma prz k : powerRZ 2 (- Z.of_nat k) = / 2 ^ k. Proof. rewrite powerRZ_neg', <- pow_powerRZ. reflexivity. Qed.
Lemma within_lit G s m e k : bounded 53 1024 m e = true -> (e = - Z.of_nat k)%Z -> IZR (Zpos m) <= G * 2 ^ k -> within G (lit s m e).
Proof.
  intros Hb -> H. split; [exact Hb|]. unfold lit, fR. rewrite Rabs_mult. rewrite prz.
  assert (P : 0 < 2 ^ k) by (apply pow_lt; lra). rewrite (Rabs_pos_eq (/ 2 ^ k)) by (left; now apply Rinv_0_lt_compat).
  assert (E : Rabs (IZR (if s then Z.neg m else Z.pos m)) = IZR (Z.pos m)). { rewrite <- abs_IZR. now destruct s. }
  rewrite E. apply (Rmult_le_reg_r (2 ^ k)); [exact P|]. rewrite Rmult_assoc, Rinv_l by lra. lra.
Qed.
Lemma within_01 G l : 1 <= G <= 2 ^ 100 -> Forall (fun x => x = f0 \/ x = f1) l -> Forall (within G) l.
Proof. intros HG. apply Forall_impl. intros a [->| ->]; [apply within_0; lra|exact (fval_1 G HG 1%nat ltac:(lia))]. Qed.
Definition v_gamma := lit false 5404319552844595 (-54).
Definition v_c0 := lit false 4503599627370496 (-53).
Definition v_c1 := lit false 5404319552844595 (-55).
Definition v_c3 := lit true 6917529027641082 (-62).
Lemma pow_Z k : 2 ^ k = IZR (2 ^ Z.of_nat k). Proof. apply pow_IZR. Qed.
Lemma G5 : 1 <= 5 <= 2 ^ 100. Proof. split; [lra|]. rewrite pow_Z. apply IZR_le. now vm_compute. Qed.
Ltac lit5 k := apply (within_lit 5 _ _ _ k); [reflexivity|reflexivity|]; rewrite pow_Z, <- mult_IZR; apply IZR_le; now vm_compute.
Lemma ship_c13 : fR v_c3 <> 0 /\ fR v_c3 < 0 /\ Rabs (fR v_c1 / fR v_c3) <= 5 ^ 3 /\ fR v_c1 / fR v_c3 <> -100.
Proof.
  assert (E1 : fR v_c1 = IZR 5404319552844595 * 2 ^ 7 * / 2 ^ 62).
  { unfold v_c1, lit, fR. change (-55)%Z with (- Z.of_nat 55)%Z. rewrite prz. replace (2 ^ 62) with (2 ^ 55 * 2 ^ 7) by (rewrite <- pow_add; reflexivity). assert (2 ^ 55 <> 0) by (apply pow_nonzero; lra). assert (2 ^ 7 <> 0) by (apply pow_nonzero; lra). field; auto. }
  assert (E3 : fR v_c3 = - IZR 6917529027641082 * / 2 ^ 62).
  { unfold v_c3, lit, fR. change (-62)%Z with (- Z.of_nat 62)%Z. rewrite prz. change (IZR (Z.neg 6917529027641082)) with (- IZR 6917529027641082). reflexivity. }
  assert (P : 0 < / 2 ^ 62) by (apply Rinv_0_lt_compat, pow_lt; lra). assert (N : fR v_c3 < 0) by (rewrite E3; nra). split; [lra|]. split; [exact N|].
  assert (E : fR v_c1 / fR v_c3 = - (IZR 691752902764108160 / IZR 6917529027641082)).
  { rewrite E1, E3. replace (IZR 5404319552844595 * 2 ^ 7) with (IZR 691752902764108160) by (cbn [pow]; lra). assert (/ 2 ^ 62 <> 0) by lra. field; lra. }
  rewrite E. split.
  - rewrite Rabs_Ropp, Rabs_pos_eq by (apply Rmult_le_pos; [lra|left; apply Rinv_0_lt_compat; lra]). apply (Rmult_le_reg_r (IZR 6917529027641082)); [lra|]. unfold Rdiv. rewrite Rmult_assoc, Rinv_l by lra. cbn [pow]. lra.
  - intros H. assert (H2 : IZR 691752902764108160 / IZR 6917529027641082 * IZR 6917529027641082 = 100 * IZR 6917529027641082) by nra. unfold Rdiv in H2. rewrite Rmult_assoc, Rinv_l in H2 by lra. lra.
Qed.
Lemma ship_within etas label : Forall (within 5) etas -> Forall (within 5) label -> forall gamma, within 5 gamma -> inputs_within 5 gamma v_c0 v_c1 v_c3 etas label.
Proof.
  intros He Hl gamma Hg. destruct ship_c13 as (H1 & _ & H2 & _). split; [exact G5|]. split; [exact Hg|]. split; [unfold v_c0; lit5 53%nat|]. split; [unfold v_c3; lit5 62%nat|]. split; [unfold v_c1; lit5 55%nat|]. auto.
Qed.
Lemma shipped_inputs : exists gamma c0 c1 c3 etas label, inputs_within 5 gamma c0 c1 c3 etas label /\
  fR gamma = 5404319552844595 * powerRZ 2 (-54) /\ fR c0 = 1 / 2 /\ fR c3 < 0 /\ fdiv c1 c3 = f_of_Z (-100) /\ fR c1 / fR c3 <> -100 /\ length etas = 4%nat /\ length label = (2 ^ 11)%nat /\ In f0 label /\ In f1 label /\ const_err 5 < / 2 ^ 39.
Proof.
  exists v_gamma, v_c0, v_c1, v_c3, [f1; lit false 7286959305074284 (-52); lit false 4939383689913561 (-51); lit false 6191976609673558 (-51)], (f0 :: f1 :: repeat f0 2046).
  destruct ship_c13 as (H1 & H2 & H3 & H4). split; [|split; [reflexivity|split; [|split; [exact H2|split; [reflexivity|split; [exact H4|split; [reflexivity|split; [|split; [now left|split; [right; now left|]]]]]]]]]].
  - apply ship_within.
    + constructor; [exact (fval_1 5 G5 1%nat ltac:(lia))|]. constructor; [lit5 52%nat|]. constructor; [lit5 51%nat|]. constructor; [lit5 51%nat|constructor].
    + apply within_01; [exact G5|]. do 2 (constructor; [auto|]). apply Forall_forall. intros x Hx. apply repeat_spec in Hx. auto.
    + unfold v_gamma. lit5 54%nat.
  - unfold v_c0, lit, fR. change (-53)%Z with (- Z.of_nat 53)%Z. rewrite prz. rewrite pow_Z. assert (P : IZR (2 ^ Z.of_nat 53) = 2 * 4503599627370496) by (cbn; lra). rewrite P. field.
  - cbn [length]. rewrite repeat_length. reflexivity.
  - unfold const_err. replace (2 ^ 51) with (2 ^ 39 * 2 ^ 12) by (rewrite <- pow_add; reflexivity). assert (P : 0 < 2 ^ 39) by (apply pow_lt; lra). replace (17 / (2 ^ 39 * 2 ^ 12) * 5 ^ 3) with (/ 2 ^ 39 * (17 * 125 / 4096)) by (cbn; field; lra). assert (0 < / 2 ^ 39) by now apply Rinv_0_lt_compat. nra.
Qed.
Lemma shipped_inputs_toy : exists gamma c0 c1 c3 etas label, inputs_within 5 gamma c0 c1 c3 etas label /\ fR gamma = 3 /\ length etas = 4%nat /\ length label = (2 ^ 9)%nat.
Proof.
  assert (F3 : fval (f_of_Z 3) 3) by (apply (fval_Z 3); lia).
  exists (f_of_Z 3), v_c0, v_c1, v_c3, [f1; f0; lit true 5075556780046549 (-54); lit true 7818969529055560 (-54)], (repeat f1 512). split; [|split; [exact (fR_fval _ _ F3)|split; [reflexivity|]]].
  - apply ship_within.
    + constructor; [exact (fval_1 5 G5 1%nat ltac:(lia))|]. constructor; [apply within_0; lra|]. constructor; [lit5 54%nat|]. constructor; [lit5 54%nat|constructor].
    + apply within_01; [exact G5|]. apply Forall_forall. intros x Hx. apply repeat_spec in Hx. auto.
    + split; [apply finite_fval; eauto|]. rewrite (fR_fval _ _ F3), Rabs_pos_eq by lra. lra.
  - rewrite repeat_length. reflexivity.
Qed.
