(** Running one logistic-regression program on two evaluators: if every call refines, the program does. *)
From Coq Require Import ZArith Bool List Lia.
From Verif Require Import Go LR.
Import ListNotations.
Local Open Scope Z_scope.

(** m2 returns whenever m1 does, with related values and states *)
Definition refines {S1 S2 A1 A2} (RS : S1 -> S2 -> Prop) (RA : A1 -> A2 -> Prop) (m1 : SM S1 A1) (m2 : SM S2 A2) : Prop :=
  forall s1 s2 a1 s1', RS s1 s2 -> m1 s1 = Ok (a1, s1') -> exists a2 s2', m2 s2 = Ok (a2, s2') /\ RA a1 a2 /\ RS s1' s2'.

Lemma f2_len {A B} (P : A -> B -> Prop) l1 l2 : Forall2 P l1 l2 -> length l1 = length l2.
Proof. induction 1; cbn [length]; congruence. Qed.

Section Rel.
Context {S1 S2 : Type} (RS : S1 -> S2 -> Prop).
Lemma ref_ret {A1 A2} (RA : A1 -> A2 -> Prop) a1 a2 : RA a1 a2 -> refines RS RA (sret a1) (sret a2).
Proof. intros H s1 s2 x s1' HS E. injection E as <- <-. eexists _, _; split; [reflexivity|auto]. Qed.
Lemma ref_bind {A1 A2 B1 B2} (RA : A1 -> A2 -> Prop) (RB : B1 -> B2 -> Prop) m1 m2 k1 k2 :
  refines RS RA m1 m2 -> (forall a1 a2, RA a1 a2 -> refines RS RB (k1 a1) (k2 a2)) -> refines RS RB (sbind m1 k1) (sbind m2 k2).
Proof.
  intros H K s1 s2 b1 s1' HS E. unfold sbind in E |- *. destruct (m1 s1) as [[a1 t1]|] eqn:E1; cbn in E; [|discriminate].
  destruct (H _ _ _ _ HS E1) as (a2 & t2 & E2 & Ha & HS'). rewrite E2. cbn. now apply (K a1 a2 Ha t1 t2 b1 s1' HS').
Qed.
Lemma ref_lift {A1 A2} (RA : A1 -> A2 -> Prop) r1 r2 : (forall a1, r1 = Ok a1 -> exists a2, r2 = Ok a2 /\ RA a1 a2) -> refines RS RA (slift r1) (slift r2).
Proof.
  intros H s1 s2 a1 s1' HS E. unfold slift in E |- *. destruct r1 as [x|]; cbn in E; [|discriminate]. injection E as <- <-.
  destruct (H x eq_refl) as (a2 & -> & Ha). eexists _, _; split; [reflexivity|auto].
Qed.
Lemma ref_idx {A1 A2} (RA : A1 -> A2 -> Prop) l1 l2 a : Forall2 RA l1 l2 -> refines RS RA (slift (idx l1 a)) (slift (idx l2 a)).
Proof.
  intros H. apply ref_lift. revert a. induction H as [|x y l1 l2 Hx Hl IH]; intros [|a] z; unfold idx; cbn [nth_error]; try discriminate.
  - intros E. injection E as <-. eauto.
  - apply IH.
Qed.
Lemma ref_fold {A1 A2 B1 B2} (RA : A1 -> A2 -> Prop) (RB : B1 -> B2 -> Prop) f1 f2 l1 l2 b1 b2 :
  (forall b1 b2 a1 a2, RB b1 b2 -> RA a1 a2 -> refines RS RB (f1 b1 a1) (f2 b2 a2)) -> Forall2 RA l1 l2 -> RB b1 b2 -> refines RS RB (sfold f1 l1 b1) (sfold f2 l2 b2).
Proof.
  intros Hf H. revert b1 b2. induction H as [|x y l1 l2 Hx Hl IH]; intros b1 b2 Hb; cbn [sfold]; [now apply ref_ret|].
  eapply ref_bind; [now apply Hf|]. intros; now apply IH.
Qed.

Context {ct1 pt1 ct2 pt2 : Type} (RC : ct1 -> ct2 -> Prop) (RP : pt1 -> pt2 -> Prop) (E1 : heops S1 ct1 pt1) (E2 : heops S2 ct2 pt2).
Record ops_refine : Prop := {
  r_mul : forall a a' b b', RC a a' -> RC b b' -> refines RS RC (o_mul E1 false a b) (o_mul E2 false a' b');
  r_sq : forall a a', RC a a' -> refines RS RC (o_mul E1 true a a) (o_mul E2 true a' a');
  r_mulp : forall a a' p p', RC a a' -> RP p p' -> refines RS RC (o_mulp E1 a p) (o_mulp E2 a' p');
  r_add : forall a a' b b', RC a a' -> RC b b' -> refines RS RC (o_add E1 a b) (o_add E2 a' b');
  r_rot : forall a a' k, RC a a' -> refines RS RC (o_rot E1 a k) (o_rot E2 a' k);
  r_zero : refines RS RC (o_zero E1) (o_zero E2) }.
Record const_refine (K1 : lrconst ct1 pt1) (K2 : lrconst ct2 pt2) : Prop := {
  q_mask : RP (k_mask K1) (k_mask K2); q_1 : RP (k_1 K1) (k_1 K2); q_2 : Forall2 RP (k_2 K1) (k_2 K2); q_3 : RP (k_3 K1) (k_3 K2);
  q_4 : Forall2 RP (k_4 K1) (k_4 K2); q_5 : RC (k_5 K1) (k_5 K2); q_6 : Forall2 RP (k_6 K1) (k_6 K2); q_7 : Forall2 RP (k_7 K1) (k_7 K2);
  q_8 : RP (k_8 K1) (k_8 K2); q_9 : RC (k_9 K1) (k_9 K2) }.
Context (HE : ops_refine).

Lemma ref_sumLoop fuel i bound amount c1 c2 : RC c1 c2 -> refines RS RC (sumLoop E1 fuel i bound amount c1) (sumLoop E2 fuel i bound amount c2).
Proof.
  revert i c1 c2; induction fuel as [|fuel IH]; intros i c1 c2 Hc; cbn [sumLoop]; destruct (i <? bound).
  - apply ref_lift. discriminate.
  - now apply ref_ret.
  - eapply ref_bind; [now apply (r_rot HE)|]. intros r1 r2 Hr. eapply ref_bind; [now apply (r_add HE)|]. intros; now apply IH.
  - now apply ref_ret.
Qed.
Lemma ref_rotSum bound amount c1 c2 : RC c1 c2 -> refines RS RC (rotSum E1 bound amount c1) (rotSum E2 bound amount c2).
Proof. apply ref_sumLoop. Qed.
Lemma ref_sumCol c1 c2 p1 p2 r c : RC c1 c2 -> RP p1 p2 -> refines RS RC (SumColVec E1 c1 p1 r c) (SumColVec E2 c2 p2 r c).
Proof.
  intros Hc Hp. unfold SumColVec. eapply ref_bind; [now apply ref_rotSum|]. intros x1 x2 Hx. eapply ref_bind; [now apply (r_mulp HE)|]. intros; now apply ref_rotSum.
Qed.
Ltac stp := eapply ref_bind; [first [apply (r_sq HE)|apply (r_mul HE)|apply (r_mulp HE)|apply (r_add HE)|apply (ref_idx RP)|apply ref_sumCol|apply ref_rotSum|apply (r_zero HE)]; eassumption|intros ? ? ?].

Context (K1 : lrconst ct1 pt1) (K2 : lrconst ct2 pt2) (HK : const_refine K1 K2).
Definition RV (x : ct1 * ct1) (y : ct2 * ct2) : Prop := RC (fst x) (fst y) /\ RC (snd x) (snd y).
Lemma ref_trainIter r c z1 z2 vb1 vb2 a : RC z1 z2 -> RV vb1 vb2 -> refines RS RV (trainIter E1 K1 r c z1 vb1 a) (trainIter E2 K2 r c z2 vb2 a).
Proof.
  intros Hz Hv. destruct vb1 as [v1 b1], vb2 as [v2 b2]. destruct Hv as [Hv Hb]; cbn [fst snd] in Hv, Hb.
  pose proof (q_mask _ _ HK). pose proof (q_1 _ _ HK). pose proof (q_2 _ _ HK). pose proof (q_3 _ _ HK). pose proof (q_4 _ _ HK). pose proof (q_5 _ _ HK). pose proof (q_6 _ _ HK). pose proof (q_7 _ _ HK).
  unfold trainIter, SumRowVec. repeat stp. apply ref_ret. split; assumption.
Qed.
Lemma ref_train r c n z1 z2 vb1 vb2 : RC z1 z2 -> RV vb1 vb2 -> refines RS RV (train E1 K1 r c n z1 vb1) (train E2 K2 r c n z2 vb2).
Proof.
  intros Hz Hv. unfold train. apply (ref_fold eq); [|clear; generalize 0%nat; induction n; intros m; constructor; auto|exact Hv].
  intros b1 b2 a1 a2 Hb <-. now apply ref_trainIter.
Qed.
Lemma ref_infer nf t1 t2 b1 b2 : RC t1 t2 -> RC b1 b2 -> refines RS RC (infer E1 K1 nf t1 b1) (infer E2 K2 nf t2 b2).
Proof.
  intros Ht Hb. pose proof (q_5 _ _ HK). pose proof (q_8 _ _ HK). pose proof (q_9 _ _ HK). unfold infer. repeat stp. now apply (r_add HE).
Qed.
Definition RD (x : ct1 * pt1 * list pt1) (y : ct2 * pt2 * list pt2) : Prop :=
  RC (fst (fst x)) (fst (fst y)) /\ RP (snd (fst x)) (snd (fst y)) /\ Forall2 RP (snd x) (snd y).
Lemma ref_batchCt r c a v1 v2 acc1 acc2 d1 d2 : RC v1 v2 -> RV acc1 acc2 -> RD d1 d2 -> refines RS RV (batchCt E1 K1 r c a v1 acc1 d1) (batchCt E2 K2 r c a v2 acc2 d2).
Proof.
  intros Hv Ha Hd. destruct acc1 as [g1 u1], acc2 as [g2 u2], d1 as [[z1 p1] l1], d2 as [[z2 p2] l2]. destruct Ha as [Hg Hu], Hd as (Hz & Hp & Hl). cbn [fst snd] in *.
  pose proof (q_mask _ _ HK). pose proof (q_3 _ _ HK). pose proof (q_4 _ _ HK). pose proof (q_5 _ _ HK).
  unfold batchCt. repeat stp. apply ref_ret. split; assumption.
Qed.
Lemma ref_batchIter r c bs1 bs2 vb1 vb2 a : Forall2 (Forall2 RD) bs1 bs2 -> RV vb1 vb2 -> refines RS RV (batchIter E1 K1 r c bs1 vb1 a) (batchIter E2 K2 r c bs2 vb2 a).
Proof.
  intros Hbs Hv. destruct vb1 as [v1 b1], vb2 as [v2 b2]. destruct Hv as [Hv Hb]; cbn [fst snd] in Hv, Hb.
  pose proof (q_6 _ _ HK). pose proof (q_7 _ _ HK). unfold batchIter, SumRowVec.
  eapply (ref_bind (Forall2 RD)).
  { apply ref_lift. intros x. rewrite <- (f2_len _ _ _ Hbs). destruct (length bs1); [discriminate|]. clear -Hbs. generalize (a mod S n)%nat. induction Hbs as [|x0 y l1 l2 Hx Hl IH]; intros [|m]; unfold idx; cbn [nth_error]; try discriminate.
    - intros E. injection E as <-. eauto. - apply IH. }
  intros d1 d2 Hd. eapply ref_bind; [apply (r_zero HE)|]. intros g1 g2 Hg. eapply ref_bind; [apply (r_zero HE)|]. intros u1 u2 Hu.
  eapply (ref_bind RV). { apply (ref_fold RD RV); [|exact Hd|split; assumption]. intros; now apply ref_batchCt. }
  intros [ga1 ua1] [ga2 ua2] [Hga Hua]; cbn [fst snd] in Hga, Hua. repeat stp. apply ref_ret. split; assumption.
Qed.
Lemma ref_trainBatch r c bs1 bs2 n vb1 vb2 : Forall2 (Forall2 RD) bs1 bs2 -> RV vb1 vb2 -> refines RS RV (trainBatch E1 K1 r c bs1 n vb1) (trainBatch E2 K2 r c bs2 n vb2).
Proof.
  intros Hz Hv. unfold trainBatch. apply (ref_fold eq); [|clear; generalize 0%nat; induction n; intros m; constructor; auto|exact Hv].
  intros b1 b2 a1 a2 Hb <-. now apply ref_batchIter.
Qed.
Definition RR (x : ct1 * ct1 * ct1) (y : ct2 * ct2 * ct2) : Prop := RV (fst x) (fst y) /\ RC (snd x) (snd y).
Lemma ref_lrRun r c n nf z1 z2 vb1 vb2 t1 t2 : RC z1 z2 -> RV vb1 vb2 -> RC t1 t2 -> refines RS RR (lrRun E1 K1 r c n nf z1 vb1 t1) (lrRun E2 K2 r c n nf z2 vb2 t2).
Proof.
  intros Hz Hv Ht. unfold lrRun. eapply ref_bind; [now apply ref_train|]. intros x y [Hx Hy]. eapply ref_bind; [now apply ref_infer|]. intros. apply ref_ret. split; [split|]; assumption.
Qed.
Lemma ref_lrRunBatch r c bs1 bs2 n nf vb1 vb2 t1 t2 : Forall2 (Forall2 RD) bs1 bs2 -> RV vb1 vb2 -> RC t1 t2 -> refines RS RR (lrRunBatch E1 K1 r c bs1 n nf vb1 t1) (lrRunBatch E2 K2 r c bs2 n nf vb2 t2).
Proof.
  intros Hz Hv Ht. unfold lrRunBatch. eapply ref_bind; [now apply ref_trainBatch|]. intros x y [Hx Hy]. eapply ref_bind; [now apply ref_infer|]. intros. apply ref_ret. split; [split|]; assumption.
Qed.
End Rel.

Lemma f2_map {A B C D} (P : C -> D -> Prop) (Q : A -> B -> Prop) f g l1 l2 : (forall a b, Q a b -> P (f a) (g b)) -> Forall2 Q l1 l2 -> Forall2 P (map f l1) (map g l2).
Proof. intros H. induction 1; cbn [map]; constructor; auto. Qed.
Lemma f2_same {A} (P : A -> A -> Prop) l : (forall a, P a a) -> Forall2 P l l.
Proof. intros H. induction l; constructor; auto. Qed.
(** the constants of two evaluators made from constants of related values *)
Lemma const_map {c1 p1 c2 p2 c1' p1' c2' p2'} (RC0 : c1 -> c2 -> Prop) (RP0 : p1 -> p2 -> Prop) (RC : c1' -> c2' -> Prop) (RP : p1' -> p2' -> Prop) fc fp gc gp K1 K2 :
  (forall a b, RC0 a b -> RC (fc a) (gc b)) -> (forall a b, RP0 a b -> RP (fp a) (gp b)) -> const_refine RC0 RP0 K1 K2 -> const_refine RC RP (mapConst fc fp K1) (mapConst gc gp K2).
Proof. intros HC HP [? ? ? ? ? ? ? ? ? ?]. constructor; cbn; auto; eapply f2_map; eauto. Qed.
Lemma const_refl {c p} (K : lrconst c p) : const_refine eq eq K K.
Proof. constructor; auto; apply f2_same; auto. Qed.
Lemma f2_mapl {A B C} (P : C -> B -> Prop) (Q : A -> B -> Prop) f l1 l2 : (forall a b, Q a b -> P (f a) b) -> Forall2 Q l1 l2 -> Forall2 P (map f l1) l2.
Proof. intros H. induction 1; cbn [map]; constructor; auto. Qed.
Lemma const_mapl {c1 p1 c2 p2 c1' p1'} (RC0 : c1 -> c2 -> Prop) (RP0 : p1 -> p2 -> Prop) (RC : c1' -> c2 -> Prop) (RP : p1' -> p2 -> Prop) fc fp K1 K2 :
  (forall a b, RC0 a b -> RC (fc a) b) -> (forall a b, RP0 a b -> RP (fp a) b) -> const_refine RC0 RP0 K1 K2 -> const_refine RC RP (mapConst fc fp K1) K2.
Proof. intros HC HP [? ? ? ? ? ? ? ? ? ?]. constructor; cbn; auto; eapply f2_mapl; eauto. Qed.
