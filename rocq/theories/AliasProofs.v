(** Calls whose receiver is one of their operands: which of them give what a separate receiver gives. *)
From Coq Require Import String ZArith List Lia Bool Permutation.
From Verif Require Import Go GoProofs Lattigo F64 BasisExt NTT RingOps Maps MapsProofs Params Elements KeySwitch KeySets KeyGen EncDec Utils Evaluator Alias KSMulProofs KSSem ConcProofs.
Import ListNotations.
Local Open Scope Z_scope.

(** two loops that do the same in every state they reach *)
Lemma foldM_eq {A S} (f g : S -> A -> res S) (I : list A -> S -> Prop) :
  (forall a rest s, I (a :: rest) s -> f s a = g s a /\ forall s', f s a = Ok s' -> I rest s') ->
  forall l s, I l s -> foldM f l s = foldM g l s.
Proof.
  intros H. induction l as [|a l IH]; intros s Hs; [reflexivity|]. cbn [foldM]. destruct (H a l s Hs) as [E G]. rewrite <- E.
  destruct (f s a) as [s'|]; [|reflexivity]. cbn [bind]. apply IH, G, eq_refl.
Qed.
Lemma foldM_ok_last {A S} (f : S -> A -> res S) (I : list A -> S -> Prop) :
  (forall a rest s s', I (a :: rest) s -> f s a = Ok s' -> I rest s') -> forall l s s', I l s -> foldM f l s = Ok s' -> I [] s'.
Proof.
  intros H. induction l as [|a l IH]; intros s s' Hs E; cbn [foldM] in E; [now injection E as <-|].
  apply bind_inv in E as (s1 & E1 & E). eapply IH; [|exact E]. eapply H; eauto.
Qed.
Lemma ctUpd_inv ct id f ct' : ctUpd ct id f = Ok ct' -> exists p p', sget ct id = Some p /\ f p = Ok p' /\ ct' = sset ct id p'.
Proof.
  unfold ctUpd, mptr. destruct (sget ct id) as [p|] eqn:E; [|discriminate]. cbn [bind]. intros H. apply bind_inv in H as (p' & E' & H). injection H as <-. eauto.
Qed.
Lemma sptr_inv {A} (m : smap A) id p : sptr m id = Ok p -> sget m id = Some p.
Proof. unfold mptr. destruct (sget m id); [|discriminate]. now intros [= ->]. Qed.
Lemma sptr_ext {A} (m m' : smap A) id : sget m id = sget m' id -> sptr m id = sptr m' id.
Proof. unfold mptr. now intros ->. Qed.
Lemma ids_facts o ct ids : order_ok o -> ctIDSet o ct = Ok ids -> NoDup (mkeys ct) ->
  forall n, NoDup (o n (mkeys ids)) /\ ~ In "0"%string (o n (mkeys ids)).
Proof.
  intros Ho E Hn n. destruct (ctIDSet_perm o ct _ Ho (ids_of_ct_ok ct Hn)) as (s & E' & [H1 H2] & _). rewrite E in E'. injection E' as <-.
  split; [now apply order_nodup|]. now rewrite order_in.
Qed.

Section R.
Context (ce : ckenv).
Notation pp := (e_pp (ce_env ce)).
(** Rescale *)
Lemma rescale_other o ctIn ms ctOut st : RescaleAt ce o (Some ctIn) ms ctOut st = Rescale ce o ctIn ms ctOut st.
Proof. reflexivity. Qed.
Lemma rescale_self o ms ct st : order_ok o -> NoDup (mkeys (c_ct ct)) -> RescaleAt ce o None ms ct st = Rescale ce o ct ms ct st.
Proof.
  intros Ho Hn. unfold RescaleAt, Rescale. cbn [rd option_map]. destruct (fleb ms f0); [reflexivity|]. destruct (feqb (c_scale ct) f0); [reflexivity|].
  destruct (ctLevel (c_ct ct)) as [level|]; [|reflexivity]. cbn [bind]. destruct (Nat.eqb level 0); [reflexivity|].
  destruct (rescaleLoop ce level (c_scale ct) _) as [[scale nb]|]; [|reflexivity]. cbn [bind]. destruct (Nat.eqb nb 0); [reflexivity|].
  f_equal. apply (foldM_eq _ _ (fun rest '(out, _) => NoDup rest /\ forall i, In i rest -> sget out i = sget (c_ct ct) i)).
  - intros i rest [out q] [H1 H2]. apply NoDup_cons_iff in H1 as [Hi H1]. rewrite (sptr_ext out (c_ct ct) i) by (apply H2; now left). split; [reflexivity|].
    intros [out' q'] E. apply bind_inv in E as (a & _ & E). apply bind_inv in E as (p & _ & E). apply bind_inv in E as ([q1 p1] & _ & E). apply bind_inv in E as (p2 & _ & E).
    injection E as <- _. split; [auto|]. intros x Hx. rewrite (mget_mset_other _ seqb) by (intros ->; auto). apply H2. now right.
  - split; [now apply order_nodup|auto].
Qed.
End R.

Section K.
Context (env : kenv).
Notation pp := (e_pp env).
Notation rQ := (ringQ pp).
Lemma extOp_ext level h op op' id bg c k : sget op id = sget op' id -> extOp env level h op id bg c k = extOp env level h op' id bg c k.
Proof. intros H. unfold extOp. destruct h; [reflexivity|]. now rewrite (sptr_ext op op' id H). Qed.

(** Rotate *)
Lemma rotate_other o ctIn r h rks ctOut k : RotateAt env o (Some ctIn) r h rks ctOut k = RotateGen env o ctIn r h rks ctOut k.
Proof. reflexivity. Qed.
Lemma rotate_self o ct r h rks k : order_ok o -> NoDup (mkeys ct) -> RotateAt env o None r h rks ct k = RotateGen env o ct r h rks ct k.
Proof.
  intros Ho Hn. unfold RotateAt, RotateGen. cbn [rd].
  destruct (ctLevel ct) as [level|]; [|reflexivity]. cbn [bind]. destruct (ctIDSet o ct) as [ids|] eqn:Ei; [|reflexivity]. cbn [bind].
  destruct (level <? level)%nat; [reflexivity|]. destruct (sptr ct "0"%string) as [c0|] eqn:E0; [|reflexivity]. cbn [bind].
  destruct (ctUpd ct "0"%string _) as [ct1|] eqn:E1; [|reflexivity]. cbn [bind].
  apply ctUpd_inv in E1 as (p & p' & Ep & _ & ->). destruct (ids_facts o ct ids Ho Ei Hn 1%nat) as [N1 N0].
  set (rot := normNeg (pa_logN pp) r). set (a := zget (pa_CRS pp) rot).
  set (I := fun rest (s : ciphertext * kpool) => NoDup rest /\ ~ In "0"%string rest /\ mkeys (fst s) = mkeys ct /\ forall i, In i rest -> sget (fst s) i = sget ct i).
  assert (HI0 : I (o 1%nat (mkeys ids)) (sset ct "0"%string p', k)).
  { split; [auto|]. split; [auto|]. cbn [fst]. split; [apply (mkeys_mset_in _ seqb); eapply (mget_key _ seqb); eauto|]. intros i Hi. apply (mget_mset_other _ seqb). intros ->. auto. }
  match goal with |- bind (foldM ?f ?l ?s) ?K1 = bind (foldM ?g ?l ?s) ?K2 => assert (HS : forall x rest st, I (x :: rest) st -> f st x = g st x /\ forall st', f st x = Ok st' -> I rest st');
    [|rewrite <- (foldM_eq f g I HS l s HI0); destruct (foldM f l s) as [[ct2 k2]|] eqn:EF; [|reflexivity];
      pose proof (foldM_ok_last f I (fun x rest st st' H1 H2 => proj2 (HS x rest st H1) st' H2) l s (ct2, k2) HI0 EF) as (_ & _ & HK & _); cbn [fst] in HK; cbn [bind]; now rewrite HK] end.
  intros x rest [c kx] (H1 & H2 & H3 & H4). cbn [fst] in *. apply NoDup_cons_iff in H1 as [Hx H1]. assert (Hx0 : x <> "0"%string) by (intros ->; apply H2; now left).
  assert (G : forall c', mkeys c' = mkeys c -> (forall i, i <> "0"%string -> i <> x -> sget c' i = sget c i) -> I rest (c', kx)).
  { intros c' X1 X2. split; [auto|]. split; [intros Hz; apply H2; now right|]. cbn [fst]. split; [congruence|]. intros i Hi. rewrite X2; [apply H4; now right| |]; intros ->; [apply H2; now right|auto]. }
  destruct (GetRotationKey rks x rot) as [rk|]; [|split; [reflexivity|discriminate]]. cbn [bind].
  rewrite (extOp_ext level h c ct x) by (apply H4; now left). destruct (extOp env level h ct x (rk_val rk) (k_q0 kx) kx) as [[q0 k1]|]; [|split; [reflexivity|discriminate]]. cbn [bind].
  destruct (ctUpd c "0"%string _) as [c1|] eqn:Ec1; [|split; [reflexivity|discriminate]]. cbn [bind]. destruct a as [av|]; [|split; [reflexivity|discriminate]]. cbn [bind].
  apply ctUpd_inv in Ec1 as (z & z' & Ez & _ & ->). destruct (sptr (sset c "0"%string z') x) as [px|] eqn:Epx; [|split; [reflexivity|discriminate]]. cbn [bind].
  rewrite (extOp_ext level h (sset c "0"%string z') ct x) by (rewrite (mget_mset_other _ seqb) by auto; apply H4; now left).
  split; [reflexivity|]. intros [c' k'] E. apply bind_inv in E as ([p2 k3] & _ & E). injection E as <- <-.
  apply sptr_inv in Epx. destruct (G (sset (sset c "0"%string z') x p2)) as (G1 & G2 & G3 & G4); [| |split; [auto|split; [auto|split; [exact G3|exact G4]]]].
  - rewrite (mkeys_mset_in _ seqb) by (eapply (mget_key _ seqb); eauto). apply (mkeys_mset_in _ seqb). eapply (mget_key _ seqb); eauto.
  - intros i X1 X2. now rewrite !(mget_mset_other _ seqb) by auto.
Qed.

(** MulAndRelinHoisted: the first operand, when both hoisted forms are given *)
Lemma mul_other o op0 op1 h0 h1 rlks ctOut k : MulAndRelinAt env o (Some op0) (Some op1) h0 h1 rlks ctOut k = MulAndRelinHoisted env o op0 op1 h0 h1 rlks ctOut k.
Proof. reflexivity. Qed.
Lemma tensor_self o level ids0 ids1 op1 ct k : order_ok o -> NoDup (mkeys ids0) -> ~ In "0"%string (mkeys ids0) ->
  tensorAt env o level ids0 ids1 None (Some op1) ct k = tensor env o level ids0 ids1 ct op1 ct k.
Proof.
  intros Ho Hn H0. unfold tensorAt, tensor. cbn [rd].
  destruct (sptr ct "0"%string) as [a0|]; [|reflexivity]. cbn [bind]. destruct (NTTLvl rQ level a0 (k_q0 k)) as [q0|]; [|reflexivity]. cbn [bind].
  destruct (sptr op1 "0"%string) as [b0|]; [|reflexivity]. cbn [bind]. destruct (NTTLvl rQ level b0 (k_q1 k)) as [q1|]; [|reflexivity]. cbn [bind].
  destruct (MFormLvl rQ level q0 q0) as [q0'|]; [|reflexivity]. cbn [bind]. destruct (ctUpd ct "0"%string _) as [ct1|] eqn:E1; [|reflexivity]. cbn [bind].
  destruct (MFormLvl rQ level q1 q1) as [q1'|]; [|reflexivity]. cbn [bind]. f_equal.
  apply ctUpd_inv in E1 as (p & p' & Ep & _ & ->).
  apply (foldM_eq _ _ (fun rest (s : ciphertext * poly) => NoDup rest /\ ~ In "0"%string rest /\ forall i, In i rest -> sget (fst s) i = sget ct i)).
  - intros x rest [c q] (H1 & H2 & H3). cbn [fst] in *. apply NoDup_cons_iff in H1 as [Hx H1]. rewrite (sptr_ext c ct x) by (apply H3; now left). split; [reflexivity|].
    intros [c' q'] E. apply bind_inv in E as (a & _ & E). apply bind_inv in E as (qa & _ & E). apply bind_inv in E as (c2 & E2 & E). injection E as <- <-.
    apply ctUpd_inv in E2 as (y & y' & _ & _ & ->). split; [auto|]. split; [intros Hz; apply H2; now right|]. cbn [fst]. intros i Hi. rewrite (mget_mset_other _ seqb) by (intros ->; auto). apply H3. now right.
  - split; [now apply order_nodup|]. split; [now rewrite order_in|]. cbn [fst]. intros i Hi. apply (mget_mset_other _ seqb). intros ->. apply H0. rewrite order_in in Hi; auto.
Qed.
Lemma mul_self o ct op1 h0 h1 rlks k : order_ok o -> NoDup (mkeys ct) ->
  MulAndRelinAt env o None (Some op1) (Some h0) h1 rlks ct k = MulAndRelinHoisted env o ct op1 (Some h0) h1 rlks ct k.
Proof.
  intros Ho Hn. unfold MulAndRelinAt, MulAndRelinHoisted. cbn [rd].
  destruct (ctLevel ct) as [level|]; [|reflexivity]. cbn [bind]. destruct (level <? level)%nat; [reflexivity|].
  destruct (ctIDSet o ct) as [ids0|] eqn:Ei; [|reflexivity]. cbn [bind]. destruct (ctIDSet o op1) as [ids1|]; [|reflexivity]. cbn [bind].
  destruct (zeroRows _ (k_s1 k)) as [x|]; [|reflexivity]. cbn [bind]. destruct (zeroRows _ (k_s2 k)) as [y|]; [|reflexivity]. cbn [bind].
  destruct (genVec env (o 0%nat (mkeys ids0)) level _ ct rlks rl_d x k) as [[x1 k1]|]; [|reflexivity]. cbn [bind].
  destruct (genVec env (o 1%nat (mkeys ids1)) level h1 op1 rlks rl_b y k1) as [[y1 k2]|]; [|reflexivity]. cbn [bind].
  destruct (ctIDSet_perm o ct _ Ho (ids_of_ct_ok ct Hn)) as (s & E' & [H1 H2] & _). rewrite Ei in E'. injection E' as <-.
  rewrite tensor_self by auto. reflexivity.
Qed.
End K.
