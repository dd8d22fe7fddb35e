(** C01: programs over IDSet variables, their run on the model and their meaning as finite sets. *)
From Coq Require Import String ZArith List Bool Lia Permutation.
From Verif Require Import Spec Go GoProofs Maps MapsProofs.
Import ListNotations.

(** run on the model; [os n] is the map iteration order during the n-th call *)
Definition idstep (os : nat -> order) (st : (nat -> idset) * nat) (p : idop) : res ((nat -> idset) * nat) :=
  let '(s, n) := st in
  match p with
  | INew r => Ok (setvar s r NewIDSet, S n)
  | IAdd r v => let* x := idAdd (s r) v in Ok (setvar s r x, S n)
  | IRemove r v => Ok (setvar s r (idRemove (s r) v), S n)
  | IUnion r a b => let* x := idUnion (os n) (s a) (s b) in Ok (setvar s r x, S n)
  | IInter r a b => let* x := idIntersection (os n) (s a) (s b) in Ok (setvar s r x, S n)
  | ICopy r a => let* x := idCopyNew (os n) (s a) in Ok (setvar s r x, S n)
  end.
Definition idrun (os : nat -> order) (l : list idop) : res ((nat -> idset) * nat) :=
  foldM (idstep os) l (fun _ => NewIDSet, 0).

Definition sim (s : nat -> idset) (A : nat -> string -> Prop) : Prop :=
  forall r, idset_ok (s r) /\ forall x, idHas (s r) x = true <-> A r x.
Lemma sim_upd s A r v B : sim s A -> idset_ok v -> (forall x, idHas v x = true <-> B x) -> sim (setvar s r v) (setvar A r B).
Proof. intros H H1 H2 i. unfold setvar. destruct (Nat.eqb i r); auto. Qed.
Lemma idset_new : idset_ok NewIDSet.
Proof. split; cbn; [constructor|easy]. Qed.
Lemma step_ok os s n A p : (forall k, order_ok (os k)) -> sim s A -> ~ adds_zero p ->
  exists s', idstep os (s, n) p = Ok (s', S n) /\ sim s' (setstep A p).
Proof.
  intros Ho H Hz. destruct p as [r|r v|r v|r a b|r a b|r a]; cbn [idstep setstep].
  - eexists. split; [reflexivity|]. apply sim_upd; auto. apply idset_new. intros x. cbn. easy.
  - destruct (idAdd_ok (s r) v (proj1 (H r))) as (x & -> & Hx & HH); [intros ->; apply Hz; now exists r|]. cbn [bind].
    eexists. split; [reflexivity|]. apply sim_upd; auto. intros y. rewrite HH, orb_true_iff, String.eqb_eq, (proj2 (H r)). tauto.
  - destruct (idRemove_ok (s r) v (proj1 (H r))) as [Hx HH].
    eexists. split; [reflexivity|]. apply sim_upd; auto. intros y. rewrite HH, andb_true_iff, negb_true_iff, String.eqb_neq, (proj2 (H r)). tauto.
  - destruct (idUnion_ok (os n) (s a) (s b) (Ho n) (proj1 (H a)) (proj1 (H b))) as (x & -> & Hx & HH). cbn [bind].
    eexists. split; [reflexivity|]. apply sim_upd; auto. intros y. rewrite HH, orb_true_iff, (proj2 (H a)), (proj2 (H b)). tauto.
  - destruct (idIntersection_ok (os n) (s a) (s b) (Ho n) (proj1 (H a)) (proj1 (H b))) as (x & -> & Hx & HH). cbn [bind].
    eexists. split; [reflexivity|]. apply sim_upd; auto. intros y. rewrite HH, andb_true_iff, (proj2 (H a)), (proj2 (H b)). tauto.
  - destruct (idCopyNew_ok (os n) (s a) (Ho n) (proj1 (H a))) as (x & -> & Hx & HH). cbn [bind].
    eexists. split; [reflexivity|]. apply sim_upd; auto. intros y. rewrite HH. apply H.
Qed.
Lemma run_ok os l : (forall k, order_ok (os k)) -> forall s n A, sim s A -> (forall p, In p l -> ~ adds_zero p) ->
  exists s', foldM (idstep os) l (s, n) = Ok (s', n + length l) /\ sim s' (fold_left setstep l A).
Proof.
  intros Ho. induction l as [|p l IH]; intros s n A H Hz; cbn [foldM fold_left length].
  - exists s. rewrite Nat.add_0_r. auto.
  - destruct (step_ok os s n A p Ho H) as (s1 & -> & H1); [apply Hz; left; auto|]. cbn [bind].
    destruct (IH s1 (S n) _ H1) as (s2 & E & H2); [intros; apply Hz; right; auto|]. exists s2. split; [|auto].
    rewrite E. do 2 f_equal. lia.
Qed.
Lemma run_panic os l : (forall k, order_ok (os k)) -> forall s n A, sim s A -> (exists p, In p l /\ adds_zero p) ->
  foldM (idstep os) l (s, n) = Panic (PMsg "Cannot IDSet Add : 0 cannot be used").
Proof.
  intros Ho. induction l as [|p l IH]; intros s n A H (x & Hin & Hx); [destruct Hin|]. cbn [foldM].
  destruct (match p with IAdd _ v => String.eqb v "0" | _ => false end) eqn:E.
  - destruct p; try discriminate. apply String.eqb_eq in E. subst. reflexivity.
  - destruct (step_ok os s n A p Ho H) as (s1 & -> & H1). { intros (r & ->). cbn in E. discriminate. }
    cbn [bind]. eapply IH; eauto. destruct Hin as [->|Hin]; [|eauto]. destruct Hx as (r & ->). cbn in E. discriminate.
Qed.
Lemma C01_lemma os l : (forall k, order_ok (os k)) ->
  ((exists p, In p l /\ adds_zero p) /\ idrun os l = Panic (PMsg "Cannot IDSet Add : 0 cannot be used")) \/
  ((forall p, In p l -> ~ adds_zero p) /\ exists s n, idrun os l = Ok (s, n) /\
     forall r, (forall x, idHas (s r) x = true <-> setrun l r x) /\ ~ setrun l r "0"%string /\
       exists L, enumerates L (setrun l r) /\ idSize (s r) = List.length L).
Proof.
  intros Ho. assert (H0 : sim (fun _ => NewIDSet) (fun _ _ => False)) by (intros r; split; [apply idset_new|cbn; easy]).
  destruct (existsb (fun p => match p with IAdd _ v => String.eqb v "0" | _ => false end) l) eqn:E.
  - left. apply existsb_exists in E as (p & Hin & E). assert (adds_zero p).
    { destruct p; try discriminate. apply String.eqb_eq in E. subst. now exists r. }
    split; [eauto|]. eapply run_panic; eauto.
  - right. assert (Hz : forall p, In p l -> ~ adds_zero p).
    { intros p Hin (r & ->). assert (existsb (fun p => match p with IAdd _ v => String.eqb v "0" | _ => false end) l = true); [|congruence].
      apply existsb_exists. eexists. split; [exact Hin|reflexivity]. }
    split; [auto|]. destruct (run_ok os l Ho _ 0 _ H0 Hz) as (s & Es & Hs). exists s, (0 + length l)%nat. split; [exact Es|].
    intros r. destruct (Hs r) as [H1 H2]. split; [exact H2|]. split.
    + intros Hc. apply H2 in Hc. apply idHas_In in Hc. destruct H1 as [_ H1]. contradiction.
    + exists (mkeys (s r)). split; [|unfold idSize, mkeys; now rewrite map_length].
      split; [apply H1|]. intros x. rewrite <- idHas_In. apply H2.
Qed.
