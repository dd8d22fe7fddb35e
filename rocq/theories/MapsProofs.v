(** Facts about association-list maps, IDSet and ciphertext containers. *)
From Coq Require Import ZArith List String Bool Permutation Lia.
From Verif Require Import Go GoProofs Lattigo NTT RingOps Maps Params Elements.
Import ListNotations.
Local Open Scope list_scope.

Section M.
Context {K : Type} (keq : K -> K -> bool) (Hk : forall a b, keq a b = true <-> a = b).
Lemma keq_refl a : keq a a = true. Proof. now apply Hk. Qed.
Lemma keq_neq a b : a <> b -> keq a b = false.
Proof. intros H. destruct (keq a b) eqn:E; auto. now apply Hk in E. Qed.
Lemma keq_dec (a b : K) : {a = b} + {a <> b}.
Proof. destruct (keq a b) eqn:E; [left; now apply Hk|right; intros ->; rewrite keq_refl in E; discriminate]. Qed.

Lemma mget_mset {A} (m : gmap K A) k v k' : mget keq (mset keq m k v) k' = if keq k' k then Some v else mget keq m k'.
Proof.
  induction m as [|[k0 v0] m IH]; cbn.
  - reflexivity.
  - destruct (keq k k0) eqn:E; cbn.
    + apply Hk in E as ->. destruct (keq k' k0) eqn:E'; auto.
    + rewrite IH. destruct (keq k' k0) eqn:E'; auto. apply Hk in E' as ->.
      destruct (keq k0 k) eqn:E2; auto. apply Hk in E2 as ->. rewrite keq_refl in E. discriminate.
Qed.
Lemma mget_mset_same {A} (m : gmap K A) k v : mget keq (mset keq m k v) k = Some v.
Proof. now rewrite mget_mset, keq_refl. Qed.
Lemma mget_mset_other {A} (m : gmap K A) k v k' : k' <> k -> mget keq (mset keq m k v) k' = mget keq m k'.
Proof. intros H. now rewrite mget_mset, keq_neq. Qed.
Lemma mget_mdel {A} (m : gmap K A) k k' : mget keq (mdel keq m k) k' = if keq k' k then None else mget keq m k'.
Proof.
  unfold mdel. induction m as [|[k0 v0] m IH]; cbn; [now destruct (keq k' k)|].
  destruct (keq k k0) eqn:E; cbn.
  - rewrite IH. apply Hk in E as ->. destruct (keq k' k0) eqn:E'; auto.
  - rewrite IH. destruct (keq k' k0) eqn:E'; auto. apply Hk in E' as ->.
    destruct (keq k0 k) eqn:E2; auto. apply Hk in E2 as ->. rewrite keq_refl in E. discriminate.
Qed.
Lemma mget_In {A} (m : gmap K A) k : In k (mkeys m) <-> mget keq m k <> None.
Proof.
  induction m as [|[k0 v0] m IH]; cbn; [tauto|]. destruct (keq k k0) eqn:E.
  - apply Hk in E as ->. split; [congruence|auto].
  - rewrite <- IH. split; [intros [->|]; [rewrite keq_refl in E; discriminate|auto]|auto].
Qed.
Lemma mget_key {A} (m : gmap K A) k v : mget keq m k = Some v -> In k (mkeys m).
Proof. intros H. apply mget_In. congruence. Qed.
Lemma mget_ex {A} (m : gmap K A) k : In k (mkeys m) -> exists v, mget keq m k = Some v.
Proof. intros H. apply mget_In in H. destruct (mget keq m k); [eauto|congruence]. Qed.
Lemma mget_pair {A} (m : gmap K A) k v : mget keq m k = Some v -> In (k, v) m.
Proof.
  induction m as [|[k0 v0] m IH]; cbn; [discriminate|]. destruct (keq k k0) eqn:E; auto.
  intros H. injection H as <-. apply Hk in E as ->. auto.
Qed.
Lemma mkeys_mset {A} (m : gmap K A) k v k' : In k' (mkeys (mset keq m k v)) <-> k' = k \/ In k' (mkeys m).
Proof.
  rewrite !mget_In, mget_mset. destruct (keq k' k) eqn:E.
  - apply Hk in E as ->. split; [auto|congruence].
  - split; [auto|]. intros [->|]; auto. rewrite keq_refl in E. discriminate.
Qed.
Lemma mkeys_mset_in {A} (m : gmap K A) k v : In k (mkeys m) -> mkeys (mset keq m k v) = mkeys m.
Proof.
  induction m as [|[k0 v0] m IH]; cbn; [tauto|]. intros H. destruct (keq k k0) eqn:E; cbn; auto.
  f_equal. apply IH. destruct H as [->|]; auto. rewrite keq_refl in E. discriminate.
Qed.
Lemma mkeys_mset_new {A} (m : gmap K A) k v : ~ In k (mkeys m) -> mkeys (mset keq m k v) = mkeys m ++ [k].
Proof.
  induction m as [|[k0 v0] m IH]; cbn; auto. intros H. destruct (keq k k0) eqn:E; cbn.
  - apply Hk in E as ->. tauto.
  - f_equal. apply IH. tauto.
Qed.
Lemma mset_nodup {A} (m : gmap K A) k v : NoDup (mkeys m) -> NoDup (mkeys (mset keq m k v)).
Proof.
  intros H. destruct (in_dec keq_dec k (mkeys m)).
  - now rewrite mkeys_mset_in.
  - rewrite mkeys_mset_new by auto. apply Permutation_NoDup with (k :: mkeys m); [|now constructor].
    apply Permutation_cons_append.
Qed.
Lemma mdel_nodup {A} (m : gmap K A) k : NoDup (mkeys m) -> NoDup (mkeys (mdel keq m k)).
Proof.
  induction m as [|[k0 v0] m IH]; cbn; auto. intros H. inversion_clear H. destruct (keq k k0); cbn; auto.
  constructor; auto. intros Hin. apply H0. clear - Hin. unfold mkeys, mdel in *. apply in_map_iff in Hin as ([a b] & <- & Hf).
  apply filter_In in Hf as [Hf _]. cbn. apply in_map_iff. now exists (a, b).
Qed.
Lemma mhas_In {A} (m : gmap K A) k : mhas keq m k = true <-> In k (mkeys m).
Proof. rewrite mget_In. unfold mhas. destruct (mget keq m k); split; congruence. Qed.
Lemma mhas_mset {A} (m : gmap K A) k v k' : mhas keq (mset keq m k v) k' = keq k' k || mhas keq m k'.
Proof. unfold mhas. rewrite mget_mset. destruct (keq k' k); auto. Qed.
Lemma mhas_mdel {A} (m : gmap K A) k k' : mhas keq (mdel keq m k) k' = negb (keq k' k) && mhas keq m k'.
Proof. unfold mhas. rewrite mget_mdel. destruct (keq k' k); auto. Qed.
Lemma mptr_Some {A} (m : gmap K A) k v : mget keq m k = Some v -> mptr keq m k = Ok v.
Proof. unfold mptr. now intros ->. Qed.
End M.

Lemma seqb a b : String.eqb a b = true <-> a = b. Proof. apply String.eqb_eq. Qed.
Lemma zeqb a b : Z.eqb a b = true <-> a = b. Proof. apply Z.eqb_eq. Qed.

(** loop over a list *)
Lemma foldM_inv {A S} (f : S -> A -> res S) (I : list A -> S -> Prop) l s :
  (forall don a rest st, l = don ++ a :: rest -> I don st -> exists st', f st a = Ok st' /\ I (don ++ [a]) st') ->
  I [] s -> exists st, foldM f l s = Ok st /\ I l st.
Proof.
  assert (G : forall l2 l1 s, l = l1 ++ l2 -> 
    (forall don a rest st, l = don ++ a :: rest -> I don st -> exists st', f st a = Ok st' /\ I (don ++ [a]) st') ->
    I l1 s -> exists st, foldM f l2 s = Ok st /\ I l st).
  { induction l2 as [|a l2 IH]; intros l1 s0 E Hs H0.
    - rewrite app_nil_r in E. subst. exists s0. auto.
    - destruct (Hs l1 a l2 s0 E H0) as (st' & E' & H'). cbn [foldM]. rewrite E'. cbn [bind].
      apply (IH (l1 ++ [a])); auto. now rewrite <- app_assoc. }
  intros Hs H0. now apply (G l [] s).
Qed.
Lemma foldM_ok_inv {A S} (f : S -> A -> res S) (I : S -> Prop) l s st :
  (forall a x y, In a l -> f x a = Ok y -> I x -> I y) -> I s -> foldM f l s = Ok st -> I st.
Proof.
  revert s. induction l as [|a l IH]; cbn; intros s Hs H0 E; [injection E as <-; auto|].
  destruct (f s a) as [y|] eqn:Ef; [|discriminate]. cbn in E. eapply IH; [|eapply Hs; eauto|exact E]. intros; eapply Hs; eauto.
Qed.

(** * IDSet *)
(** what an IDSet value is: no key twice, never the reserved id *)
Definition idset_ok (s : idset) : Prop := NoDup (mkeys s) /\ ~ In "0"%string (mkeys s).
Lemma idHas_In s v : idHas s v = true <-> In v (mkeys s).
Proof. apply (mhas_In _ seqb). Qed.
Lemma idAdd_ok s v : idset_ok s -> v <> "0"%string ->
  exists s', idAdd s v = Ok s' /\ idset_ok s' /\ forall x, idHas s' x = String.eqb x v || idHas s x.
Proof.
  intros [H1 H2] Hv. unfold idAdd. destruct (String.eqb_spec v "0"); [contradiction|].
  eexists. split; [reflexivity|]. split; [split|].
  - now apply (mset_nodup _ seqb).
  - rewrite (mkeys_mset _ seqb). intros [H|H]; congruence.
  - intros x. apply (mhas_mset _ seqb).
Qed.
Lemma idAdd_zero s : idAdd s "0"%string = Panic (PMsg "Cannot IDSet Add : 0 cannot be used").
Proof. reflexivity. Qed.
Lemma idAdd_all l : forall s, idset_ok s -> ~ In "0"%string l ->
  exists s', foldM (fun r v => idAdd r v) l s = Ok s' /\ idset_ok s' /\ forall x, In x (mkeys s') <-> In x l \/ In x (mkeys s).
Proof.
  induction l as [|a l IH]; intros s Hs H0; cbn [foldM].
  - exists s. split; [reflexivity|]. split; [auto|]. cbn. tauto.
  - destruct (idAdd_ok s a Hs) as (s' & -> & Hs' & HH); [intros ->; apply H0; now left|]. cbn [bind].
    destruct (IH s' Hs') as (s2 & -> & Hs2 & HH2); [intros H; apply H0; now right|].
    exists s2. split; [auto|]. split; [auto|]. intros x. rewrite HH2, <- !idHas_In, HH, orb_true_iff, String.eqb_eq. cbn. intuition congruence.
Qed.
Lemma idRemove_ok s v : idset_ok s -> idset_ok (idRemove s v) /\ forall x, idHas (idRemove s v) x = negb (String.eqb x v) && idHas s x.
Proof.
  intros [H1 H2]. split; [split|].
  - now apply mdel_nodup.
  - rewrite <- idHas_In. unfold idHas, idRemove. rewrite (mhas_mdel _ seqb). rewrite andb_true_iff. intros [_ H]. apply H2. now apply idHas_In.
  - intros x. apply (mhas_mdel _ seqb).
Qed.
Lemma order_in o n l x : order_ok o -> In x (o n l) <-> In x l.
Proof. intros H. specialize (H n l). split; apply Permutation_in; [|symmetry]; auto. Qed.
Lemma order_nodup o n l : order_ok o -> NoDup l -> NoDup (o n l).
Proof. intros H. specialize (H n l). symmetry in H. now apply Permutation_NoDup. Qed.

Lemma idCopyNew_ok o s : order_ok o -> idset_ok s ->
  exists s', idCopyNew o s = Ok s' /\ idset_ok s' /\ forall x, idHas s' x = idHas s x.
Proof.
  intros Ho [H1 H2]. unfold idCopyNew. destruct (idAdd_all (o 0%nat (mkeys s)) NewIDSet) as (s' & -> & Hs & HH).
  - split; [constructor|intros []].
  - now rewrite order_in.
  - exists s'. split; [auto|]. split; [auto|]. intros x. apply eq_true_iff_eq. rewrite !idHas_In, HH, order_in by auto. cbn. tauto.
Qed.
Lemma idUnion_ok o s t : order_ok o -> idset_ok s -> idset_ok t ->
  exists u, idUnion o s t = Ok u /\ idset_ok u /\ forall x, idHas u x = idHas s x || idHas t x.
Proof.
  intros Ho [H1 H2] [H3 H4]. unfold idUnion. destruct (idAdd_all (o 0%nat (mkeys s)) NewIDSet) as (s' & -> & Hs & HH).
  - split; [constructor|intros []].
  - now rewrite order_in.
  - cbn [bind]. destruct (idAdd_all (o 1%nat (mkeys t)) s' Hs) as (u & -> & Hu & HH2); [now rewrite order_in|].
    exists u. split; [auto|]. split; [auto|]. intros x. apply eq_true_iff_eq. rewrite orb_true_iff, !idHas_In, HH2, HH, !order_in by auto. cbn. tauto.
Qed.
Lemma idIntersection_ok o s t : order_ok o -> idset_ok s -> idset_ok t ->
  exists u, idIntersection o s t = Ok u /\ idset_ok u /\ forall x, idHas u x = idHas s x && idHas t x.
Proof.
  intros Ho [H1 H2] [H3 H4]. unfold idIntersection.
  assert (G : forall l r, idset_ok r -> ~ In "0"%string l -> exists u, foldM (fun r v => if idHas s v then idAdd r v else Ok r) l r = Ok u /\
     idset_ok u /\ forall x, In x (mkeys u) <-> (In x l /\ idHas s x = true) \/ In x (mkeys r)).
  { induction l as [|a l IH]; intros r Hr H0; cbn [foldM].
    - exists r. split; [auto|]. split; [auto|]. cbn. tauto.
    - destruct (idHas s a) eqn:Ea.
      + destruct (idAdd_ok r a Hr) as (r' & -> & Hr' & HH); [intros ->; apply H0; now left|]. cbn [bind].
        destruct (IH r' Hr') as (u & -> & Hu & HH2); [intros H; apply H0; now right|].
        exists u. split; [auto|]. split; [auto|]. intros x. rewrite HH2, <- !idHas_In, HH, orb_true_iff, String.eqb_eq. cbn. intuition congruence.
      + cbn [bind]. destruct (IH r Hr) as (u & -> & Hu & HH2); [intros H; apply H0; now right|].
        exists u. split; [auto|]. split; [auto|]. intros x. rewrite HH2. cbn. intuition congruence. }
  destruct (G (o 0%nat (mkeys t)) NewIDSet) as (u & -> & Hu & HH).
  - split; [constructor|intros []].
  - now rewrite order_in.
  - exists u. split; [auto|]. split; [auto|]. intros x. apply eq_true_iff_eq. rewrite andb_true_iff. rewrite idHas_In, HH, order_in, (idHas_In t) by auto. cbn. tauto.
Qed.
Lemma idSize_ok s t : idset_ok s -> idset_ok t -> (forall x, idHas s x = idHas t x) -> idSize s = idSize t.
Proof.
  intros [H1 _] [H2 _] H. unfold idSize. rewrite <- (map_length fst s), <- (map_length fst t). apply Permutation_length.
  apply NoDup_Permutation; auto. intros x. fold (mkeys s). fold (mkeys t). rewrite <- !idHas_In. now rewrite H.
Qed.

(** * Ciphertexts *)
Definition ct_ids (ct : ciphertext) : list string := filter (fun id => negb (String.eqb id "0")) (mkeys ct).
Lemma ctIDSet_ok o ct : order_ok o -> exists s, ctIDSet o ct = Ok s /\ idset_ok s /\ forall x, In x (mkeys s) <-> In x (mkeys ct) /\ x <> "0"%string.
Proof.
  intros Ho. unfold ctIDSet.
  assert (G : forall l r, idset_ok r -> exists u, foldM (fun s id => if String.eqb id "0" then Ok s else idAdd s id) l r = Ok u /\
     idset_ok u /\ forall x, In x (mkeys u) <-> (In x l /\ x <> "0"%string) \/ In x (mkeys r)).
  { induction l as [|a l IH]; intros r Hr; cbn [foldM].
    - exists r. split; [auto|]. split; [auto|]. cbn. tauto.
    - destruct (String.eqb_spec a "0") as [->|Hne].
      + cbn [bind]. destruct (IH r Hr) as (u & -> & Hu & HH2).
        exists u. split; [auto|]. split; [auto|]. intros x. rewrite HH2. cbn. intuition congruence.
      + destruct (idAdd_ok r a Hr Hne) as (r' & -> & Hr' & HH). cbn [bind].
        destruct (IH r' Hr') as (u & -> & Hu & HH2).
        exists u. split; [auto|]. split; [auto|]. intros x. rewrite HH2, <- !idHas_In, HH, orb_true_iff, String.eqb_eq. cbn. intuition congruence. }
  destruct (G (o 0%nat (mkeys ct)) NewIDSet) as (u & -> & Hu & HH).
  - split; [constructor|intros []].
  - exists u. split; [auto|]. split; [auto|]. intros x. rewrite HH, order_in by auto. cbn. tauto.
Qed.
