(** Key sets are maps from ids to the last key added. *)
From Coq Require Import ZArith List String Bool Lia.
From Verif Require Import Go RingOps Maps MapsProofs Params Elements KeySwitch KeySets SpecKeys.
Import ListNotations.
Open Scope go_scope.

Section Generic.
Context {S I K : Type} (ident : K -> I) (add : S -> K -> S) (del : S -> I -> S) (look : S -> I -> option K) (e : S).
Context (dec : forall a b : I, {a = b} + {a <> b}).
Context (look_e : forall i, look e i = None).
Context (look_add : forall s k i, look (add s k) i = if dec (ident k) i then Some k else look s i).
Context (look_del : forall s j i, look (del s j) i = if dec j i then None else look s i).
Notation krun := (run_ops add del e).
Lemma krun_snoc ops o : krun (ops ++ [o]) = match o with KAdd k => add (krun ops) k | KDel i => del (krun ops) i end.
Proof. unfold run_ops. now rewrite fold_left_app. Qed.
Lemma last_added_snoc ops o i k : last_added ident (ops ++ [o]) i k <-> (o = KAdd k /\ ident k = i) \/ (opid ident o <> i /\ last_added ident ops i k).
Proof.
  split.
  - intros (pre & post & E & Hi & Hp). destruct post as [|x post _] using rev_ind.
    + apply app_inj_tail in E as [_ E]. left. auto.
    + replace (pre ++ KAdd k :: post ++ [x]) with ((pre ++ KAdd k :: post) ++ [x]) in E by (rewrite <- app_assoc; reflexivity).
      apply app_inj_tail in E as [E ->]. apply Forall_app in Hp as [Hp1 Hp2]. inversion_clear Hp2. right. split; [auto|]. exists pre, post. auto.
  - intros [[-> H]|[H (pre & post & -> & Hi & Hp)]].
    + exists ops, []. auto.
    + exists pre, (post ++ [o]). split; [now rewrite <- app_assoc|]. split; [auto|]. apply Forall_app. auto.
Qed.
Lemma look_iff ops i k : look (krun ops) i = Some k <-> last_added ident ops i k.
Proof.
  induction ops as [|o ops IH] using rev_ind.
  - cbn. rewrite look_e. split; [discriminate|]. intros (pre & post & E & _). destruct pre; discriminate.
  - rewrite krun_snoc, last_added_snoc, <- IH. destruct o as [k'|j]; cbn [opid].
    + rewrite look_add. destruct (dec (ident k') i) as [E|E].
      * split; [intros [= ->]; auto|]. intros [[[= ->] _]|[H _]]; [reflexivity|contradiction].
      * split; [auto|]. intros [[[= ->] H]|[_ H]]; [contradiction|auto].
    + rewrite look_del. destruct (dec j i) as [E|E].
      * split; [discriminate|]. intros [[H _]|[H _]]; [discriminate|contradiction].
      * split; [auto|]. intros [[H _]|[_ H]]; [discriminate|auto].
Qed.
(** Get is the lookup, panicking with [m] when there is nothing *)
Lemma get_iff (get : S -> I -> res K) (m : string) :
  (forall s i, get s i = match look s i with Some k => Ok k | None => Panic (PMsg m) end) -> keyset_correct ident add del get e m.
Proof.
  intros Hg ops i. rewrite Hg. split.
  - intros k. rewrite <- look_iff. destruct (look (krun ops) i); split; intros H; try discriminate; congruence.
  - split.
    + intros H k Hk. apply look_iff in Hk. rewrite Hk in H. discriminate.
    + intros H. destruct (look (krun ops) i) eqn:E; [|reflexivity]. apply look_iff in E. now apply H in E.
Qed.
End Generic.

Lemma get_set_dec {A} (m : smap A) k v i : sget (sset m k v) i = if string_dec k i then Some v else sget m i.
Proof. rewrite (mget_mset _ seqb). destruct (string_dec k i) as [->|H]; [now rewrite String.eqb_refl|]. now rewrite (proj2 (String.eqb_neq i k)) by congruence. Qed.
Lemma get_del_dec {A} (m : smap A) k i : sget (sdel m k) i = if string_dec k i then None else sget m i.
Proof. rewrite (mget_mdel _ seqb). destruct (string_dec k i) as [->|H]; [now rewrite String.eqb_refl|]. now rewrite (proj2 (String.eqb_neq i k)) by congruence. Qed.

Lemma skset_map : keyset_correct sk_ID AddSecretKey DelSecretKey GetSecretKey [] "cannot GetPublicKey: there is no public key with given id".
Proof. apply (get_iff _ _ _ (fun s i => sget s i) _ string_dec); auto. { intros s k i. apply get_set_dec. } intros s j i. apply get_del_dec. Qed.
Lemma pkset_map : keyset_correct pk_ID AddPublicKey DelPublicKey GetPublicKey [] "cannot GetPublicKey: there is no public key with given id".
Proof. apply (get_iff _ _ _ (fun s i => sget s i) _ string_dec); auto. { intros s k i. apply get_set_dec. } intros s j i. apply get_del_dec. Qed.
Lemma cjkset_map : keyset_correct cj_ID AddConjugationKey DelConjugationKey GetConjugationKey [] "cannot GetConjugationKey: there is no conjugation key with given id".
Proof.
  apply (get_iff _ _ _ (fun s i => sget s i) _ string_dec); auto. { intros s k i. apply get_set_dec. } { intros s j i. apply get_del_dec. }
Qed.
Lemma rlkset_map pp : keyset_correct rl_ID (AddRelinearizationKey pp) DelRelinearizationKey GetRelinearizationKey NewRelinearizationKeyKeySet
  "cannot GetRelinearizationKey: there is no relinearization key with given id".
Proof. apply (get_iff _ _ _ (fun s i => sget (rs_keys s) i) _ string_dec); auto. { intros s k i. apply get_set_dec. } intros s j i. apply get_del_dec. Qed.
Lemma pair_dec (a b : string * Z) : {a = b} + {a <> b}. Proof. decide equality; [apply Z.eq_dec|apply string_dec]. Qed.
Lemma rotset_map : keyset_correct (fun rk => (rk_ID rk, rk_idx rk)) AddRotationKey (fun s i => DelRotationKey s (fst i) (snd i))
  (fun s i => GetRotationKey s (fst i) (snd i)) [] "cannot GetRotationKeys: there is no rotation key with given id".
Proof.
  apply (get_iff _ _ _ (fun s i => match sget s (fst i) with Some m => zget m (snd i) | None => None end) _ pair_dec); auto.
  - intros s k [i x]. unfold AddRotationKey. cbn [fst snd]. rewrite get_set_dec. destruct (pair_dec (rk_ID k, rk_idx k) (i, x)) as [[= E1 E2]|H].
    + subst. destruct (string_dec (rk_ID k) (rk_ID k)); [|congruence]. rewrite (mget_mset _ zeqb). now rewrite Z.eqb_refl.
    + destruct (string_dec (rk_ID k) i) as [E|]; [|reflexivity]. rewrite (mget_mset _ zeqb). destruct (Z.eqb_spec x (rk_idx k)) as [E2|]; [exfalso; apply H; now rewrite E, E2|].
      rewrite E. now destruct (sget s i).
  - intros s [j y] [i x]. unfold DelRotationKey. cbn [fst snd]. destruct (sget s j) as [m|] eqn:E.
    + rewrite get_set_dec. destruct (pair_dec (j, y) (i, x)) as [[= -> ->]|H].
      * destruct (string_dec i i); [|congruence]. rewrite (mget_mdel _ zeqb). now rewrite Z.eqb_refl.
      * destruct (string_dec j i) as [->|]; [|reflexivity]. rewrite E, (mget_mdel _ zeqb). destruct (Z.eqb_spec x y) as [E2|]; [exfalso; apply H; now rewrite E2|reflexivity].
    + destruct (pair_dec (j, y) (i, x)) as [[= -> ->]|H]; [now rewrite E|reflexivity].
  - intros s [i x]. unfold GetRotationKey. cbn [fst snd]. destruct (sget s i) as [m|]; [now destruct (zget m x)|reflexivity].
Qed.
