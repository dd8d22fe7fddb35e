(** Proofs of C74. *)
From Coq Require Import String ZArith List Lia Bool.
From Verif Require Import Go GoProofs NTT RingOps Maps MapsProofs Params Elements KeySwitch KeySets Heap HeapProofs KeyObj SpecKeyObj.
Import ListNotations.
Open Scope list_scope.

Lemma idx_some {A} (l : list A) i x : idx l i = Ok x <-> nth_error l i = Some x.
Proof. unfold idx. destruct (nth_error l i); split; congruence. Qed.
Lemma nth_app_old {A} (l l' : list A) i x : nth_error l i = Some x -> nth_error (l ++ l') i = Some x.
Proof. intros H. rewrite nth_error_app1; auto. apply nth_error_Some. congruence. Qed.
Lemma nth_app_new {A} (l : list A) x : nth_error (l ++ [x]) (List.length l) = Some x.
Proof. rewrite nth_error_app2 by lia. now rewrite Nat.sub_diag. Qed.
Lemma nth_app_inv {A} (l : list A) x i y : nth_error (l ++ [x]) i = Some y -> nth_error l i = Some y \/ i = List.length l /\ y = x.
Proof.
  intros H. destruct (Nat.lt_ge_cases i (List.length l)) as [Hi|Hi]. { left. now rewrite nth_error_app1 in H. }
  right. rewrite nth_error_app2 in H by lia. destruct (i - List.length l)%nat eqn:E; cbn in H; [injection H as <-; split; [lia|reflexivity]|destruct n; discriminate].
Qed.
Lemma nth_lt {A} (l : list A) i x : nth_error l i = Some x -> (i < List.length l)%nat.
Proof. intros H. apply nth_error_Some. congruence. Qed.
Lemma deref_nth {A} (l : list A) a x : deref l a = Ok x <-> nth_error l a = Some x.
Proof. unfold deref. destruct (nth_error l a); split; congruence. Qed.

(** every pointer is to something, and no two keys share a polynomial *)
Record kwf (s : kstate) : Prop := {
  w_var : forall k a, nth_error (fst s) k = Some (Some a) -> (a < List.length (kh_key (snd s)))%nat;
  w_set : forall t m id a, nth_error (kh_set (snd s)) t = Some m -> sget m id = Some a -> (a < List.length (kh_key (snd s)))%nat;
  w_pol : forall a ps id p, nth_error (kh_key (snd s)) a = Some (ps, id) -> In p ps -> (p < List.length (kh_qp (snd s)))%nat;
  w_sep : forall a b ps qs id id' p, nth_error (kh_key (snd s)) a = Some (ps, id) -> nth_error (kh_key (snd s)) b = Some (qs, id') -> In p ps -> In p qs -> a = b;
  w_nd : forall t m, nth_error (kh_set (snd s)) t = Some m -> NoDup (mkeys m);
  w_pnd : forall a ps id, nth_error (kh_key (snd s)) a = Some (ps, id) -> NoDup ps }.
Lemma kwf_empty : kwf emptyK.
Proof. constructor; cbn; intros; try (destruct k; discriminate); try (destruct t; discriminate); destruct a; discriminate. Qed.

Lemma load_ok s a : kwf s -> (a < List.length (kh_key (snd s)))%nat -> exists x, loadKey (snd s) a = Ok x.
Proof.
  intros W H. destruct (nth_error (kh_key (snd s)) a) as [[ps id]|] eqn:E; [|apply nth_error_Some in H; congruence]. unfold loadKey. rewrite (proj2 (deref_nth _ _ _) E). cbn [bind].
  assert (X : forall ps', (forall p, In p ps' -> In p ps) -> exists v, mapM (deref (kh_qp (snd s))) ps' = Ok v).
  { induction ps' as [|p ps' IH]; intros Hs; [exists []; reflexivity|]. destruct IH as (v & Ev); [intros; apply Hs; now right|]. pose proof (w_pol s W a ps id p E (Hs p (or_introl eq_refl))) as Hp.
    destruct (nth_error (kh_qp (snd s)) p) as [q|] eqn:Eq; [|apply nth_error_Some in Hp; congruence]. exists (q :: v). cbn [mapM]. rewrite (proj2 (deref_nth _ _ _) Eq). cbn [bind]. rewrite Ev. reflexivity. }
  destruct (X ps) as (v & ->); [auto|]. eexists. reflexivity.
Qed.
Lemma load_ext h h' a : nth_error (kh_key h') a = nth_error (kh_key h) a -> (forall ps id p, nth_error (kh_key h) a = Some (ps, id) -> In p ps -> nth_error (kh_qp h') p = nth_error (kh_qp h) p) -> loadKey h' a = loadKey h a.
Proof.
  intros H1 H2. unfold loadKey, deref at 1 3. rewrite H1. destruct (nth_error (kh_key h) a) as [[ps id]|] eqn:E; [|reflexivity]. cbn [bind]. rewrite (mapM_ext_in (deref (kh_qp h')) (deref (kh_qp h)) ps); [reflexivity|].
  intros p Hp. unfold deref. now rewrite (H2 ps id p eq_refl Hp).
Qed.
(** ** allocation *)
Lemma alloc_wf vs h vals id : kwf (vs, h) -> kwf (vs ++ [Some (fst (allocKey vals id h))], snd (allocKey vals id h)) /\ loadKey (snd (allocKey vals id h)) (List.length (kh_key h)) = Ok (vals, id) /\
  forall a, (a < List.length (kh_key h))%nat -> loadKey (snd (allocKey vals id h)) a = loadKey h a.
Proof.
  intros W. destruct W as [W1 W2 W3 W4 W5 W6]. cbn [fst snd] in *. unfold allocKey. cbn [fst snd]. split; [|split].
  - constructor; cbn [fst snd kh_qp kh_key kh_set].
    + intros k a H. rewrite app_length. cbn. apply nth_app_inv in H as [H|[_ H]]; [apply W1 in H; lia|injection H as ->; lia].
    + intros t m i a H1 H2. rewrite app_length. cbn. specialize (W2 _ _ _ _ H1 H2). lia.
    + intros a ps i p H1 H2. rewrite app_length. apply nth_app_inv in H1 as [H1|[_ H1]]; [specialize (W3 _ _ _ _ H1 H2); lia|]. injection H1 as -> _. apply in_seq in H2. lia.
    + intros a b ps qs i i' p H1 H2 P1 P2. apply nth_app_inv in H1 as [H1|[E1 H1]]; apply nth_app_inv in H2 as [H2|[E2 H2]].
      * eapply W4; eauto. * injection H2 as -> _. apply in_seq in P2. specialize (W3 _ _ _ _ H1 P1). lia. * injection H1 as -> _. apply in_seq in P1. specialize (W3 _ _ _ _ H2 P2). lia. * congruence.
    + exact W5.
    + intros a ps i H1. apply nth_app_inv in H1 as [H1|[_ H1]]; [eauto|]. injection H1 as -> _. apply seq_NoDup.
  - unfold loadKey. cbn [kh_qp kh_key]. rewrite (proj2 (deref_nth _ _ _) (nth_app_new _ _)). cbn [bind]. rewrite (mapM_build (deref (kh_qp h ++ vals)) _ vals); [reflexivity|now rewrite seq_length|].
    intros j x Hj. assert (Hlt : (j < List.length vals)%nat). { apply nth_lt in Hj. now rewrite seq_length in Hj. }
    assert (x = (List.length (kh_qp h) + j)%nat) as ->. { apply nth_error_nth with (d := 0%nat) in Hj. now rewrite seq_nth in Hj by auto. }
    destruct (nth_error vals j) as [q|] eqn:Eq; [|apply nth_error_None in Eq; lia]. exists q. split; [reflexivity|]. apply deref_nth. rewrite nth_error_app2 by lia. replace (List.length (kh_qp h) + j - List.length (kh_qp h))%nat with j by lia. exact Eq.
  - intros a Ha. apply load_ext; cbn [kh_key kh_qp]. { now rewrite nth_error_app1. } intros ps i p E Hp. rewrite nth_error_app1; auto. eapply W3; eauto.
Qed.
Lemma lset_nth {A} (l : list A) i x j : (i < List.length l)%nat -> nth_error (lset l i x) j = if Nat.eqb j i then Some x else nth_error l j.
Proof. intros H. destruct (Nat.eqb_spec j i) as [->|]; [now apply lset_same|now apply lset_other]. Qed.

Lemma keyVar_inv vs k a : keyVar vs k = Ok a -> nth_error vs k = Some (Some a).
Proof. unfold keyVar. intros H. apply bind_ok in H as (v & H1 & H2). apply idx_some in H1. destruct v; [|discriminate]. injection H2 as ->. exact H1. Qed.
Lemma push_wf vs h v : kwf (vs, h) -> (forall a, v = Some a -> (a < List.length (kh_key h))%nat) -> kwf (vs ++ [v], h).
Proof. intros [W1 W2 W3 W4 W5 W6] H. constructor; cbn [fst snd] in *; auto. intros k a E. apply nth_app_inv in E as [E|[_ E]]; [eauto|]. apply H. now symmetry. Qed.
Lemma set_wf vs h t m : kwf (vs, h) -> (t < List.length (kh_set h))%nat -> NoDup (mkeys m) -> (forall id a, sget m id = Some a -> (a < List.length (kh_key h))%nat) -> kwf (vs, mkKh (kh_qp h) (kh_key h) (lset (kh_set h) t m)).
Proof.
  intros [W1 W2 W3 W4 W5 W6] Ht Hn Hm. constructor; cbn [fst snd kh_qp kh_key kh_set] in *; auto.
  - intros t' m' id a E G. rewrite lset_nth in E by auto. destruct (Nat.eqb t' t); [injection E as <-|]; eauto.
  - intros t' m' E. rewrite lset_nth in E by auto. destruct (Nat.eqb t' t); [injection E as <-; auto|eauto].
Qed.
Lemma step_wf s i s' : kwf s -> stepK s i = Ok s' -> kwf s'.
Proof.
  destruct s as [vs h]. intros W H. destruct i; cbn [stepK] in H.
  - injection H as <-. apply (alloc_wf vs h vals id W).
  - injection H as <-. apply push_wf; [exact W|discriminate].
  - apply bind_ok in H as (v & _ & H). destruct v as [a|]; [|injection H as <-; apply push_wf; [exact W|discriminate]]. apply bind_ok in H as ([vals id] & _ & H). injection H as <-. apply (alloc_wf vs h vals id W).
  - apply bind_ok in H as (a & Ha & H). apply bind_ok in H as ([ps id] & Hd & H). apply bind_ok in H as (p & Hp & H). injection H as <-. apply deref_nth in Hd. apply idx_some in Hp.
    assert (Hlt : (p < List.length (kh_qp h))%nat) by (eapply (w_pol _ W); [exact Hd|eapply nth_error_In; eauto]). destruct W as [W1 W2 W3 W4 W5 W6]. constructor; cbn [fst snd kh_qp kh_key kh_set] in *; auto. intros. rewrite lset_length by auto. eauto.
  - apply bind_ok in H as (a & Ha & H). apply bind_ok in H as ([ps id'] & Hd & H). injection H as <-. apply deref_nth in Hd. pose proof (nth_lt _ _ _ Hd) as Hlt. destruct W as [W1 W2 W3 W4 W5 W6]. constructor; cbn [fst snd kh_qp kh_key kh_set] in *; rewrite ?lset_length by auto; auto.
    + intros b qs j p E Hp. rewrite lset_nth in E by auto. destruct (Nat.eqb_spec b a) as [->|]; [injection E as <- _; eauto|eauto].
    + intros b c qs rs j j' p E1 E2 P1 P2. rewrite lset_nth in E1, E2 by auto. destruct (Nat.eqb_spec b a) as [->|]; destruct (Nat.eqb_spec c a) as [->|]; auto; try (injection E1 as <- _); try (injection E2 as <- _); eauto.
    + intros b qs j E. rewrite lset_nth in E by auto. destruct (Nat.eqb_spec b a) as [->|]; [injection E as <- _; eauto|eauto].
  - injection H as <-. destruct W as [W1 W2 W3 W4 W5 W6]. constructor; cbn [fst snd kh_qp kh_key kh_set] in *; auto.
    + intros t m id a E G. apply nth_app_inv in E as [E|[_ ->]]; [eauto|discriminate]. + intros t m E. apply nth_app_inv in E as [E|[_ ->]]; [eauto|constructor].
  - apply bind_ok in H as (a & Ha & H). apply bind_ok in H as ([ps id'] & Hd & H). apply bind_ok in H as (m & Hm & H). injection H as <-. apply deref_nth in Hd. apply idx_some in Hm. apply set_wf; auto; [eapply nth_lt; eauto|apply (mset_nodup _ seqb); eapply (w_nd _ W); eauto|].
    intros id b E. rewrite (mget_mset _ seqb) in E. destruct (String.eqb id id'); [injection E as <-; eapply nth_lt; eauto|eapply (w_set _ W); eauto].
  - apply bind_ok in H as (m & Hm & H). injection H as <-. apply idx_some in Hm. pose proof (w_nd _ W _ _ Hm) as Hn. apply set_wf; auto; [eapply nth_lt; eauto|apply mdel_nodup; auto|].
    intros id' b E. rewrite (mget_mdel _ seqb) in E. destruct (String.eqb id' id); [discriminate|eapply (w_set _ W); eauto].
  - apply bind_ok in H as (m & Hm & H). apply idx_some in Hm. destruct (sget m id) as [a|] eqn:E; [|discriminate]. injection H as <-. apply push_wf; auto. intros b Eb. injection Eb as <-. eapply (w_set _ W); eauto.
Qed.
Lemma foldM_wf P : forall s s', kwf s -> foldM stepK P s = Ok s' -> kwf s'.
Proof.
  induction P as [|i P IH]; intros s s' W H; cbn in H; [injection H as <-; exact W|]. apply bind_ok in H as (s1 & H1 & H2). apply (IH s1 s'); auto. eapply step_wf; eauto.
Qed.
Lemma run_wf P s : runK P = Ok s -> kwf s.
Proof. apply foldM_wf. exact kwf_empty. Qed.
(** ** variables are never removed *)
Lemma step_vars s i s' k v : stepK s i = Ok s' -> nth_error (fst s) k = Some v -> nth_error (fst s') k = Some v.
Proof.
  destruct s as [vs h]. intros H E. destruct i; cbn [stepK] in H; cbn [fst] in E.
  - injection H as <-. now apply nth_app_old. - injection H as <-. now apply nth_app_old.
  - apply bind_ok in H as (v0 & _ & H). destruct v0 as [a|]; [|injection H as <-; now apply nth_app_old]. apply bind_ok in H as ([vals id] & _ & H). injection H as <-. now apply nth_app_old.
  - apply bind_ok in H as (a & Ha & H). apply bind_ok in H as ([ps id] & Hd & H). apply bind_ok in H as (p & Hp & H). injection H as <-. exact E.
  - apply bind_ok in H as (a & Ha & H). apply bind_ok in H as ([ps id'] & Hd & H). injection H as <-. exact E.
  - injection H as <-. exact E.
  - apply bind_ok in H as (a & Ha & H). apply bind_ok in H as ([ps id'] & Hd & H). apply bind_ok in H as (m & Hm & H). injection H as <-. exact E.
  - apply bind_ok in H as (m & Hm & H). injection H as <-. exact E.
  - apply bind_ok in H as (m & Hm & H). destruct (sget m id); [|discriminate]. injection H as <-. now apply nth_app_old.
Qed.
Lemma run_vars P : forall s s' k v, foldM stepK P s = Ok s' -> nth_error (fst s) k = Some v -> nth_error (fst s') k = Some v.
Proof.
  induction P as [|i P IH]; intros s s' k v H E; cbn in H; [injection H as <-; exact E|]. apply bind_ok in H as (s1 & H1 & H2). eapply IH; eauto. eapply step_vars; eauto.
Qed.
(** ** private keys: nobody else has the pointer *)
Definition private (s : kstate) (q : nat) (a : addr) : Prop := nth_error (fst s) q = Some (Some a) /\ (forall k, nth_error (fst s) k = Some (Some a) -> k = q) /\
  forall t m id, nth_error (kh_set (snd s)) t = Some m -> sget m id <> Some a.
Lemma alloc_private vs h vals id : kwf (vs, h) -> private (vs ++ [Some (fst (allocKey vals id h))], snd (allocKey vals id h)) (List.length vs) (List.length (kh_key h)).
Proof.
  intros [W1 W2 _ _ _ _]. cbn [fst snd] in *. unfold private. cbn [fst snd allocKey kh_set]. split; [apply nth_app_new|]. split.
  - intros k E. apply nth_app_inv in E as [E|[E _]]; [|exact E]. apply W1 in E. lia.
  - intros t m i E G. specialize (W2 _ _ _ _ E G). lia.
Qed.
Lemma step_private s i s' q a : kwf s -> private s q a -> (match i with KWrite k _ _ | KSetID k _ | KAdd _ k => k <> q | _ => True end) -> stepK s i = Ok s' ->
  private s' q a /\ loadKey (snd s') a = loadKey (snd s) a.
Proof.
  destruct s as [vs h]. intros W (P1 & P2 & P3) Hi H. pose proof (w_var _ W _ _ P1) as Ha. cbn [fst snd] in *.
  assert (AL : forall vals id, private (vs ++ [Some (fst (allocKey vals id h))], snd (allocKey vals id h)) q a /\ loadKey (snd (allocKey vals id h)) a = loadKey h a).
  { intros vals id. split; [|now apply (alloc_wf vs h vals id W)]. split; [now apply nth_app_old|]. split; [|exact P3]. cbn [fst snd allocKey]. intros k E. apply nth_app_inv in E as [E|[_ E]]; [auto|]. injection E as E. lia. }
  assert (PU : forall v, v <> Some a -> private (vs ++ [v], h) q a). { intros v Hv. split; [now apply nth_app_old|]. split; [|exact P3]. cbn [fst]. intros k E. apply nth_app_inv in E as [E|[_ E]]; [auto|congruence]. }
  destruct i; cbn [stepK] in H.
  - injection H as <-. apply AL.
  - injection H as <-. split; [apply PU; discriminate|reflexivity].
  - apply bind_ok in H as (v & _ & H). destruct v as [b|]; [|injection H as <-; split; [apply PU; discriminate|reflexivity]]. apply bind_ok in H as ([vals id] & _ & H). injection H as <-. apply AL.
  - apply bind_ok in H as (b & Hb & H). apply bind_ok in H as ([ps id] & Hd & H). apply bind_ok in H as (p & Hp & H). injection H as <-. apply keyVar_inv in Hb. apply deref_nth in Hd. apply idx_some in Hp. apply nth_error_In in Hp.
    split; [split; [exact P1|split; [exact P2|exact P3]]|]. apply load_ext; cbn [snd kh_key kh_qp]; [reflexivity|]. intros qs j r E Hr. pose proof (w_pol _ W _ _ _ _ Hd Hp) as Hlt. rewrite lset_nth by exact Hlt. destruct (Nat.eqb_spec r p) as [->|]; [|reflexivity].
    exfalso. apply Hi. apply P2. rewrite <- (w_sep _ W _ _ _ _ _ _ _ Hd E Hp Hr). exact Hb.
  - apply bind_ok in H as (b & Hb & H). apply bind_ok in H as ([ps id'] & Hd & H). injection H as <-. apply keyVar_inv in Hb. apply deref_nth in Hd. pose proof (nth_lt _ _ _ Hd) as Hlt.
    split; [split; [exact P1|split; [exact P2|exact P3]]|]. apply load_ext; cbn [snd kh_key kh_qp]; [|reflexivity]. rewrite lset_nth by auto. destruct (Nat.eqb_spec a b) as [->|]; [|reflexivity]. exfalso. apply Hi. now apply P2.
  - injection H as <-. split; [|apply load_ext; reflexivity]. split; [exact P1|]. split; [exact P2|]. cbn [snd kh_set]. intros t m id E. apply nth_app_inv in E as [E|[_ ->]]; [eauto|discriminate].
  - apply bind_ok in H as (b & Hb & H). apply bind_ok in H as ([ps id'] & Hd & H). apply bind_ok in H as (m & Hm & H). injection H as <-. apply keyVar_inv in Hb. apply idx_some in Hm. split; [|apply load_ext; reflexivity]. split; [exact P1|]. split; [exact P2|].
    cbn [snd kh_set]. intros t m' id E. rewrite lset_nth in E by (eapply nth_lt; eauto). destruct (Nat.eqb t s); [injection E as <-|eauto]. rewrite (mget_mset _ seqb). destruct (String.eqb id id'); [|eauto]. intros X. injection X as ->. apply Hi. now apply P2.
  - apply bind_ok in H as (m & Hm & H). injection H as <-. apply idx_some in Hm. split; [|apply load_ext; reflexivity]. split; [exact P1|]. split; [exact P2|].
    cbn [snd kh_set]. intros t m' id' E. rewrite lset_nth in E by (eapply nth_lt; eauto). destruct (Nat.eqb t s); [injection E as <-|eauto]. rewrite (mget_mdel _ seqb). destruct (String.eqb id' id); [discriminate|eauto].
  - apply bind_ok in H as (m & Hm & H). apply idx_some in Hm. destruct (sget m id) as [b|] eqn:E; [|discriminate]. injection H as <-. split; [|reflexivity]. apply PU. intros X. injection X as ->. exact (P3 _ _ _ Hm E).
Qed.
Lemma run_private P : forall s s' q a, kwf s -> private s q a -> leaves q P -> foldM stepK P s = Ok s' -> private s' q a /\ loadKey (snd s') a = loadKey (snd s) a.
Proof.
  induction P as [|i P IH]; intros s s' q a W HP HL H; cbn in H; [injection H as <-; auto|]. apply bind_ok in H as (s1 & H1 & H2). destruct (step_private s i s1 q a W HP (HL i (or_introl eq_refl)) H1) as [A B].
  destruct (IH s1 s' q a) as [C D]; auto; [eapply step_wf; eauto|intros j Hj; apply HL; now right|]. split; [exact C|congruence].
Qed.
(** changing a private key changes no other one *)
Lemma step_other s i s' q a b : kwf s -> private s q a -> (match i with KWrite k _ _ | KSetID k _ => k = q | _ => False end) -> stepK s i = Ok s' -> b <> a ->
  fst s' = fst s /\ kh_set (snd s') = kh_set (snd s) /\ loadKey (snd s') b = loadKey (snd s) b.
Proof.
  destruct s as [vs h]. intros W (P1 & P2 & P3) Hi H Hb. destruct i; cbn [stepK] in H; try contradiction; subst k.
  - apply bind_ok in H as (c & Hc & H). apply bind_ok in H as ([ps id] & Hd & H). apply bind_ok in H as (p & Hp & H). injection H as <-. apply keyVar_inv in Hc. cbn [fst] in P1. assert (c = a) as -> by congruence. apply deref_nth in Hd. apply idx_some in Hp. apply nth_error_In in Hp.
    split; [reflexivity|]. split; [reflexivity|]. apply load_ext; cbn [snd kh_key kh_qp]; [reflexivity|]. intros qs j r E Hr. pose proof (w_pol _ W _ _ _ _ Hd Hp) as Hlt. rewrite lset_nth by exact Hlt. destruct (Nat.eqb_spec r p) as [->|]; [|reflexivity].
    exfalso. apply Hb. exact (w_sep _ W _ _ _ _ _ _ _ E Hd Hr Hp).
  - apply bind_ok in H as (c & Hc & H). apply bind_ok in H as ([ps id'] & Hd & H). injection H as <-. apply keyVar_inv in Hc. cbn [fst] in P1. assert (c = a) as -> by congruence. apply deref_nth in Hd. pose proof (nth_lt _ _ _ Hd) as Hlt.
    split; [reflexivity|]. split; [reflexivity|]. apply load_ext; cbn [snd kh_key kh_qp]; [|reflexivity]. rewrite lset_nth by auto. destruct (Nat.eqb_spec b a); [contradiction|reflexivity].
Qed.
Lemma run_other P : forall s s' q a, kwf s -> private s q a -> changes_only q P -> foldM stepK P s = Ok s' ->
  fst s' = fst s /\ kh_set (snd s') = kh_set (snd s) /\ forall b, b <> a -> loadKey (snd s') b = loadKey (snd s) b.
Proof.
  induction P as [|i P IH]; intros s s' q a W HP HL H; cbn in H; [injection H as <-; auto|]. apply bind_ok in H as (s1 & H1 & H2).
  pose proof (fun b => step_other s i s1 q a b W HP (HL i (or_introl eq_refl)) H1) as X. destruct (X (S a) ltac:(lia)) as (E1 & E2 & _).
  assert (HP1 : private s1 q a). { destruct HP as (Q1 & Q2 & Q3). unfold private. rewrite E1, E2. auto. }
  destruct (IH s1 s' q a) as (A & B & C); [eapply step_wf; eauto|exact HP1|intros j Hj; apply HL; now right|exact H2|]. split; [congruence|]. split; [congruence|]. intros b Hb. rewrite C by auto. now apply X.
Qed.
