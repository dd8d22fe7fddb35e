(** Programs on ciphertext objects behave as programs on ciphertext values. *)
From Coq Require Import String ZArith List Lia Bool Permutation.
From Verif Require Import Go GoProofs Lattigo NTT RingOps RingOpsProofs Maps MapsProofs Params Elements KeySwitch KeySets EncDec Heap SpecHeap.
Import ListNotations.
Local Open Scope list_scope.

(** ** list cells *)
Lemma lset_length {A} (l : list A) i x : (i < length l)%nat -> length (lset l i x) = length l.
Proof. intros H. unfold lset. rewrite app_length, firstn_length. cbn [length]. rewrite skipn_length. lia. Qed.
Lemma lset_same {A} (l : list A) i x : (i < length l)%nat -> nth_error (lset l i x) i = Some x.
Proof. intros H. unfold lset. rewrite nth_error_app2; rewrite firstn_length; [|lia]. replace (i - Nat.min i (length l))%nat with 0%nat by lia. reflexivity. Qed.
Lemma nth_error_skipn {A} (l : list A) n i : nth_error (skipn n l) i = nth_error l (n + i).
Proof. revert l; induction n as [|n IH]; intros [|x l]; cbn; auto. now destruct i. Qed.
Lemma nth_error_firstn {A} (l : list A) n i : (i < n)%nat -> nth_error (firstn n l) i = nth_error l i.
Proof. revert l i; induction n as [|n IH]; intros [|x l] [|i] H; cbn; auto; try lia. apply IH. lia. Qed.
Lemma lset_other {A} (l : list A) i x j : (i < length l)%nat -> j <> i -> nth_error (lset l i x) j = nth_error l j.
Proof.
  intros H Hj. unfold lset. destruct (Nat.lt_ge_cases j i) as [L|L].
  - rewrite nth_error_app1 by (rewrite firstn_length; lia). apply nth_error_firstn. lia.
  - rewrite nth_error_app2 by (rewrite firstn_length; lia). rewrite firstn_length. replace (j - Nat.min i (length l))%nat with (S (j - S i)) by lia. cbn [nth_error]. rewrite nth_error_skipn. f_equal. lia.
Qed.
Lemma deref_ok {A} (l : list A) a x : deref l a = Ok x <-> nth_error l a = Some x.
Proof. unfold deref. destruct (nth_error l a); split; congruence. Qed.
Lemma deref_lt {A} (l : list A) a x : deref l a = Ok x -> (a < length l)%nat.
Proof. intros H. apply deref_ok in H. apply nth_error_Some. congruence. Qed.
Lemma deref_app {A} (l l' : list A) a : (a < length l)%nat -> deref (l ++ l') a = deref l a.
Proof. intros H. unfold deref. now rewrite nth_error_app1. Qed.
Lemma deref_same {A} (l : list A) i x : (i < length l)%nat -> deref (lset l i x) i = Ok x.
Proof. intros H. apply deref_ok. now apply lset_same. Qed.
Lemma deref_other {A} (l : list A) i x j : (i < length l)%nat -> j <> i -> deref (lset l i x) j = deref l j.
Proof. intros H1 H2. unfold deref. now rewrite lset_other. Qed.

Lemma mapM_ok {A B} (f : A -> res B) l l' : mapM f l = Ok l' -> length l' = length l /\ forall j x, nth_error l j = Some x -> exists y, f x = Ok y /\ nth_error l' j = Some y.
Proof.
  revert l'. induction l as [|a l IH]; intros l' H; cbn in H. { injection H as <-. split; [reflexivity|]. intros [|j] x; discriminate. }
  destruct (f a) as [b|] eqn:E; [|discriminate]. cbn in H. destruct (mapM f l) as [bs|] eqn:E2; [|discriminate]. cbn in H. injection H as <-. destruct (IH bs eq_refl) as [H1 H2]. split; [cbn; now rewrite H1|].
  intros [|j] x Hx; cbn in *; [injection Hx as <-; eauto|auto].
Qed.
Lemma mapM_ext_in {A B} (f g : A -> res B) l : (forall x, In x l -> f x = g x) -> mapM f l = mapM g l.
Proof. induction l as [|a l IH]; intros H; cbn; [reflexivity|]. rewrite (H a) by now left. rewrite IH by (intros; apply H; now right). reflexivity. Qed.
Lemma mapM_build {A B} (f : A -> res B) l l' : length l' = length l -> (forall j x, nth_error l j = Some x -> exists y, nth_error l' j = Some y /\ f x = Ok y) -> mapM f l = Ok l'.
Proof.
  revert l'. induction l as [|a l IH]; intros [|b l'] HL H; cbn in *; try discriminate; auto. destruct (H 0%nat a eq_refl) as (y & Hy & E). cbn in Hy. injection Hy as ->. rewrite E. cbn.
  rewrite (IH l'); [reflexivity|lia|]. intros j x Hx. apply (H (S j) x Hx).
Qed.

Lemma loadPoly_inv h a p : loadPoly h a = Ok p -> exists rs, deref (h_polys h) a = Ok (p_ntt p, rs) /\ length rs = plen p /\ (forall j r, nth_error rs j = Some r -> exists ws, deref (h_rows h) r = Ok ws /\ nth_error (p_co p) j = Some ws).
Proof.
  unfold loadPoly. destruct (deref (h_polys h) a) as [[b rs]|]; [|discriminate]. cbn [bind]. destruct (mapM _ rs) as [ls|] eqn:E; [|discriminate]. cbn. intros H. injection H as <-. exists rs. destruct (mapM_ok _ _ _ E) as [H1 H2]. cbn. unfold plen. cbn. auto.
Qed.
Lemma loadPoly_ext h h' a : deref (h_polys h') a = deref (h_polys h) a -> (forall j r, rowOf h a j r -> deref (h_rows h') r = deref (h_rows h) r) -> loadPoly h' a = loadPoly h a.
Proof.
  intros H1 H2. unfold loadPoly. rewrite H1. destruct (deref (h_polys h) a) as [[b rs]|] eqn:E; [|reflexivity]. cbn [bind]. rewrite (mapM_ext_in (deref (h_rows h')) (deref (h_rows h))); [reflexivity|].
  intros r Hr. apply In_nth_error in Hr as (j & Hj). apply (H2 j). exists b, rs. auto.
Qed.
Lemma rowOf_ext h h' a j r : deref (h_polys h') a = deref (h_polys h) a -> rowOf h' a j r <-> rowOf h a j r.
Proof. intros H. unfold rowOf. now rewrite H. Qed.
Lemma polyAt_ext h h' c id a : deref (h_maps h') c = deref (h_maps h) c -> polyAt h' c id a <-> polyAt h c id a.
Proof. intros H. unfold polyAt. now rewrite H. Qed.
Lemma rep_poly h c v id a : rep h c v -> polyAt h c id a -> exists p, loadPoly h a = Ok p /\ sget v id = Some p.
Proof. intros (_ & m & E & _ & H) (m' & E' & Hm). rewrite E in E'. injection E' as <-. specialize (H id). now rewrite Hm in H. Qed.
Lemma rep_comp h c v id : rep h c v -> loadComp h c id = sptr v id.
Proof.
  intros (_ & m & E & _ & H). unfold loadComp. rewrite E. cbn [bind]. unfold sptr, mptr. specialize (H id). destruct (sget m id) as [a|]; cbn [bind]; [|now rewrite H]. destruct H as (p & -> & ->). reflexivity.
Qed.
Lemma rep_ext h h' c v : rep h c v -> deref (h_maps h') c = deref (h_maps h) c -> (forall id a, polyAt h c id a -> loadPoly h' a = loadPoly h a) -> rep h' c v.
Proof.
  intros (Hv & m & E & Hn & H) H1 H2. split; [exact Hv|]. exists m. rewrite H1. split; [exact E|]. split; [exact Hn|]. intros id. specialize (H id). destruct (sget m id) as [a|] eqn:Ea; [|exact H]. rewrite (H2 id a); [exact H|]. exists m. auto.
Qed.
(** the addresses of an object are allocated *)
Lemma rep_lt h c v : rep h c v -> (c < length (h_maps h))%nat /\ (forall id a, polyAt h c id a -> (a < length (h_polys h))%nat) /\ forall id a j r, polyAt h c id a -> rowOf h a j r -> (r < length (h_rows h))%nat.
Proof.
  intros HR. pose proof HR as (_ & m & E & _ & H). split; [eapply deref_lt; eauto|]. split.
  - intros id a HP. destruct (rep_poly _ _ _ _ _ HR HP) as (p & Hp & _). apply loadPoly_inv in Hp as (rs & X & _). eapply deref_lt; eauto.
  - intros id a j r HP (b & rs & X & Hj). destruct (rep_poly _ _ _ _ _ HR HP) as (p & Hp & _). apply loadPoly_inv in Hp as (rs' & X' & _ & G). rewrite X in X'. injection X' as -> ->. destruct (G j r Hj) as (ws & Hw & _). eapply deref_lt; eauto.
Qed.

(** ** storing *)
Lemma store_rows : forall (rs : list addr) (ws : list (list Z)) rows, (forall r, In r rs -> (r < length rows)%nat) ->
  let rows' := fold_left (fun rows '(r, w) => lset rows r w) (combine rs ws) rows in
  length rows' = length rows /\ (forall r, ~ In r rs -> deref rows' r = deref rows r) /\
  (NoDup rs -> forall j r w, nth_error rs j = Some r -> nth_error ws j = Some w -> deref rows' r = Ok w).
Proof.
  induction rs as [|r rs IH]; intros ws rows H; cbn. { split; [auto|]. split; [auto|]. intros _ [|j] x w; discriminate. }
  destruct ws as [|w ws]; cbn. { split; [auto|]. split; [auto|]. intros _ [|j] x w _; discriminate. }
  assert (Hr : (r < length rows)%nat) by (apply H; now left). destruct (IH ws (lset rows r w)) as (H1 & H2 & H3). { intros x Hx. rewrite lset_length by auto. apply H. now right. }
  split; [rewrite H1; now apply lset_length|]. split.
  - intros x Hx. rewrite H2 by tauto. apply deref_other; auto.
  - intros Hnd [|j] x w' Hx Hw; apply NoDup_cons_iff in Hnd as [Hn Hnd]; cbn in *.
    + injection Hx as <-. injection Hw as <-. rewrite H2 by auto. now apply deref_same.
    + eauto.
Qed.
Lemma store_ok a p0 p h : loadPoly h a = Ok p0 -> ((plen p0 < plen p)%nat -> storePoly a p h = Panic PIndex) /\
  ((plen p <= plen p0)%nat -> exists h', storePoly a p h = Ok h' /\ h_maps h' = h_maps h /\ length (h_polys h') = length (h_polys h) /\ length (h_rows h') = length (h_rows h) /\
     (forall a', a' <> a -> deref (h_polys h') a' = deref (h_polys h) a') /\ (forall j r, rowOf h' a j r -> rowOf h a j r) /\
     (forall r, (forall j, ~ rowOf h a j r) -> deref (h_rows h') r = deref (h_rows h) r) /\
     ((forall j j' r, rowOf h a j r -> rowOf h a j' r -> j = j') -> loadPoly h' a = Ok p)).
Proof.
  intros HL. destruct (loadPoly_inv _ _ _ HL) as (rs & E & Hlen & G). unfold storePoly. rewrite E. cbn [bind]. split; intros Hp.
  { replace (length rs <? plen p)%nat with true; [reflexivity|]. symmetry. apply Nat.ltb_lt. lia. }
  replace (length rs <? plen p)%nat with false by (symmetry; apply Nat.ltb_ge; lia). eexists. split; [reflexivity|]. cbn [h_maps h_polys h_rows]. pose proof (deref_lt _ _ _ E) as Ha.
  assert (Hin : forall r, In r rs -> (r < length (h_rows h))%nat). { intros r Hr. apply In_nth_error in Hr as (j & Hj). destruct (G j r Hj) as (ws & Hw & _). eapply deref_lt; eauto. }
  destruct (store_rows rs (p_co p) (h_rows h) Hin) as (S1 & S2 & S3).
  split; [reflexivity|]. split; [now apply lset_length|]. split; [exact S1|]. split; [intros a' Hne; now apply deref_other|]. split.
  { intros j r (b & rs' & X & Hj). cbn [h_polys] in X. rewrite deref_same in X by auto. injection X as <- <-. exists (p_ntt p0), rs. split; [exact E|]. destruct (Nat.lt_ge_cases j (plen p)) as [L|L]; [now rewrite nth_error_firstn in Hj|].
    exfalso. assert (X : nth_error (firstn (plen p) rs) j = None) by (apply nth_error_None; rewrite firstn_length; lia). congruence. }
  split. { intros r Hr. apply S2. intros X. apply In_nth_error in X as (j & Hj). apply (Hr j). exists (p_ntt p0), rs. auto. }
  intros Hinj. unfold loadPoly. cbn [h_polys h_rows]. rewrite deref_same by auto. cbn [bind]. rewrite (mapM_build _ _ (p_co p)); [cbn; now destruct p|rewrite firstn_length; fold (plen p); lia|].
  intros j r Hj. assert (Hjl : (j < plen p)%nat). { apply Nat.lt_nge. intros L. assert (X : nth_error (firstn (plen p) rs) j = None) by (apply nth_error_None; rewrite firstn_length; lia). congruence. }
  destruct (nth_error (p_co p) j) as [w|] eqn:Ew; [|apply nth_error_None in Ew; unfold plen in Hjl; lia]. exists w. split; [reflexivity|]. rewrite nth_error_firstn in Hj by auto. apply (S3) with (j := j); auto.
  apply NoDup_nth_error. intros x y Hx Exy. destruct (nth_error rs x) as [r'|] eqn:Er; [|apply nth_error_None in Er; lia]. apply (Hinj x y r'); exists (p_ntt p0), rs; auto.
Qed.
(** ** allocation *)
Lemma alloc_ok p h : let (a, h') := allocPoly p h in a = length (h_polys h) /\ h_maps h' = h_maps h /\ loadPoly h' a = Ok p /\
  (forall a', (a' < length (h_polys h))%nat -> deref (h_polys h') a' = deref (h_polys h) a') /\ (forall r, (r < length (h_rows h))%nat -> deref (h_rows h') r = deref (h_rows h) r) /\
  (forall j r, rowOf h' a j r -> (length (h_rows h) <= r)%nat) /\ (forall j j' r, rowOf h' a j r -> rowOf h' a j' r -> j = j') /\
  (length (h_polys h) < length (h_polys h'))%nat /\ (length (h_rows h) <= length (h_rows h'))%nat.
Proof.
  unfold allocPoly. cbn [h_maps h_polys h_rows]. split; [reflexivity|]. split; [reflexivity|].
  assert (X : deref (h_polys h ++ [(p_ntt p, seq (length (h_rows h)) (plen p))]) (length (h_polys h)) = Ok (p_ntt p, seq (length (h_rows h)) (plen p))). { apply deref_ok. rewrite nth_error_app2 by lia. now rewrite Nat.sub_diag. }
  assert (Hseq : forall n s j r, nth_error (seq s n) j = Some r -> r = (s + j)%nat). { induction n as [|n IH]; intros s [|j] r H; cbn in H; try discriminate; [injection H; lia|]. apply IH in H. lia. }
  split. { unfold loadPoly. cbn [h_polys h_rows]. rewrite X. cbn [bind]. rewrite (mapM_build _ _ (p_co p)); [cbn; now destruct p|now rewrite seq_length|]. intros j r Hj.
    assert (Hjl : (j < plen p)%nat). { apply Nat.lt_nge. intros L. assert (Y : nth_error (seq (length (h_rows h)) (plen p)) j = None) by (apply nth_error_None; now rewrite seq_length). unfold addr in *. congruence. }
    apply Hseq in Hj as ->. destruct (nth_error (p_co p) j) as [w|] eqn:Ew; [|apply nth_error_None in Ew; unfold plen in Hjl; lia]. exists w. split; [reflexivity|]. apply deref_ok. rewrite nth_error_app2 by lia. now replace (length (h_rows h) + j - length (h_rows h))%nat with j by lia. }
  split; [intros; now apply deref_app|]. split; [intros; now apply deref_app|]. split.
  - intros j r (b & rs & Y & Hj). cbn [h_polys] in Y. rewrite X in Y. injection Y as <- <-. apply Hseq in Hj. lia.
  - split; [|rewrite !app_length; cbn [length]; lia].
    intros j j' r (b & rs & Y & Hj) (b' & rs' & Y' & Hj'). cbn [h_polys] in Y, Y'. rewrite X in Y, Y'. injection Y as <- <-. injection Y' as <- <-. apply Hseq in Hj, Hj'. lia.
Qed.

(** ** writing through one object *)
Record touch (h h' : heap) (c : addr) : Prop := {
  t_lm : (length (h_maps h) <= length (h_maps h'))%nat; t_lp : (length (h_polys h) <= length (h_polys h'))%nat; t_lr : (length (h_rows h) <= length (h_rows h'))%nat;
  t_m : forall c', c' <> c -> (c' < length (h_maps h))%nat -> deref (h_maps h') c' = deref (h_maps h) c';
  t_p : forall a, (a < length (h_polys h))%nat -> (forall id, ~ polyAt h c id a) -> deref (h_polys h') a = deref (h_polys h) a;
  t_r : forall r, (r < length (h_rows h))%nat -> (forall id a j, polyAt h c id a -> ~ rowOf h a j r) -> deref (h_rows h') r = deref (h_rows h) r;
  t_np : forall id a, polyAt h' c id a -> (exists id0, polyAt h c id0 a) \/ (length (h_polys h) <= a)%nat;
  t_nr : forall id a j r, polyAt h' c id a -> rowOf h' a j r -> (exists id0 a0 j0, polyAt h c id0 a0 /\ rowOf h a0 j0 r) \/ (length (h_rows h) <= r)%nat }.
Lemma touch_trans h h1 h2 c : touch h h1 c -> touch h1 h2 c -> touch h h2 c.
Proof.
  intros A B. pose proof (t_lm _ _ _ A). pose proof (t_lm _ _ _ B). pose proof (t_lp _ _ _ A). pose proof (t_lp _ _ _ B). pose proof (t_lr _ _ _ A). pose proof (t_lr _ _ _ B). constructor; try lia.
  - intros c' H' H''. rewrite (t_m _ _ _ B) by (auto; lia). now apply (t_m _ _ _ A).
  - intros a Ha Hn. rewrite (t_p _ _ _ B); [now apply (t_p _ _ _ A)|lia|]. intros id X. apply (t_np _ _ _ A) in X as [[id0 X]|X]; [now apply (Hn id0)|lia].
  - intros r Hr Hn. rewrite (t_r _ _ _ B); [now apply (t_r _ _ _ A)|lia|]. intros id a j X Y. destruct (t_nr _ _ _ A _ _ _ _ X Y) as [(id0 & a0 & j0 & X' & Y')|X']; [now apply (Hn id0 a0 j0)|lia].
  - intros id a X. apply (t_np _ _ _ B) in X as [[id0 X]|X]; [|right; lia]. now apply (t_np _ _ _ A) in X.
  - intros id a j r X Y. destruct (t_nr _ _ _ B _ _ _ _ X Y) as [(id0 & a0 & j0 & X' & Y')|X']; [|right; lia]. now apply (t_nr _ _ _ A _ _ _ _ X' Y').
Qed.
Lemma fresh_apart h c c' v : (length (h_maps h) <= c)%nat -> rep h c' v -> apart h c c'.
Proof.
  intros H HR. assert (X : forall id a, ~ polyAt h c id a). { intros id a (m & E & _). apply deref_lt in E. lia. }
  split; [|split]. { intros ->. apply rep_lt in HR as [L _]. lia. } { intros id id' a Y. now apply X in Y. } intros id id' a a' j j' r Y. now apply X in Y.
Qed.
(** another object keeps its value and stays apart *)
Lemma touch_other h h' c c' v : touch h h' c -> rep h c' v -> apart h c c' ->
  rep h' c' v /\ apart h' c c' /\ (forall id a, polyAt h' c' id a <-> polyAt h c' id a) /\ (forall id a j r, polyAt h c' id a -> rowOf h' a j r <-> rowOf h a j r).
Proof.
  intros T HR (A1 & A2 & A3). destruct (rep_lt _ _ _ HR) as (L1 & L2 & L3).
  assert (Em : deref (h_maps h') c' = deref (h_maps h) c') by (apply (t_m _ _ _ T); auto).
  assert (Ep : forall id a, polyAt h c' id a -> deref (h_polys h') a = deref (h_polys h) a). { intros id a X. apply (t_p _ _ _ T); [eauto|]. intros id0 Y. exact (A2 _ _ _ Y X). }
  assert (Pa : forall id a, polyAt h' c' id a <-> polyAt h c' id a) by (intros; now apply polyAt_ext).
  assert (Ra : forall id a j r, polyAt h c' id a -> rowOf h' a j r <-> rowOf h a j r) by (intros id a j r X; apply rowOf_ext; eauto).
  split; [|split; [|split]]; auto.
  - apply (rep_ext h); auto. intros id a X. apply loadPoly_ext; [eauto|]. intros j r Y. apply (t_r _ _ _ T); [eauto|]. intros id0 a0 j0 X0 Y0. exact (A3 _ _ _ _ _ _ _ X0 X Y0 Y).
  - split; [exact A1|]. split.
    + intros id id' a X Y. apply Pa in Y. apply (t_np _ _ _ T) in X as [[id0 X]|X]; [exact (A2 _ _ _ X Y)|]. apply L2 in Y. lia.
    + intros id id' a a' j j' r X Y X' Y'. apply Pa in Y. apply (Ra _ _ _ _ Y) in Y'. destruct (t_nr _ _ _ T _ _ _ _ X X') as [(id0 & a0 & j0 & X0 & Y0)|L]; [exact (A3 _ _ _ _ _ _ _ X0 Y Y0 Y')|]. apply (L3 _ _ _ _ Y) in Y'. lia.
Qed.
Lemma apart_sym h c c' : apart h c c' -> apart h c' c.
Proof. intros (A & B & C). split; [congruence|]. split; [intros id id' a X Y; exact (B _ _ _ Y X)|]. intros id id' a a' j j' r X Y X' Y'. exact (C _ _ _ _ _ _ _ Y X Y' X'). Qed.
(** two other objects stay apart, and a third keeps its inner structure *)
Lemma touch_pair h h' c c1 c2 v1 v2 : touch h h' c -> rep h c1 v1 -> rep h c2 v2 -> apart h c c1 -> apart h c c2 -> apart h c1 c2 -> apart h' c1 c2.
Proof.
  intros T R1 R2 A1 A2 (B1 & B2 & B3). destruct (touch_other _ _ _ _ _ T R1 A1) as (_ & _ & P1 & Q1). destruct (touch_other _ _ _ _ _ T R2 A2) as (_ & _ & P2 & Q2).
  split; [exact B1|]. split; [intros id id' a X Y; apply P1 in X; apply P2 in Y; exact (B2 _ _ _ X Y)|]. intros id id' a a' j j' r X Y X' Y'. apply P1 in X. apply P2 in Y. apply (Q1 _ _ _ _ X) in X'. apply (Q2 _ _ _ _ Y) in Y'. exact (B3 _ _ _ _ _ _ _ X Y X' Y').
Qed.
Lemma touch_inner h h' c c1 v1 : touch h h' c -> rep h c1 v1 -> apart h c c1 -> inner h c1 -> inner h' c1.
Proof.
  intros T R1 A1 (I1 & I2). destruct (touch_other _ _ _ _ _ T R1 A1) as (_ & _ & P1 & Q1). split.
  - intros id id' a X Y. apply P1 in X, Y. eauto.
  - intros id id' a a' j j' r X Y X' Y'. apply P1 in X, Y. apply (Q1 _ _ _ _ X) in X'. apply (Q1 _ _ _ _ Y) in Y'. eauto.
Qed.

(** ** the three ways of writing *)
Lemma rep_same h c v v' : rep h c v -> NoDup (mkeys v') -> (forall id, sget v id = sget v' id) -> rep h c v'.
Proof. intros (_ & m & E & N & H) N' S. split; [exact N'|]. exists m. split; [exact E|]. split; [exact N|]. intros id. specialize (H id). destruct (sget m id); rewrite <- S; exact H. Qed.
(** a new polynomial under an id *)
Lemma add_comp h c v id p : rep h c v -> let (a, h1) := allocPoly p h in exists h', setComp c id a h1 = Ok h' /\ touch h h' c /\ rep h' c (sset v id p) /\ (inner h c -> inner h' c) /\ length (h_maps h') = length (h_maps h).
Proof.
  intros HR. pose proof (alloc_ok p h) as HA. destruct (allocPoly p h) as [a h1]. destruct HA as (Ea & Em & Hl & Hp & Hr & Hnr & Hinj & Hlp & Hlr).
  destruct (rep_lt _ _ _ HR) as (L1 & L2 & L3). pose proof HR as (Nv & m & E & Nm & H). unfold setComp. rewrite Em, E. cbn [bind]. eexists. split; [reflexivity|].
  set (h' := mkHeap (h_rows h1) (h_polys h1) (lset (h_maps h) c (sset m id a))).
  assert (Ec : deref (h_maps h') c = Ok (sset m id a)) by (now apply deref_same).
  assert (Pc : forall id' a', polyAt h' c id' a' <-> (id' = id /\ a' = a) \/ (id' <> id /\ polyAt h c id' a')).
  { intros id' a'. unfold polyAt. rewrite Ec, E. destruct (string_dec id' id) as [->|Hne].
    - split. { intros (m' & X & Y). injection X as <-. rewrite (mget_mset_same _ seqb) in Y. injection Y as <-. auto. } intros [[_ ->]|[X _]]; [|congruence]. exists (sset m id a). split; [reflexivity|]. apply (mget_mset_same _ seqb).
    - split. { intros (m' & X & Y). injection X as <-. rewrite (mget_mset_other _ seqb) in Y by auto. right. split; [exact Hne|]. exists m. auto. } intros [[X _]|[_ (m' & X & Y)]]; [congruence|]. injection X as <-. exists (sset m id a). split; [reflexivity|]. now rewrite (mget_mset_other _ seqb) by auto. }
  assert (Rc : forall a', (a' < length (h_polys h))%nat -> forall j r, rowOf h' a' j r <-> rowOf h a' j r) by (intros a' Ha j r; apply rowOf_ext; now apply Hp).
  assert (Lc : forall a', (forall j r, rowOf h a' j r -> (r < length (h_rows h))%nat) -> (a' < length (h_polys h))%nat -> loadPoly h' a' = loadPoly h a').
  { intros a' X Y. apply loadPoly_ext; [now apply Hp|]. intros j r Z. apply Hr. eauto. }
  split; [|split; [|split]].
  - constructor; cbn; try lia. { now rewrite lset_length. } { intros c' X Y. now apply deref_other. } { intros a' X _. now apply Hp. } { intros r X _. now apply Hr. }
    + intros id' a' X. apply Pc in X as [[-> ->]|[_ X]]; [right; lia|left; eauto].
    + intros id' a' j r X Y. apply Pc in X as [[-> ->]|[_ X]]; [right; now apply (Hnr j)|]. left. exists id', a', j. split; [exact X|]. apply Rc in Y; eauto.
  - split; [now apply (mset_nodup _ seqb)|]. exists (sset m id a). split; [exact Ec|]. split; [now apply (mset_nodup _ seqb)|]. intros id'. destruct (string_dec id' id) as [->|Hne].
    + rewrite !(mget_mset_same _ seqb). exists p. split; [exact Hl|reflexivity].
    + rewrite !(mget_mset_other _ seqb) by auto. specialize (H id'). destruct (sget m id') as [a'|] eqn:Ea'; [|exact H]. assert (X : polyAt h c id' a') by (exists m; auto). rewrite Lc; eauto.
  - intros (I1 & I2). split.
    + intros i i' a' X Y. apply Pc in X, Y. destruct X as [[-> ->]|[_ X]], Y as [[-> Y0]|[_ Y]]; auto; [apply L2 in Y; lia|subst a'; apply L2 in X; lia|eauto].
    + intros i i' a1 a2 j j' r X Y X' Y'. apply Pc in X, Y. destruct X as [[-> ->]|[_ X]], Y as [[-> ->]|[_ Y]]; [split; [reflexivity|]; now apply (Hinj j j' r)| | |].
      * apply Rc in Y'; [|eauto]. apply (Hnr j) in X'. apply (L3 _ _ _ _ Y) in Y'. lia.
      * apply Rc in X'; [|eauto]. apply (Hnr j') in Y'. apply (L3 _ _ _ _ X) in X'. lia.
      * apply Rc in X'; [|eauto]. apply Rc in Y'; eauto.
  - now apply lset_length.
Qed.
(** deleting a component *)
Lemma del_comp h c v id : rep h c v -> exists h', delComp c id h = Ok h' /\ touch h h' c /\ rep h' c (sdel v id) /\ (inner h c -> inner h' c).
Proof.
  intros HR. destruct (rep_lt _ _ _ HR) as (L1 & L2 & L3). pose proof HR as (Nv & m & E & Nm & H). unfold delComp. rewrite E. cbn [bind]. eexists. split; [reflexivity|].
  set (h' := mkHeap (h_rows h) (h_polys h) (lset (h_maps h) c (sdel m id))).
  assert (Ec : deref (h_maps h') c = Ok (sdel m id)) by (now apply deref_same).
  assert (Pc : forall id' a', polyAt h' c id' a' -> polyAt h c id' a').
  { intros id' a' (m' & X & Y). rewrite Ec in X. injection X as <-. rewrite (mget_mdel _ seqb) in Y. destruct (String.eqb id' id); [discriminate|]. exists m. auto. }
  split; [|split].
  - constructor; cbn; try lia; auto. { now rewrite lset_length. } { intros c' X Y. now apply deref_other. } { intros id' a' X. left. eauto. } intros id' a' j r X Y. left. exists id', a', j. auto.
  - split; [now apply (mdel_nodup String.eqb)|]. exists (sdel m id). split; [exact Ec|]. split; [now apply (mdel_nodup String.eqb)|]. intros id'. rewrite !(mget_mdel _ seqb). destruct (String.eqb id' id); [reflexivity|]. apply H.
  - intros (I1 & I2). split; intros; eauto.
Qed.
(** overwriting a component *)
Definition valid (h : heap) (c : addr) : Prop := exists v, rep h c v.
Lemma valid_build h c m : deref (h_maps h) c = Ok m -> NoDup (mkeys m) -> (forall id a, sget m id = Some a -> exists p, loadPoly h a = Ok p) -> valid h c.
Proof.
  intros E N H. exists (map (fun '(id, a) => (id, match loadPoly h a with Ok p => p | Panic _ => mkPoly false [] end)) m). split.
  { unfold mkeys. rewrite map_map. erewrite map_ext; [exact N|]. now intros [i a]. }
  exists m. split; [exact E|]. split; [exact N|]. intros id.
  assert (X : sget (map (fun '(id, a) => (id, match loadPoly h a with Ok p => p | Panic _ => mkPoly false [] end)) m) id = match sget m id with Some a => Some (match loadPoly h a with Ok p => p | Panic _ => mkPoly false [] end) | None => None end).
  { clear. induction m as [|[i a] m IH]; cbn; [reflexivity|]. destruct (String.eqb id i); auto. }
  specialize (H id). destruct (sget m id) as [a|]; [|exact X]. destruct (H a eq_refl) as (p & Hp). exists p. split; [exact Hp|]. rewrite X, Hp. reflexivity.
Qed.
Lemma upd_comp h c v id a p0 p : rep h c v -> polyAt h c id a -> sget v id = Some p0 ->
  ((plen p0 < plen p)%nat -> storePoly a p h = Panic PIndex) /\
  ((plen p <= plen p0)%nat -> exists h', storePoly a p h = Ok h' /\ touch h h' c /\ valid h' c /\ (inner h c -> inner h' c /\ rep h' c (sset v id p))).
Proof.
  intros HR HP Hv. destruct (rep_poly _ _ _ _ _ HR HP) as (p0' & Hl & Hv'). rewrite Hv in Hv'. injection Hv' as <-. destruct (store_ok a p0 p h Hl) as [S1 S2]. split; [exact S1|]. intros Hlen. destruct (S2 Hlen) as (h' & Es & Em & Lp & Lr & Hp & Hrow & Hr & Hld). clear S1 S2.
  destruct (rep_lt _ _ _ HR) as (L1 & L2 & L3). exists h'. split; [exact Es|].
  assert (Pc : forall i a', polyAt h' c i a' <-> polyAt h c i a') by (intros; apply polyAt_ext; now rewrite Em).
  assert (Rw : forall i a' j r, rowOf h' a' j r -> polyAt h c i a' -> rowOf h a' j r). { intros i a' j r X Y. destruct (Nat.eq_dec a' a) as [->|Hne]; [now apply Hrow|]. apply (rowOf_ext h h'); auto. }
  assert (LEN : forall l, (l < length (h_rows h))%nat -> exists ws, deref (h_rows h') l = Ok ws). { intros l X. rewrite <- Lr in X. unfold deref. destruct (nth_error (h_rows h') l) eqn:E; eauto. apply nth_error_None in E. lia. }
  pose proof HR as (Nv & m & E & Nm & H).
  split; [|split].
  - constructor; try (rewrite ?Em; lia). { intros. now rewrite Em. } { intros a' X Y. apply Hp. intros ->. exact (Y id HP). } { intros r X Y. apply Hr. intros j. exact (Y id a j HP). }
    + intros i a' X. apply Pc in X. eauto.
    + intros i a' j r X Y. apply Pc in X. left. exists i, a', j. eauto.
  - apply (valid_build h' c m); [now rewrite Em|exact Nm|]. intros i a' X. assert (Y : polyAt h c i a') by (exists m; auto). pose proof (L2 _ _ Y) as L. rewrite <- Lp in L.
    unfold loadPoly. destruct (deref (h_polys h') a') as [[b rs]|] eqn:Ed. 2:{ unfold deref in Ed. destruct (nth_error (h_polys h') a') eqn:En; [discriminate|]. apply nth_error_None in En. lia. }
    cbn [bind]. assert (Z : forall r, In r rs -> exists ws, deref (h_rows h') r = Ok ws). { intros r Hin. apply In_nth_error in Hin as (j & Hj). apply LEN. apply (L3 i a' j r Y). apply (Rw i); auto. exists b, rs. auto. }
    clear - Z. assert (W : exists ls, mapM (deref (h_rows h')) rs = Ok ls). { induction rs as [|r rs IH]; cbn; eauto. destruct (Z r (or_introl eq_refl)) as (ws & ->). cbn. destruct IH as (ls & ->); [intros; apply Z; now right|]. cbn. eauto. }
    destruct W as (ls & ->). cbn. eauto.
  - intros (I1 & I2). split.
    + split; [intros i i' a' X Y; apply Pc in X, Y; eauto|]. intros i i' a1 a2 j j' r X Y X' Y'. apply Pc in X, Y. eapply I2; eauto.
    + split; [now apply (mset_nodup _ seqb)|]. exists m. rewrite Em. split; [exact E|]. split; [exact Nm|]. intros i. destruct HP as (m' & E' & Hm). rewrite E in E'. injection E' as <-. assert (HP : polyAt h c id a) by (exists m; auto).
      destruct (string_dec i id) as [->|Hne].
      * rewrite Hm, (mget_mset_same _ seqb). exists p. split; [|reflexivity]. apply Hld. intros j j' r X Y. eapply (I2 id id); eauto.
      * rewrite (mget_mset_other _ seqb) by auto. specialize (H i). destruct (sget m i) as [a'|] eqn:Ea; [|exact H]. assert (Y : polyAt h c i a') by (exists m; auto). destruct H as (q & Hq & Hvq). exists q. split; [|exact Hvq]. rewrite <- Hq.
        apply loadPoly_ext. { apply Hp. intros ->. apply Hne. eapply I1; eauto. } intros j r X. apply Hr. intros j' X'. apply Hne. eapply (I2 i id a' a); eauto.
Qed.

(** ** new objects *)
Lemma allocMap_ok h : let (c, h1) := allocMap h in c = length (h_maps h) /\ touch h h1 c /\ rep h1 c [] /\ inner h1 c.
Proof.
  unfold allocMap. set (h1 := mkHeap _ _ _). assert (E : deref (h_maps h1) (length (h_maps h)) = Ok []). { apply deref_ok. cbn. rewrite nth_error_app2 by lia. now rewrite Nat.sub_diag. }
  assert (X : forall id a, ~ polyAt h1 (length (h_maps h)) id a). { intros id a (m & Y & Z). rewrite E in Y. injection Y as <-. discriminate. }
  split; [reflexivity|]. split; [|split].
  - constructor; try (cbn; rewrite ?app_length; cbn [length]; lia); auto. { intros c' _ H. now apply deref_app. } { intros id a Y. now apply X in Y. } intros id a j r Y. now apply X in Y.
  - split; [constructor|]. exists []. split; [exact E|]. split; [constructor|]. reflexivity.
  - split; [intros id id' a Y|intros id id' a a' j j' r Y]; now apply X in Y.
Qed.
Lemma build_loop h0 c' (g : heap -> string -> res poly) (val : string -> poly) : forall ids h v,
  (forall h1 id, In id ids -> touch h0 h1 c' -> g h1 id = Ok (val id)) -> touch h0 h c' -> rep h c' v -> inner h c' ->
  exists h', foldM (fun h id => let* p := g h id in let (a, h) := allocPoly p h in setComp c' id a h) ids h = Ok h' /\
    touch h0 h' c' /\ rep h' c' (fold_left (fun v id => sset v id (val id)) ids v) /\ inner h' c'.
Proof.
  induction ids as [|id ids IH]; intros h v Hg T R I; cbn [foldM fold_left]. { exists h. auto. }
  rewrite (Hg h id (or_introl eq_refl) T). cbn [bind]. pose proof (add_comp h c' v id (val id) R) as A. destruct (allocPoly (val id) h) as [a h1]. destruct A as (h' & -> & T' & R' & I' & _). cbn [bind].
  apply IH; auto. { intros h2 i Hi. apply Hg. now right. } now apply (touch_trans _ h).
Qed.
Lemma heap_new ids N nb ntt h : exists c h', heapNew ids N nb ntt h = Ok (c, h') /\ c = length (h_maps h) /\ touch h h' c /\
  rep h' c (fold_left (fun el id => sset el id (setNTT ntt (newPoly N nb))) ("0"%string :: ids) []) /\ inner h' c.
Proof.
  unfold heapNew. pose proof (allocMap_ok h) as A. destruct (allocMap h) as [c h1]. destruct A as (-> & T & R & I).
  destruct (build_loop h (length (h_maps h)) (fun _ _ => Ok (setNTT ntt (newPoly N nb))) (fun _ => setNTT ntt (newPoly N nb)) ("0"%string :: ids) h1 [] (fun _ _ _ _ => eq_refl) T R I) as (h' & E & T' & R' & I').
  exists (length (h_maps h)), h'. cbn [bind] in E. rewrite E. auto.
Qed.
Lemma fold_sset_get (val : string -> poly) : forall ids v id, sget (fold_left (fun v id => sset v id (val id)) ids v) id = if in_dec string_dec id ids then Some (val id) else sget v id.
Proof.
  induction ids as [|i ids IH]; intros v id; cbn [fold_left]; [reflexivity|]. rewrite IH. destruct (in_dec string_dec id ids) as [H|H]; destruct (in_dec string_dec id (i :: ids)) as [H'|H']; try reflexivity; try (exfalso; apply H'; now right).
  - destruct H' as [->|H']; [|contradiction]. apply (mget_mset_same _ seqb).
  - apply (mget_mset_other _ seqb). intros ->. apply H'. now left.
Qed.
Lemma rep_keys h c v m id : rep h c v -> deref (h_maps h) c = Ok m -> In id (mkeys m) <-> In id (mkeys v).
Proof.
  intros (_ & m' & E & _ & H) E'. rewrite E in E'. injection E' as <-. rewrite !(mget_In String.eqb seqb). specialize (H id). destruct (sget m' id); [destruct H as (p & _ & ->)|rewrite H]; split; congruence.
Qed.
Lemma heap_copy o c h v : order_ok o -> rep h c v ->
  match sget v "0"%string with
  | None => heapCopyNew o c h = Panic PNil
  | Some _ => exists c' h', heapCopyNew o c h = Ok (c', h') /\ c' = length (h_maps h) /\ touch h h' c' /\ rep h' c' v /\ inner h' c'
  end.
Proof.
  intros Ho R. unfold heapCopyNew. pose proof R as (Nv & m & E & Nm & H). rewrite E. cbn [bind]. pose proof (allocMap_ok h) as A. destruct (allocMap h) as [c' h1]. destruct A as (-> & T & R1 & I1).
  assert (Hrd : forall h2, touch h h2 (length (h_maps h)) -> rep h2 c v). { intros h2 T2. refine (proj1 (touch_other _ _ _ _ _ T2 R _)). apply (fresh_apart _ _ _ v); auto. }
  destruct (sget v "0"%string) as [p|] eqn:E0.
  2:{ cbn [foldM]. rewrite (rep_comp _ _ _ _ (Hrd h1 T)). unfold mptr. rewrite E0. reflexivity. }
  set (ids := "0"%string :: o 0%nat (mkeys m)). assert (Hids : forall id, In id ids <-> In id (mkeys v)).
  { intros id. unfold ids. cbn [In]. rewrite (order_in _ _ _ _ Ho), (rep_keys _ _ _ _ _ R E). split; [intros [<-|X]; [apply (mget_In String.eqb seqb); congruence|exact X]|auto]. }
  set (val := fun id => match sget v id with Some p => p | None => mkPoly false [] end).
  destruct (build_loop h (length (h_maps h)) (fun h id => loadComp h c id) val ids h1 []) as (h' & E' & T' & R' & I'); auto.
  { intros h2 id Hi T2. rewrite (rep_comp _ _ _ _ (Hrd h2 T2)). apply Hids, (mget_In String.eqb seqb) in Hi. unfold mptr, val. destruct (sget v id); congruence. }
  exists (length (h_maps h)), h'. rewrite E'. cbn [bind]. split; [reflexivity|]. split; [reflexivity|]. split; [exact T'|]. split; [|exact I'].
  apply (rep_same _ _ _ _ R'); [exact Nv|]. intros id. rewrite fold_sset_get. pose proof (Hids id) as Hi. rewrite (mget_In String.eqb seqb) in Hi. unfold val. destruct (in_dec string_dec id ids) as [X|X].
  - apply Hi in X. destruct (sget v id); congruence.
  - destruct (sget v id); [|reflexivity]. exfalso. apply X, Hi. congruence.
Qed.

(** ** programs *)
Definition inv (b : bool) (vs : list addr) (h : heap) (vals : list ciphertext) : Prop :=
  Forall2 (rep h) vs vals /\ (b = true -> forall k c, nth_error vs k = Some c -> inner h c) /\
  forall k k' c c', nth_error vs k = Some c -> nth_error vs k' = Some c' -> k <> k' -> apart h c c'.
Lemma Forall2_nth {A B} (R : A -> B -> Prop) l l' : Forall2 R l l' <-> length l = length l' /\ forall k x y, nth_error l k = Some x -> nth_error l' k = Some y -> R x y.
Proof.
  split.
  - induction 1 as [|x y l l' H HF IH]; [split; [reflexivity|]; intros [|k]; discriminate|]. destruct IH as [IH1 IH2]. split; [cbn; lia|]. intros [|k] a b; cbn; intros X Y; [congruence|eauto].
  - revert l'. induction l as [|x l IH]; intros [|y l'] [H1 H2]; cbn in H1; try discriminate; constructor; [apply (H2 0%nat); reflexivity|]. apply IH. split; [lia|]. intros k a b. apply (H2 (S k)).
Qed.
Lemma inv_nth b vs h vals k : inv b vs h vals -> match nth_error vals k with Some v => exists c, nth_error vs k = Some c /\ idx vs k = Ok c /\ idx vals k = Ok v /\ rep h c v /\ (b = true -> inner h c) | None => idx vs k = Panic PIndex /\ idx vals k = Panic PIndex end.
Proof.
  intros (F & I & _). apply Forall2_nth in F as [L F]. unfold idx. destruct (nth_error vals k) as [v|] eqn:E.
  - assert (k < length vs)%nat. { rewrite L. apply nth_error_Some. congruence. } destruct (nth_error vs k) as [c|] eqn:Ec; [|apply nth_error_None in Ec; lia]. exists c. eauto 10.
  - apply nth_error_None in E. assert (X : nth_error vs k = None) by (apply nth_error_None; lia). rewrite X. auto.
Qed.
(** a write through variable k *)
Lemma inv_write b vs h vals k c v v' h' : inv b vs h vals -> nth_error vs k = Some c -> nth_error vals k = Some v -> touch h h' c -> rep h' c v' -> (b = true -> inner h' c) -> inv b vs h' (lset vals k v').
Proof.
  intros (F & I & S) Hk Hv T R' I'. pose proof F as F0. apply Forall2_nth in F as [L F].
  assert (Lk : (k < length vals)%nat) by (apply nth_error_Some; congruence).
  assert (rep_at : forall j d, nth_error vs j = Some d -> exists w, nth_error vals j = Some w /\ rep h d w).
  { intros j d Hj. assert (j < length vals)%nat by (rewrite <- L; apply nth_error_Some; congruence). destruct (nth_error vals j) as [w|] eqn:Ew; [|apply nth_error_None in Ew; lia]. eauto. }
  split; [|split].
  - apply Forall2_nth. split; [now rewrite lset_length|]. intros j d w Hj Hw. destruct (Nat.eq_dec j k) as [->|Hne].
    + rewrite lset_same in Hw by auto. rewrite Hk in Hj. congruence.
    + rewrite lset_other in Hw by auto. refine (proj1 (touch_other _ _ _ _ _ T (F _ _ _ Hj Hw) _)). apply (S k j); auto.
  - intros Hb j d Hj. destruct (Nat.eq_dec j k) as [->|Hne]; [rewrite Hk in Hj; injection Hj as <-; now apply I'|]. destruct (rep_at _ _ Hj) as (w & _ & Rw). apply (touch_inner _ _ _ _ _ T Rw); [apply (S k j); auto|eauto].
  - intros j j' d d' Hj Hj' Hne. destruct (rep_at _ _ Hj) as (w & _ & Rw). destruct (rep_at _ _ Hj') as (w' & _ & Rw').
    destruct (Nat.eq_dec j k) as [->|N1]; [|destruct (Nat.eq_dec j' k) as [->|N2]].
    + rewrite Hk in Hj. injection Hj as <-. refine (proj1 (proj2 (touch_other _ _ _ _ _ T Rw' _))). apply (S k j'); auto.
    + rewrite Hk in Hj'. injection Hj' as <-. apply apart_sym. refine (proj1 (proj2 (touch_other _ _ _ _ _ T Rw _))). apply (S k j); auto.
    + apply (touch_pair _ _ _ _ _ _ _ T Rw Rw'); [apply (S k j)|apply (S k j')|apply (S j j')]; auto.
Qed.
(** a new variable *)
Lemma inv_new b vs h vals c v h' : inv b vs h vals -> c = length (h_maps h) -> touch h h' c -> rep h' c v -> (b = true -> inner h' c) -> inv b (vs ++ [c]) h' (vals ++ [v]).
Proof.
  intros (F & I & S) -> T R' I'. pose proof F as F0. apply Forall2_nth in F as [L F].
  assert (rep_at : forall j d, nth_error vs j = Some d -> exists w, nth_error vals j = Some w /\ rep h d w /\ apart h (length (h_maps h)) d).
  { intros j d Hj. assert (j < length vals)%nat by (rewrite <- L; apply nth_error_Some; congruence). destruct (nth_error vals j) as [w|] eqn:Ew; [|apply nth_error_None in Ew; lia]. exists w. split; [reflexivity|]. split; [eauto|]. apply (fresh_apart _ _ _ w); eauto. }
  assert (split_at : forall j d, nth_error (vs ++ [length (h_maps h)]) j = Some d -> (nth_error vs j = Some d /\ (j < length vs)%nat) \/ (j = length vs /\ d = length (h_maps h))).
  { intros j d Hj. destruct (Nat.lt_ge_cases j (length vs)) as [X|X]; [rewrite nth_error_app1 in Hj by auto; auto|]. right. rewrite nth_error_app2 in Hj by auto. destruct (j - length vs)%nat as [|n] eqn:En; [cbn in Hj; split; [lia|congruence]|]. cbn in Hj. destruct n; discriminate. }
  split; [|split].
  - apply Forall2_app; [|constructor; [exact R'|constructor]]. apply Forall2_nth. split; [exact L|]. intros j d w Hj Hw. destruct (rep_at _ _ Hj) as (w' & Hw' & Rw & A). rewrite Hw in Hw'. injection Hw' as <-. exact (proj1 (touch_other _ _ _ _ _ T Rw A)).
  - intros Hb j d Hj. apply split_at in Hj as [[Hj _]|[_ ->]]; [|now apply I']. destruct (rep_at _ _ Hj) as (w & _ & Rw & A). apply (touch_inner _ _ _ _ _ T Rw A). eauto.
  - intros j j' d d' Hj Hj' Hne. apply split_at in Hj as [[Hj Lj]|[-> ->]]; apply split_at in Hj' as [[Hj' Lj']|[-> ->]]; try congruence.
    + destruct (rep_at _ _ Hj) as (w & _ & Rw & A). destruct (rep_at _ _ Hj') as (w' & _ & Rw' & A'). apply (touch_pair _ _ _ _ _ _ _ T Rw Rw' A A'). apply (S j j'); auto.
    + destruct (rep_at _ _ Hj) as (w & _ & Rw & A). apply apart_sym. exact (proj1 (proj2 (touch_other _ _ _ _ _ T Rw A))).
    + destruct (rep_at _ _ Hj') as (w & _ & Rw & A). exact (proj1 (proj2 (touch_other _ _ _ _ _ T Rw A))).
Qed.

Lemma step_sim i vs h vals : (forall k o, i = ICopy k o -> order_ok o) -> inv true vs h vals ->
  match stepV i vals with
  | Panic e => stepH i (vs, h) = Panic e
  | Ok vals' => exists vs' h', stepH i (vs, h) = Ok (vs', h') /\ inv true vs' h' vals'
  end.
Proof.
  intros Ho HI. destruct i as [ids N nb ntt|k o|k id reads f|k id N nb ntt|k id]; cbn [stepV stepH].
  - destruct (heap_new ids N nb ntt h) as (c & h' & -> & Ec & T & R & I). cbn [bind]. exists (vs ++ [c]), h'. split; [reflexivity|]. apply (inv_new _ vs h vals); auto.
  - pose proof (inv_nth _ _ _ _ k HI) as Hk. destruct (nth_error vals k) as [v|] eqn:Ev; [|destruct Hk as [-> ->]; reflexivity]. destruct Hk as (c & Ec & -> & -> & R & I). cbn [bind].
    pose proof (heap_copy o c h v (Ho k o eq_refl) R) as HC. unfold ctCopyNew, mptr. destruct (sget v "0"%string) as [p|]; cbn [bind]; [|now rewrite HC]. destruct HC as (c' & h' & -> & E' & T & R' & I'). cbn [bind]. exists (vs ++ [c']), h'. split; [reflexivity|]. apply (inv_new _ vs h vals); auto.
  - pose proof (inv_nth _ _ _ _ k HI) as Hk. destruct (nth_error vals k) as [v|] eqn:Ev; [|destruct Hk as [-> ->]; reflexivity]. destruct Hk as (c & Ec & -> & -> & R & I). cbn [bind].
    assert (Er : mapM (fun '(k', id') => let* c' := idx vs k' in loadComp h c' id') reads = mapM (fun '(k', id') => let* v' := idx vals k' in sptr v' id') reads).
    { apply mapM_ext_in. intros [k' id'] _. pose proof (inv_nth _ _ _ _ k' HI) as Hk'. destruct (nth_error vals k') as [v'|]; [|destruct Hk' as [-> ->]; reflexivity]. destruct Hk' as (c' & _ & -> & -> & R' & _). cbn [bind]. now apply rep_comp. }
    rewrite Er. clear Er. destruct (mapM _ reads) as [args|e]; cbn [bind]; [|reflexivity]. pose proof R as (Nv & m & E & Nm & H). rewrite E. cbn [bind]. unfold mptr. specialize (H id). destruct (sget m id) as [a|] eqn:Ea; [|rewrite H; reflexivity]. destruct H as (p & Hp & Hv). rewrite Hv. cbn [bind]. rewrite Hp. cbn [bind].
    destruct (f args p) as [p'|e]; cbn [bind]; [|reflexivity]. assert (HP : polyAt h c id a) by (exists m; auto). destruct (upd_comp h c v id a p p' R HP Hv) as [U1 U2]. destruct (Nat.ltb_spec (plen p) (plen p')) as [Hl|Hl]; [now rewrite (U1 Hl)|].
    destruct (U2 Hl) as (h' & -> & T & _ & UI). destruct (UI (I eq_refl)) as [I' R']. cbn [bind]. exists vs, h'. split; [reflexivity|]. now apply (inv_write _ vs h vals k c v).
  - pose proof (inv_nth _ _ _ _ k HI) as Hk. destruct (nth_error vals k) as [v|] eqn:Ev; [|destruct Hk as [-> ->]; reflexivity]. destruct Hk as (c & Ec & -> & -> & R & I). cbn [bind].
    pose proof (add_comp h c v id (setNTT ntt (newPoly N nb)) R) as A. destruct (allocPoly _ h) as [a h1]. destruct A as (h' & -> & T & R' & I' & _). cbn [bind]. exists vs, h'. split; [reflexivity|]. apply (inv_write _ vs h vals k c v); auto.
  - pose proof (inv_nth _ _ _ _ k HI) as Hk. destruct (nth_error vals k) as [v|] eqn:Ev; [|destruct Hk as [-> ->]; reflexivity]. destruct Hk as (c & Ec & -> & -> & R & I). cbn [bind].
    destruct (del_comp h c v id R) as (h' & -> & T & R' & I'). cbn [bind]. exists vs, h'. split; [reflexivity|]. apply (inv_write _ vs h vals k c v); auto.
Qed.
Lemma run_sim P : forall vs h vals, orders_ok P -> inv true vs h vals ->
  match foldM (fun s i => stepV i s) P vals with
  | Panic e => foldM (fun s i => stepH i s) P (vs, h) = Panic e
  | Ok vals' => exists vs' h', foldM (fun s i => stepH i s) P (vs, h) = Ok (vs', h') /\ inv true vs' h' vals'
  end.
Proof.
  induction P as [|i P IH]; intros vs h vals Ho HI; cbn [foldM]. { eauto. }
  assert (Hi : forall k o, i = ICopy k o -> order_ok o) by (intros k o ->; apply (Ho k); now left).
  pose proof (step_sim i vs h vals Hi HI) as S. destruct (stepV i vals) as [vals'|e]; cbn [bind]; [|now rewrite S]. destruct S as (vs' & h' & -> & HI'). cbn [bind]. apply IH; auto. intros k o X. apply (Ho k). now right.
Qed.
Lemma inv_empty : inv true [] emptyHeap [].
Proof. split; [constructor|]. split; [intros _|]; intros [|k]; discriminate. Qed.


(** ** what is not written through stays as it is, whatever the sharing inside the written objects *)
Lemma bind_ok {A B} (m : res A) (f : A -> res B) y : bind m f = Ok y -> exists x, m = Ok x /\ f x = Ok y.
Proof. destruct m as [x|e]; cbn; [eauto|discriminate]. Qed.
Lemma step_frame i vs h vals vs' h' q v : (forall k o, i = ICopy k o -> order_ok o) -> inv false vs h vals -> nth_error vals q = Some v ->
  avoids q [i] -> stepH i (vs, h) = Ok (vs', h') -> exists vals', inv false vs' h' vals' /\ nth_error vals' q = Some v /\ nth_error vs' q = nth_error vs q.
Proof.
  intros Ho HI Hq Ha HS. specialize (Ha i (or_introl eq_refl)). assert (NT : false = true -> False) by discriminate.
  assert (Lq : (q < length vals)%nat) by (apply nth_error_Some; congruence). assert (LL : length vs = length vals) by (destruct HI as [F _]; now apply Forall2_nth in F as [L _]).
  destruct i as [ids N nb ntt|k o|k id reads f|k id N nb ntt|k id]; cbn [stepH] in HS.
  - destruct (heap_new ids N nb ntt h) as (c & h2 & E & Ec & T & R & I). rewrite E in HS. cbn [bind] in HS. injection HS as <- <-. eexists. split; [now apply (inv_new _ vs h vals); [| | |exact R|]|]. rewrite !nth_error_app1 by lia. auto.
  - pose proof (inv_nth _ _ _ _ k HI) as Hk. destruct (nth_error vals k) as [w|] eqn:Ev; [|destruct Hk as [X _]; rewrite X in HS; discriminate]. destruct Hk as (c & Ec & X & _ & R & I). rewrite X in HS. cbn [bind] in HS.
    pose proof (heap_copy o c h w (Ho k o eq_refl) R) as HC. destruct (sget w "0"%string) as [p|]; [|rewrite HC in HS; discriminate]. destruct HC as (c' & h2 & E & E' & T & R' & I'). rewrite E in HS. cbn [bind] in HS. injection HS as <- <-. eexists. split; [now apply (inv_new _ vs h vals); [| | |exact R'|]|]. rewrite !nth_error_app1 by lia. auto.
  - pose proof (inv_nth _ _ _ _ k HI) as Hk. destruct (nth_error vals k) as [w|] eqn:Ev; [|destruct Hk as [X _]; rewrite X in HS; discriminate]. destruct Hk as (c & Ec & X & _ & R & I). rewrite X in HS. cbn [bind] in HS.
    apply bind_ok in HS as (args & _ & HS). apply bind_ok in HS as (m & Em & HS). apply bind_ok in HS as (a & Ea & HS). apply bind_ok in HS as (p & Ep & HS). apply bind_ok in HS as (p' & _ & HS). apply bind_ok in HS as (h2 & Es & HS). injection HS as <- <-.
    assert (HP : polyAt h c id a). { exists m. split; [exact Em|]. unfold mptr in Ea. destruct (sget m id); congruence. } destruct (rep_poly _ _ _ _ _ R HP) as (p0 & Ep' & Hv). rewrite Ep in Ep'. injection Ep' as <-. destruct (upd_comp h c w id a p p' R HP Hv) as [U1 U2].
    destruct (Nat.lt_ge_cases (plen p) (plen p')) as [Hl|Hl]; [rewrite (U1 Hl) in Es; discriminate|]. destruct (U2 Hl) as (h3 & Es' & T & (w' & R') & _). rewrite Es in Es'. injection Es' as <-.
    exists (lset vals k w'). split; [now apply (inv_write _ vs h vals k c w)|]. rewrite lset_other by (auto; apply nth_error_Some; congruence). auto.
  - pose proof (inv_nth _ _ _ _ k HI) as Hk. destruct (nth_error vals k) as [w|] eqn:Ev; [|destruct Hk as [X _]; rewrite X in HS; discriminate]. destruct Hk as (c & Ec & X & _ & R & I). rewrite X in HS. cbn [bind] in HS.
    pose proof (add_comp h c w id (setNTT ntt (newPoly N nb)) R) as A. destruct (allocPoly _ h) as [a h1]. destruct A as (h2 & E & T & R' & I' & _). rewrite E in HS. cbn [bind] in HS. injection HS as <- <-.
    eexists. split; [now apply (inv_write _ vs h vals k c w); [| | | |exact R'|]|]. rewrite lset_other by (auto; apply nth_error_Some; congruence). auto.
  - pose proof (inv_nth _ _ _ _ k HI) as Hk. destruct (nth_error vals k) as [w|] eqn:Ev; [|destruct Hk as [X _]; rewrite X in HS; discriminate]. destruct Hk as (c & Ec & X & _ & R & I). rewrite X in HS. cbn [bind] in HS.
    destruct (del_comp h c w id R) as (h2 & E & T & R' & I'). rewrite E in HS. cbn [bind] in HS. injection HS as <- <-.
    eexists. split; [now apply (inv_write _ vs h vals k c w); [| | | |exact R'|]|]. rewrite lset_other by (auto; apply nth_error_Some; congruence). auto.
Qed.
Lemma run_frame q v : forall P vs h vals vs' h', orders_ok P -> inv false vs h vals -> nth_error vals q = Some v -> avoids q P ->
  foldM (fun s i => stepH i s) P (vs, h) = Ok (vs', h') -> exists c, nth_error vs q = Some c /\ nth_error vs' q = Some c /\ rep h' c v.
Proof.
  induction P as [|i P IH]; intros vs h vals vs' h' Ho HI Hq Ha HS; cbn [foldM] in HS.
  - injection HS as <- <-. pose proof (inv_nth _ _ _ _ q HI) as Hk. rewrite Hq in Hk. destruct Hk as (c & Ec & _ & _ & R & _). eauto.
  - apply bind_ok in HS as ([vs1 h1] & E1 & HS). destruct (step_frame i vs h vals vs1 h1 q v) as (vals1 & HI1 & Hq1 & Ev); auto. { intros k o ->. apply (Ho k). now left. } { intros j [<-|[]]. apply Ha. now left. }
    destruct (IH vs1 h1 vals1 vs' h') as (c & Ec & Ec' & R); auto. { intros k o X. apply (Ho k). now right. } { intros j Hj. apply Ha. now right. } exists c. rewrite <- Ev. auto.
Qed.
Lemma copy_frame o c h v : order_ok o -> rep h c v -> sget v "0"%string <> None -> exists c2 h2, heapCopyNew o c h = Ok (c2, h2) /\ rep h2 c v /\ rep h2 c2 v /\ apart h2 c c2 /\
  forall P vs' h', orders_ok P -> foldM (fun s i => stepH i s) P ([c; c2], h2) = Ok (vs', h') -> (avoids 0 P -> rep h' c v) /\ (avoids 1 P -> rep h' c2 v).
Proof.
  intros Ho R H0. pose proof (heap_copy o c h v Ho R) as HC. destruct (sget v "0"%string); [|congruence]. destruct HC as (c2 & h2 & E & Ec & T & R2 & I2). exists c2, h2. split; [exact E|].
  assert (A : apart h c2 c) by (apply (fresh_apart _ _ _ v); [lia|exact R]). destruct (touch_other _ _ _ _ _ T R A) as (R' & A' & _). split; [exact R'|]. split; [exact R2|]. split; [now apply apart_sym|]. intros P vs' h' HP HS.
  assert (HI : inv false [c; c2] h2 [v; v]). { split; [constructor; [exact R'|constructor; [exact R2|constructor]]|]. split; [discriminate|]. intros k k' d d' X Y N. destruct k as [|[|k]]; cbn in X; [| |now destruct k]; (destruct k' as [|[|k']]; cbn in Y; [| |now destruct k']); injection X as <-; injection Y as <-; first [congruence|exact A'|now apply apart_sym]. }
  split; intros HA.
  - destruct (run_frame 0 v P _ _ _ _ _ HP HI eq_refl HA HS) as (d & X & _ & Y). cbn in X. congruence.
  - destruct (run_frame 1 v P _ _ _ _ _ HP HI eq_refl HA HS) as (d & X & _ & Y). cbn in X. congruence.
Qed.

(** ** decryption *)
Lemma mapM_len {A B} (f : A -> res B) l l' : mapM f l = Ok l' -> length l' = length l.
Proof. intros H. now apply mapM_ok in H as [X _]. Qed.
Lemma write_len level ls dst d : length ls = (level + 1)%nat -> write level ls dst = Ok d -> plen d = plen dst.
Proof.
  intros H. unfold write. destruct (Nat.leb_spec (plen dst) level) as [L|L]; [discriminate|]. intros X. injection X as <-. unfold plen in *. cbn. rewrite app_length, skipn_length. lia.
Qed.
Lemma lvl1_len r f level a dst d : lvl1 r f level a dst = Ok d -> plen d = plen dst.
Proof. unfold lvl1. intros H. apply bind_ok in H as (ls & X & H). apply mapM_len in X. rewrite seq_length in X. now apply write_len in H. Qed.
Lemma lvl2_len r f level a b dst d : lvl2 r f level a b dst = Ok d -> plen d = plen dst.
Proof. unfold lvl2. intros H. apply bind_ok in H as (ls & X & H). apply mapM_len in X. rewrite seq_length in X. now apply write_len in H. Qed.

Lemma upd_sim vs h vals k c v id f : inv true vs h vals -> nth_error vs k = Some c -> nth_error vals k = Some v -> (forall p p', f p = Ok p' -> (plen p' <= plen p)%nat) ->
  match ctUpd v id f with Ok v' => exists h', updComp c id f h = Ok h' /\ inv true vs h' (lset vals k v') | Panic e => updComp c id f h = Panic e end.
Proof.
  intros HI Hc Hv Hf. pose proof (step_sim (IUpd k id [] (fun _ => f)) vs h vals ltac:(discriminate) HI) as S. cbn [stepV stepH mapM bind] in S. unfold idx in S. rewrite Hc, Hv in S. cbn [bind] in S.
  unfold ctUpd, updComp. destruct (sptr v id) as [p|e]; cbn [bind] in *; [destruct (f p) as [p'|e] eqn:Ef; cbn [bind] in *; [apply Hf in Ef; replace (plen p <? plen p')%nat with false in S by (symmetry; apply Nat.ltb_ge; exact Ef); destruct S as (vs' & h' & S & HI')|]|].
  - destruct (let* m := deref (h_maps h) c in let* a := sptr m id in let* p0 := loadPoly h a in let* p1 := f p0 in storePoly a p1 h) as [h2|e] eqn:E.
    + exists h2. split; [reflexivity|]. apply bind_ok in E as (m & E1 & E). apply bind_ok in E as (a & E2 & E). apply bind_ok in E as (q & E3 & E). apply bind_ok in E as (q' & E4 & E). rewrite E1 in S; cbn [bind] in S. rewrite E2 in S; cbn [bind] in S. rewrite E3 in S; cbn [bind] in S. rewrite E4 in S; cbn [bind] in S. rewrite E in S; cbn [bind] in S. injection S as <- <-. exact HI'.
    + exfalso. destruct (deref (h_maps h) c) as [m|]; cbn [bind] in *; [|discriminate]. destruct (sptr m id) as [a|]; cbn [bind] in *; [|discriminate]. destruct (loadPoly h a) as [q|]; cbn [bind] in *; [|discriminate]. destruct (f q) as [q'|]; cbn [bind] in *; [|discriminate]. destruct (storePoly a q' h); discriminate.
  - destruct (deref (h_maps h) c) as [m|]; cbn [bind] in *; [|congruence]. destruct (sptr m id) as [a|]; cbn [bind] in *; [|congruence]. destruct (loadPoly h a) as [q|]; cbn [bind] in *; [|congruence]. destruct (f q) as [q'|]; cbn [bind] in *; [|congruence]. destruct (storePoly a q' h); cbn [bind] in *; [discriminate|congruence].
  - destruct (deref (h_maps h) c) as [m|]; cbn [bind] in *; [|congruence]. destruct (sptr m id) as [a|]; cbn [bind] in *; [|congruence]. destruct (loadPoly h a) as [q|]; cbn [bind] in *; [|congruence]. destruct (f q) as [q'|]; cbn [bind] in *; [|congruence]. destruct (storePoly a q' h); cbn [bind] in *; [discriminate|congruence].
Qed.
Lemma inv_rep b vs h vals k c v : inv b vs h vals -> nth_error vs k = Some c -> nth_error vals k = Some v -> rep h c v.
Proof. intros (F & _) X Y. apply Forall2_nth in F as [_ F]. eauto. Qed.
Lemma lset_lset {A} (l : list A) k x y : (k < length l)%nat -> lset (lset l k x) k y = lset l k y.
Proof.
  intros H. unfold lset. rewrite firstn_app, firstn_firstn, firstn_length, Nat.min_id, Nat.min_l by lia. rewrite Nat.sub_diag. cbn [firstn]. rewrite app_nil_r. f_equal. f_equal.
  rewrite skipn_app, firstn_length, Nat.min_l by lia. rewrite skipn_all2 by (rewrite firstn_length; lia). cbn [app]. replace (S k - k)%nat with 1%nat by lia. reflexivity.
Qed.
(** the same for a chain of updates of variable k *)
Section Dec.
Context (pp : params).
Definition same_run (vs : list addr) (vals : list ciphertext) (k : nat) (rv : res ciphertext) (rh : res heap) : Prop :=
  match rv with Ok v' => exists h', rh = Ok h' /\ inv true vs h' (lset vals k v') | Panic e => rh = Panic e end.
Lemma same_bind vs vals k rv rh (fv : ciphertext -> res ciphertext) (fh : heap -> res heap) : same_run vs vals k rv rh ->
  (forall v h, inv true vs h (lset vals k v) -> same_run vs vals k (fv v) (fh h)) -> same_run vs vals k (bind rv fv) (bind rh fh).
Proof. unfold same_run. intros H1 H2. destruct rv as [v|e]; [|rewrite H1; reflexivity]. destruct H1 as (h & -> & HI). cbn [bind]. now apply H2. Qed.
Lemma pd_sim vs vals k c v h sk : inv true vs h (lset vals k v) -> nth_error vs k = Some c -> (k < length vals)%nat -> same_run vs vals k (PartialDecrypt pp v sk) (heapPartialDecrypt pp c sk h).
Proof.
  intros HI Hc Hk. unfold PartialDecrypt, heapPartialDecrypt.
  assert (HU : forall v h id f, inv true vs h (lset vals k v) -> (forall p p', f p = Ok p' -> (plen p' <= plen p)%nat) -> same_run vs vals k (ctUpd v id f) (updComp c id f h)).
  { intros v0 h0 id f HI0 Hf. pose proof (upd_sim vs h0 (lset vals k v0) k c v0 id f HI0 Hc (lset_same _ _ _ Hk) Hf) as S. unfold same_run. destruct (ctUpd v0 id f); [|exact S]. destruct S as (h' & E & I'). rewrite lset_lset in I' by auto. eauto. }
  assert (HR : forall v h id, inv true vs h (lset vals k v) -> loadComp h c id = sptr v id). { intros v0 h0 id HI0. apply rep_comp. apply (inv_rep _ _ _ _ k _ _ HI0 Hc). now apply lset_same. }
  unfold heapLevel, ctLevel. rewrite (HR v h _ HI). destruct (sptr v "0"%string) as [p0|e]; cbn [bind]; [|reflexivity]. destruct (plen p0) as [|level]; cbn [bind]; [reflexivity|].
  rewrite (HR v h _ HI). destruct (sptr v (sk_ID sk)) as [p|e]; cbn [bind]; [|reflexivity].
  apply same_bind. { destruct (negb (p_ntt p)); [|now exists h]. apply HU; auto. intros q q' E. apply lvl1_len in E. lia. }
  intros v1 h1 I1. apply same_bind. { apply HU; auto. intros q q' E. apply lvl2_len in E. lia. }
  intros v2 h2 I2. apply same_bind. { destruct (negb (p_ntt p)); [|now exists h2]. apply HU; auto. intros q q' E. apply lvl1_len in E. lia. }
  intros v3 h3 I3. rewrite (HR v3 h3 _ I3). destruct (sptr v3 (sk_ID sk)) as [p3|e]; cbn [bind]; [|reflexivity].
  apply same_bind. { apply HU; auto. intros q q' E. apply lvl2_len in E. lia. }
  intros v4 h4 I4. pose proof (step_sim (IDel k (sk_ID sk)) vs h4 (lset vals k v4) ltac:(discriminate) I4) as S. cbn [stepV stepH] in S. unfold idx in S. rewrite Hc, lset_same in S by auto. cbn [bind] in S. destruct S as (vs' & h' & S & I').
  apply bind_ok in S as (h5 & S & S'). injection S' as <- <-. exists h5. split; [exact S|]. now rewrite lset_lset in I' by auto.
Qed.
Lemma rep_count h c v m : rep h c v -> deref (h_maps h) c = Ok m -> length (mkeys m) = length (mkeys v).
Proof.
  intros R E. assert (X : forall id, In id (mkeys m) <-> In id (mkeys v)) by (intros; now apply (rep_keys h c)). pose proof R as (Nv & m' & E' & Nm & _). rewrite E in E'. injection E' as <-.
  apply Nat.le_antisymm; apply NoDup_incl_length; auto; intros id; apply X.
Qed.
Lemma lset_app_r {A} (l : list A) x y : lset (l ++ [x]) (length l) y = l ++ [y].
Proof. unfold lset. rewrite firstn_app, firstn_all, Nat.sub_diag. cbn [firstn]. rewrite app_nil_r. now rewrite skipn_all2 by (rewrite app_length; cbn [length]; lia). Qed.
Lemma lset_app_l {A} (l r : list A) k x : (k < length l)%nat -> lset (l ++ r) k x = lset l k x ++ r.
Proof. intros H. unfold lset. rewrite firstn_app, skipn_app, (proj2 (Nat.sub_0_le k (length l))), (proj2 (Nat.sub_0_le (S k) (length l))) by lia. change (skipn 0 r) with r. change (firstn 0 r) with (@nil A). rewrite app_nil_r. now rewrite <- app_assoc. Qed.
Lemma dec_sim o kc kd vs vals c d h v p sks : order_ok o -> inv true vs h vals -> nth_error vs kc = Some c -> nth_error vals kc = Some v -> nth_error vs kd = Some d -> nth_error vals kd = Some [("0"%string, p)] -> kc <> kd ->
  match Decrypt pp o v sks p with
  | Ok p' => exists h' tmp last, heapDecrypt pp o c sks d h = Ok h' /\ inv true (vs ++ [tmp]) h' (lset vals kd [("0"%string, p')] ++ [last])
  | Panic e => heapDecrypt pp o c sks d h = Panic e
  end.
Proof.
  intros Ho HI Hc Hv Hd Hp Hne. assert (Ld : (kd < length vals)%nat) by (apply nth_error_Some; congruence). assert (Lc : (kc < length vals)%nat) by (apply nth_error_Some; congruence). assert (LL : length vs = length vals) by (destruct HI as [F _]; now apply Forall2_nth in F as [L _]). unfold Decrypt, heapDecrypt. pose proof (inv_rep _ _ _ _ kc _ _ HI Hc Hv) as Rc. pose proof (inv_rep _ _ _ _ kd _ _ HI Hd Hp) as Rd.
  unfold heapLevel, ctLevel. rewrite (rep_comp _ _ _ _ Rc). destruct (sptr v "0"%string) as [c0|e] eqn:E0; cbn [bind]; [|reflexivity]. destruct (plen c0) as [|cl]; cbn [bind]; [reflexivity|].
  rewrite (rep_comp _ _ _ _ Rd). change (sptr [("0"%string, p)] "0"%string) with (@Ok poly p). cbn [bind]. destruct (polyLevel p) as [pl|e]; cbn [bind]; [|reflexivity]. set (level := Nat.min cl pl).
  pose proof (upd_sim _ _ _ kd d _ "0"%string (pTrunc (level + 1)) HI Hd Hp) as U. assert (HT : forall q q', pTrunc (level + 1) q = Ok q' -> (plen q' <= plen q)%nat). { unfold pTrunc. intros q q'. destruct (Nat.leb_spec (level + 1) (plen q)); [|discriminate]. intros X. injection X as <-. unfold plen in *. cbn. rewrite firstn_length. lia. }
  specialize (U HT). unfold ctUpd in U. change (sptr [("0"%string, p)] "0"%string) with (@Ok poly p) in U. cbn [bind] in U. destruct (pTrunc (level + 1) p) as [p1|e]; cbn [bind] in *; [|now rewrite U]. destruct U as (h1 & -> & I1). cbn [bind]. change (inv true vs h1 (lset vals kd [("0"%string, p1)])) in I1. set (vals1 := lset vals kd [("0"%string, p1)]) in *.
  assert (Hv1 : nth_error vals1 kc = Some v) by (unfold vals1; now rewrite lset_other by auto). assert (Lv : length vals1 = length vals) by (now apply lset_length).
  pose proof (heap_copy o c h1 v Ho (inv_rep _ _ _ _ kc _ _ I1 Hc Hv1)) as HC. unfold ctCopyNew. rewrite E0. cbn [bind]. unfold mptr in E0. destruct (sget v "0"%string) as [q0|]; [|discriminate]. destruct HC as (tmp & h2 & -> & Et & T & R2 & In2). cbn [bind].
  pose proof (inv_new true _ _ _ tmp v h2 I1 Et T R2 (fun _ => In2)) as I2.
  pose proof R2 as (_ & m & Em & _). rewrite Em. cbn [bind]. pose proof (rep_keys h2 tmp v m) as RK.
  destruct (ctIDSet_ok o v Ho) as (s & Es & _ & Hs). rewrite Es. cbn [bind].
  assert (Em' : exists s', foldM (fun s id => if String.eqb id "0" then Ok s else idAdd s id) (o 0%nat (mkeys m)) NewIDSet = Ok s' /\ forall x, idHas s' x = idHas s x).
  { assert (K : exists w, mkeys w = mkeys m /\ True) by (exists (map (fun id => (id, mkPoly false [])) (mkeys m)); split; [|exact I]; unfold mkeys; rewrite map_map; cbn; apply map_id). destruct K as (w & Kw & _). destruct (ctIDSet_ok o w Ho) as (s' & Es' & _ & Hs'). unfold ctIDSet in Es'. rewrite Kw in Es'. exists s'. split; [exact Es'|].
    intros x. apply eq_true_iff_eq. rewrite !idHas_In, Hs, Hs', Kw. now rewrite (RK x R2 Em). }
  destruct Em' as (s' & -> & Hss). cbn [bind].
  set (fv := fun tmp k => let* sk := sptr sks k in if idHas s (sk_ID sk) then PartialDecrypt pp tmp sk else Ok tmp). set (fh := fun h k => let* sk := sptr sks k in if idHas s' (sk_ID sk) then heapPartialDecrypt pp tmp sk h else Ok h).
  set (n := length vals). set (vals2 := vals1 ++ [v]) in *. assert (En : forall x, lset vals2 n x = vals1 ++ [x]) by (intros x; unfold n; rewrite <- Lv; apply lset_app_r). assert (Ht : nth_error (vs ++ [tmp]) n = Some tmp) by (unfold n; rewrite <- LL, nth_error_app2, Nat.sub_diag by lia; reflexivity).
  assert (Hd2 : nth_error (vs ++ [tmp]) kd = Some d) by (now rewrite nth_error_app1 by lia). assert (Hn : (n < length vals2)%nat) by (unfold n, vals2; rewrite app_length; cbn [length]; lia).
  assert (L : forall ks v0 h0, inv true (vs ++ [tmp]) h0 (lset vals2 n v0) -> same_run (vs ++ [tmp]) vals2 n (foldM fv ks v0) (foldM fh ks h0)).
  { induction ks as [|k ks IH]; intros v0 h0 I0; cbn [foldM]; [now exists h0|]. apply same_bind; [|exact IH]. unfold fv, fh. destruct (sptr sks k) as [sk|e]; cbn [bind]; [|reflexivity]. rewrite Hss. destruct (idHas s (sk_ID sk)); [|now exists h0]. apply pd_sim; auto. }
  specialize (L (o 1%nat (mkeys sks)) v h2). rewrite En in L. specialize (L I2). unfold same_run in L. destruct (foldM fv _ v) as [w|e]; [|rewrite L; reflexivity]. destruct L as (h3 & -> & I3). cbn [bind]. rewrite En in I3. assert (Hw : nth_error (vals1 ++ [w]) n = Some w) by (unfold n; rewrite <- Lv, nth_error_app2, Nat.sub_diag by lia; reflexivity). assert (Hd3 : nth_error (vals1 ++ [w]) kd = Some [("0"%string, p1)]) by (rewrite nth_error_app1 by lia; now apply lset_same).
  pose proof (inv_rep _ _ _ _ n _ _ I3 Ht Hw) as R3. pose proof R3 as (_ & m3 & Em3 & _). rewrite Em3. cbn [bind]. rewrite (rep_count _ _ _ _ R3 Em3). destruct (1 <? List.length (mkeys w))%nat; [reflexivity|].
  rewrite (rep_comp _ _ _ _ R3). destruct (sptr w "0"%string) as [w0|e]; cbn [bind]; [|reflexivity].
  assert (HL : forall q q', ReduceLvl (ringQ pp) level w0 q = Ok q' -> (plen q' <= plen q)%nat) by (intros q q' E; apply lvl1_len in E; lia).
  pose proof (upd_sim _ _ _ kd d _ "0"%string (fun p => ReduceLvl (ringQ pp) level w0 p) I3 Hd2 Hd3 HL) as U. unfold ctUpd in U. change (sptr [("0"%string, p1)] "0"%string) with (@Ok poly p1) in U. cbn [bind] in U.
  destruct (ReduceLvl (ringQ pp) level w0 p1) as [p2|e]; cbn [bind] in U; [|exact U]. destruct U as (h4 & -> & I4). exists h4, tmp, w. split; [reflexivity|].
  assert (X : lset (vals1 ++ [w]) kd (sset [("0"%string, p1)] "0"%string p2) = lset vals kd [("0"%string, p2)] ++ [w]). { rewrite lset_app_l by lia. unfold vals1. now rewrite lset_lset by auto. }
  rewrite X in I4. exact I4.
Qed.
Lemma ckdec_sim o kc kd vs vals c d h v p sks : order_ok o -> inv true vs h vals -> nth_error vs kc = Some c -> nth_error vals kc = Some v -> nth_error vs kd = Some d -> nth_error vals kd = Some [("0"%string, p)] -> kc <> kd ->
  match Decrypt pp o v sks p with
  | Ok p' => exists h' extra lasts, heapCkDecrypt pp o c sks d h = Ok h' /\ inv true (vs ++ extra) h' (lset vals kd [("0"%string, p')] ++ lasts)
  | Panic e => heapCkDecrypt pp o c sks d h = Panic e
  end.
Proof.
  intros Ho HI Hc Hv Hd Hp Hne. assert (Ld : (kd < length vals)%nat) by (apply nth_error_Some; congruence). assert (LL : length vs = length vals) by (destruct HI as [F _]; now apply Forall2_nth in F as [L _]). unfold heapCkDecrypt. pose proof (heap_copy o c h v Ho (inv_rep _ _ _ _ kc _ _ HI Hc Hv)) as HC.
  destruct (sget v "0"%string) as [q0|] eqn:E0. 2:{ rewrite HC. unfold Decrypt, ctLevel, mptr. rewrite E0. reflexivity. }
  destruct HC as (t & h1 & -> & Et & T & R1 & I1). cbn [bind]. pose proof (inv_new true _ _ _ t v h1 HI Et T R1 (fun _ => I1)) as I2.
  assert (Ht : nth_error (vs ++ [t]) (length vs) = Some t) by (rewrite nth_error_app2, Nat.sub_diag by lia; reflexivity). assert (Hw : nth_error (vals ++ [v]) (length vs) = Some v) by (rewrite LL, nth_error_app2, Nat.sub_diag by lia; reflexivity).
  pose proof (dec_sim o (length vs) kd (vs ++ [t]) (vals ++ [v]) t d h1 v p sks Ho I2 Ht Hw) as S. rewrite !nth_error_app1 in S by lia. specialize (S Hd Hp ltac:(lia)). destruct (Decrypt pp o v sks p) as [p'|e]; [|exact S].
  destruct S as (h' & tmp & last & E & I3). exists h', [t; tmp], [v; last]. split; [exact E|]. rewrite <- !app_assoc in I3. cbn [app] in I3.
  assert (X : lset (vals ++ [v]) kd [("0"%string, p')] = lset vals kd [("0"%string, p')] ++ [v]). { now apply lset_app_l. }
  rewrite X, <- app_assoc in I3. exact I3.
Qed.

End Dec.

(** ** the statements of Props_Heap.v *)
Lemma programs P : orders_ok P -> match runV P with Panic e => runH P = Panic e | Ok vals => exists vs h, runH P = Ok (vs, h) /\ Forall2 (rep h) vs vals end.
Proof.
  intros Ho. pose proof (run_sim P [] emptyHeap [] Ho inv_empty) as S. unfold runV, runH. destruct (foldM _ P []) as [vals|e]; [|exact S]. destruct S as (vs & h & E & I & _). eauto.
Qed.
Lemma decrypt_reached pp P vs h vals kc kd c d v p o sks : orders_ok P -> runH P = Ok (vs, h) -> runV P = Ok vals -> order_ok o ->
  nth_error vs kc = Some c -> nth_error vals kc = Some v -> nth_error vs kd = Some d -> nth_error vals kd = Some [("0"%string, p)] -> kc <> kd ->
  match Decrypt pp o v sks p with
  | Ok p' => (exists h', heapDecrypt pp o c sks d h = Ok h' /\ Forall2 (rep h') vs (lset vals kd [("0"%string, p')])) /\
             (exists h', heapCkDecrypt pp o c sks d h = Ok h' /\ Forall2 (rep h') vs (lset vals kd [("0"%string, p')]))
  | Panic e => heapDecrypt pp o c sks d h = Panic e /\ heapCkDecrypt pp o c sks d h = Panic e
  end.
Proof.
  intros HP EH EV Ho Hc Hv Hd Hp Hne. pose proof (run_sim P [] emptyHeap [] HP inv_empty) as S. unfold runV, runH in EH, EV. rewrite EV, EH in S. destruct S as (vs' & h0 & E & HI). injection E as <- <-.
  pose proof (dec_sim pp o kc kd vs vals c d h v p sks Ho HI Hc Hv Hd Hp Hne) as D1. pose proof (ckdec_sim pp o kc kd vs vals c d h v p sks Ho HI Hc Hv Hd Hp Hne) as D2.
  assert (Ld : (kd < length vals)%nat) by (apply nth_error_Some; congruence). assert (LL : length vs = length vals) by (destruct HI as [F _]; now apply Forall2_nth in F as [L _]).
  assert (K : forall h' ex la p', inv true (vs ++ ex) h' (lset vals kd [("0"%string, p')] ++ la) -> Forall2 (rep h') vs (lset vals kd [("0"%string, p')])).
  { intros h' ex la p' (F & _). apply Forall2_nth in F as [_ F]. apply Forall2_nth. assert (L2 : length vs = length (lset vals kd [("0"%string, p')])) by (now rewrite lset_length). split; [exact L2|]. intros k x y X Y. apply (F k); rewrite nth_error_app1; auto; apply nth_error_Some; congruence. }
  destruct (Decrypt pp o v sks p) as [p'|e]; [|auto]. destruct D1 as (h1 & t & l & E1 & I1). destruct D2 as (h2 & t2 & l2 & E2 & I2). split; [exists h1|exists h2]; eauto.
Qed.
