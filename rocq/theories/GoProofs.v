(** Reasoning about the Go-level combinators. *)
From Coq Require Import ZArith List Lia.
From Verif Require Import Go.
Import ListNotations.

Lemma foldM_app {A S} (f : S -> A -> res S) l1 l2 s :
  foldM f (l1 ++ l2) s = bind (foldM f l1 s) (foldM f l2).
Proof.
  revert s. induction l1 as [|a l1 IH]; intros s; cbn; [reflexivity|].
  destruct (f s a); cbn; auto.
Qed.
Lemma foldM_seq_inv {St} (f : St -> nat -> res St) (I : nat -> St -> Prop) k s :
  (forall i st, i < k -> I i st -> exists st', f st i = Ok st' /\ I (i + 1) st') ->
  I 0 s -> exists st, foldM f (seq 0 k) s = Ok st /\ I k st.
Proof.
  intros Hs H0. induction k as [|k IH].
  - exists s. auto.
  - destruct IH as (st & E & HI). { intros; apply Hs; auto. }
    rewrite seq_S, foldM_app, E. cbn.
    destruct (Hs k st) as (st' & E' & HI'); auto.
    rewrite E'. cbn. exists st'. split; auto. now replace (S k) with (k + 1) by lia.
Qed.
Lemma mapM_seq_spec {B} (f : nat -> res B) (R : nat -> B -> Prop) n a :
  (forall i, a <= i < a + n -> exists b, f i = Ok b /\ R i b) ->
  exists bs, mapM f (seq a n) = Ok bs /\ length bs = n /\
     (forall d i, i < n -> R (a + i) (nth i bs d)).
Proof.
  revert a. induction n as [|n IH]; intros a H; cbn.
  - exists []. repeat split; auto. intros; lia.
  - destruct (H a) as (b & E & Hb); [lia|].
    destruct (IH (S a)) as (bs & E' & Hl & Hr). { intros; apply H; lia. }
    exists (b :: bs). rewrite E; cbn. rewrite E'; cbn. repeat split; auto.
    intros d [|i] Hi; cbn. { now rewrite Nat.add_0_r. }
    rewrite Nat.add_succ_r, <- Nat.add_succ_l. apply Hr. lia.
Qed.
Lemma mapM_ok {A B} (f : A -> res B) (g : A -> B) l :
  (forall a, In a l -> f a = Ok (g a)) -> mapM f l = Ok (map g l).
Proof.
  induction l as [|a l IH]; intros H; cbn; auto.
  rewrite H by (left; auto). cbn. rewrite IH by (intros; apply H; right; auto). reflexivity.
Qed.
Lemma mapM_length {A B} (f : A -> res B) l bs : mapM f l = Ok bs -> length bs = length l.
Proof.
  revert bs. induction l as [|a l IH]; cbn; intros bs H; [now inversion H|].
  destruct (f a); cbn in H; [|discriminate]. destruct (mapM f l); cbn in H; [|discriminate].
  inversion H; subst. cbn. f_equal. now apply IH.
Qed.
Lemma idx_nth {A} (l : list A) i d : i < length l -> idx l i = Ok (nth i l d).
Proof. intros H. unfold idx. now rewrite (nth_error_nth' l d H). Qed.
Lemma idx_oob {A} (l : list A) i : length l <= i -> idx l i = Panic PIndex.
Proof. intros H. unfold idx. apply nth_error_None in H. now rewrite H. Qed.
Lemma idxZ_nth {A} (l : list A) (i : Z) d : (0 <= i < Z.of_nat (length l))%Z -> idxZ l i = Ok (nth (Z.to_nat i) l d).
Proof.
  intros H. unfold idxZ. destruct (Z.ltb_spec i 0); [lia|]. apply idx_nth. lia.
Qed.
Lemma nth_map_seq {B} (f : nat -> B) n i d : i < n -> nth i (map f (seq 0 n)) d = f i.
Proof.
  intros H. rewrite (nth_indep _ d (f 0)) by (now rewrite map_length, seq_length).
  rewrite map_nth, seq_nth by auto. reflexivity.
Qed.
Lemma nth_map_combine {A B} (f : nat * A -> B) l i d da : i < length l ->
  nth i (map f (combine (seq 0 (length l)) l)) d = f (i, nth i l da).
Proof.
  intros H. assert (L : length (combine (seq 0 (length l)) l) = length l).
  { rewrite combine_length, seq_length. lia. }
  rewrite (nth_indep _ d (f (0, da))) by (rewrite map_length; lia).
  rewrite map_nth. f_equal. rewrite combine_nth by (now rewrite seq_length).
  now rewrite seq_nth.
Qed.
