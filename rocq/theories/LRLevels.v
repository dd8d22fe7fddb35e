(** The levels the logistic-regression programs need, and the runs of the levels and scales on the shipped parameters. *)
From Coq Require Import ZArith List Lia Bool.
From Coq.Floats Require Import SpecFloat.
From Verif Require Import Go F64 Spec LR SpecEv LRShadow.
Import ListNotations.
Local Open Scope Z_scope.
Local Arguments Nat.min : simpl never.
Local Arguments Nat.sub : simpl never.

Notation LO := levelOps.
Lemma l_mul {B} f a b (k : nat -> SM unit B) : (0 < Nat.min a b)%nat -> sbind (o_mul LO f a b) k tt = k (Nat.min a b - 1)%nat tt.
Proof. intros H. unfold sbind, levelOps, o_mul, slift. destruct (Nat.min a b); [lia|]. cbn [bind]. f_equal. lia. Qed.
Lemma l_mul0 {B} f a b (k : nat -> SM unit B) : Nat.min a b = O -> sbind (o_mul LO f a b) k tt = Panic PIndex.
Proof. intros H. unfold sbind, levelOps, o_mul, slift. now rewrite H. Qed.
Lemma l_mulp {B} a p (k : nat -> SM unit B) : (0 < a)%nat -> sbind (o_mulp LO a p) k tt = k (a - 1)%nat tt.
Proof. intros H. unfold sbind, levelOps, o_mulp, slift. destruct a; [lia|]. cbn [bind]. f_equal. lia. Qed.
Lemma l_mulp0 {B} p (k : nat -> SM unit B) a : a = O -> sbind (o_mulp LO a p) k tt = Panic PIndex.
Proof. intros ->. reflexivity. Qed.
Lemma l_add {B} a b (k : nat -> SM unit B) : sbind (o_add LO a b) k tt = k (Nat.min a b) tt. Proof. reflexivity. Qed.
Lemma l_mull {B} f a b (k : nat -> SM unit B) : (0 < a <= b)%nat -> sbind (o_mul LO f a b) k tt = k (a - 1)%nat tt.
Proof. intros H. rewrite l_mul, Nat.min_l by lia. reflexivity. Qed.
Lemma l_mulr {B} f a b (k : nat -> SM unit B) : (0 < b <= a)%nat -> sbind (o_mul LO f a b) k tt = k (b - 1)%nat tt.
Proof. intros H. rewrite l_mul, Nat.min_r by lia. reflexivity. Qed.
Lemma l_addl {B} a b (k : nat -> SM unit B) : (a <= b)%nat -> sbind (o_add LO a b) k tt = k a tt.
Proof. intros H. rewrite l_add, Nat.min_l by lia. reflexivity. Qed.
Lemma l_addr {B} a b (k : nat -> SM unit B) : (b <= a)%nat -> sbind (o_add LO a b) k tt = k b tt.
Proof. intros H. rewrite l_add, Nat.min_r by lia. reflexivity. Qed.
Lemma l_loop fuel i bound f a : 1 <= i -> bound - i <= Z.of_nat fuel -> sumLoop LO fuel i bound f a tt = Ok (a, tt).
Proof.
  revert i; induction fuel as [|fuel IH]; intros i Hi Hf; cbn [sumLoop]; destruct (Z.ltb_spec i bound); try reflexivity; [lia|].
  change (sbind (o_rot LO a (f i)) (fun r => let! c := o_add LO a r in sumLoop LO fuel (2 * i) bound f c) tt) with (sumLoop LO fuel (2 * i) bound f (Nat.min a a) tt). rewrite Nat.min_id. apply IH; lia.
Qed.
Lemma l_rotSum {B} bound f a (k : nat -> SM unit B) : sbind (rotSum LO bound f a) k tt = k a tt.
Proof. unfold sbind, rotSum. rewrite l_loop by lia. reflexivity. Qed.
Lemma l_idx {A B} (l : list A) i (k : A -> SM unit B) : (i < length l)%nat -> exists p, sbind (slift (idx l i)) k tt = k p tt.
Proof. intros H. unfold idx, sbind, slift. destruct (nth_error l i) eqn:E; [eexists; reflexivity|]. apply nth_error_None in E. lia. Qed.
Lemma l_bind3 {A B C} (m : SM unit A) (f : A -> SM unit B) (k : B -> SM unit C) : forall s, sbind (sbind m f) k s = sbind m (fun x => sbind (f x) k) s.
Proof. intros s. unfold sbind. destruct (m s) as [[a s1]|]; reflexivity. Qed.
Lemma l_sumCol {B} a p r c (k : nat -> SM unit B) : (0 < a)%nat -> sbind (SumColVec LO a p r c) k tt = k (a - 1)%nat tt.
Proof. intros H. unfold SumColVec. rewrite l_bind3, l_rotSum, l_bind3, l_mulp by auto. apply l_rotSum. Qed.
Lemma l_sumCol0 {B} a p r c (k : nat -> SM unit B) : a = O -> sbind (SumColVec LO a p r c) k tt = Panic PIndex.
Proof. intros H. unfold SumColVec. rewrite l_bind3, l_rotSum, l_bind3, l_mulp0; auto. Qed.

Lemma ok1 (a a' : nat) : a = a' -> Ok (a, tt) = Ok (a', tt). Proof. congruence. Qed.
Lemma ok2 (a a' b b' : nat) : a = a' -> b = b' -> Ok ((a, b), tt) = Ok ((a', b'), tt). Proof. congruence. Qed.
Lemma ok3 (a a' b b' c c' : nat) : a = a' -> b = b' -> c = c' -> Ok ((a, b), c, tt) = Ok ((a', b'), c', tt). Proof. congruence. Qed.

Section L.
Context {ct pt : Type} (K : lrconst ct pt) (top n : nat).
Context (H2 : (n <= length (k_2 K))%nat) (H4 : (n <= length (k_4 K))%nat) (H6 : (n <= length (k_6 K))%nat) (H7 : (n <= length (k_7 K))%nat).
Notation KL := (levelConst top K).
Ltac ls := first [rewrite l_mull by lia|rewrite l_mulr by lia|rewrite l_mul0 by lia|rewrite l_mulp by lia|rewrite l_mulp0 by lia|rewrite l_addl by lia|rewrite l_addr by lia|rewrite l_rotSum|rewrite l_sumCol by lia|rewrite l_sumCol0 by lia|
  match goal with |- sbind (slift (idx ?l ?i)) ?k tt = _ => let p := fresh "p" in let E := fresh "E" in destruct (l_idx l i k) as [p E]; [cbn [k_2 k_4 k_6 k_7 levelConst mapConst]; rewrite map_length; lia|rewrite E; clear E; cbv beta] end].
Lemma level_iter r c l a : (l <= top)%nat -> (a < n)%nat -> trainIter LO KL r c top (l, l) a tt = if (4 <=? l)%nat then Ok ((l - 4, l - 4)%nat, tt) else Panic PIndex.
Proof.
  intros Hl Ha. unfold trainIter, SumRowVec. change (k_5 KL) with top. destruct (Nat.leb_spec 4 l) as [H|H].
  - repeat ls. unfold sret. first [apply ok3|apply ok2|apply ok1]; lia.
  - assert (C : l = 0%nat \/ l = 1%nat \/ l = 2%nat \/ l = 3%nat) by lia. destruct C as [->|[->|[->| ->]]]; repeat ls; reflexivity.
Qed.
Lemma level_infer nf l : (l <= top)%nat -> infer LO KL nf top l tt = if (3 <=? l)%nat then Ok ((l - 3)%nat, tt) else Panic PIndex.
Proof.
  intros Hl. unfold infer. change (k_5 KL) with top. change (k_9 KL) with top. destruct (Nat.leb_spec 3 l) as [H|H].
  - repeat ls. cbn [o_add levelOps]. unfold sret. first [apply ok3|apply ok2|apply ok1]; lia.
  - assert (C : l = 0%nat \/ l = 1%nat \/ l = 2%nat) by lia. destruct C as [->|[->| ->]]; repeat ls; reflexivity.
Qed.
Lemma level_train r c m : forall j l, (l <= top)%nat -> (j + m <= n)%nat ->
  sfold (trainIter LO KL r c top) (seq j m) (l, l) tt = if (4 * m <=? l)%nat then Ok ((l - 4 * m, l - 4 * m)%nat, tt) else Panic PIndex.
Proof.
  induction m as [|m IH]; intros j l Hl Hj; cbn [seq sfold].
  - destruct (Nat.leb_spec (4 * 0) l); [|lia]. unfold sret. first [apply ok3|apply ok2|apply ok1]; lia.
  - unfold sbind at 1. rewrite level_iter by lia. destruct (Nat.leb_spec 4 l) as [H|H]; cbn [bind].
    + rewrite IH by lia. destruct (Nat.leb_spec (4 * m) (l - 4)), (Nat.leb_spec (4 * S m) l); try lia; [apply ok2; lia|reflexivity].
    + destruct (Nat.leb_spec (4 * S m) l); [lia|reflexivity].
Qed.
Theorem level_run r c nf : lrRun LO KL r c n nf top (top, top) top tt =
  if (4 * n + 3 <=? top)%nat then Ok ((top - 4 * n, top - 4 * n)%nat, (top - (4 * n + 3))%nat, tt) else Panic PIndex.
Proof.
  unfold lrRun, train. unfold sbind at 1. rewrite level_train by lia. destruct (Nat.leb_spec (4 * n) top) as [H|H]; cbn [bind].
  - unfold sbind. cbn [snd]. rewrite level_infer by lia. destruct (Nat.leb_spec 3 (top - 4 * n)), (Nat.leb_spec (4 * n + 3) top); try lia; cbn [bind]; [|reflexivity]. unfold sret. first [apply ok3|apply ok2|apply ok1]; lia.
  - destruct (Nat.leb_spec (4 * n + 3) top); [lia|reflexivity].
Qed.
End L.
