(** Number-theory helpers on Z (congruences, products, CRT). *)
From Coq Require Import ZArith Znumtheory List Lia Setoid Morphisms.
Import ListNotations.
Local Open Scope Z_scope.

Definition cong (q x y : Z) : Prop := (q | x - y).

Lemma cong_refl q x : cong q x x.
Proof. exists 0. ring. Qed.
Lemma cong_sym q x y : cong q x y -> cong q y x.
Proof. intros [k H]. exists (-k). lia. Qed.
Lemma cong_trans q x y z : cong q x y -> cong q y z -> cong q x z.
Proof. intros [k H] [l H']. exists (k+l). lia. Qed.
Lemma cong_add q a b c d : cong q a b -> cong q c d -> cong q (a+c) (b+d).
Proof. intros [k H] [l H']. exists (k+l). lia. Qed.
Lemma cong_sub q a b c d : cong q a b -> cong q c d -> cong q (a-c) (b-d).
Proof. intros [k H] [l H']. exists (k-l). lia. Qed.
Lemma cong_opp q a b : cong q a b -> cong q (-a) (-b).
Proof. intros [k H]. exists (-k). lia. Qed.
Lemma cong_mul q a b c d : cong q a b -> cong q c d -> cong q (a*c) (b*d).
Proof.
  intros [k H] [l H']. exists (k*c + b*l).
  replace (a*c - b*d) with ((a-b)*c + b*(c-d)) by ring. rewrite H, H'. ring.
Qed.
Lemma cong_pow q a b n : 0 <= n -> cong q a b -> cong q (a^n) (b^n).
Proof.
  intros Hn H. revert n Hn. apply natlike_ind.
  - apply cong_refl.
  - intros n Hn IH. rewrite !Z.pow_succ_r by lia. now apply cong_mul.
Qed.
Lemma cong_mod q x : q <> 0 -> cong q (x mod q) x.
Proof. intros. exists (-(x/q)). pose proof (Z.div_mod x q). lia. Qed.
Lemma cong_eq_mod q x y : q <> 0 -> cong q x y <-> x mod q = y mod q.
Proof.
  intros Hq. split.
  - intros [k H]. replace x with (y + k*q) by lia. now apply Z_mod_plus_full.
  - intros H. exists (x/q - y/q).
    pose proof (Z.div_mod x q Hq). pose proof (Z.div_mod y q Hq). lia.
Qed.
Lemma cong_small q x y : 0 <= x < q -> 0 <= y < q -> cong q x y -> x = y.
Proof.
  intros Hx Hy H. apply (proj1 (cong_eq_mod q x y ltac:(lia))) in H.
  now rewrite !Z.mod_small in H by lia.
Qed.
Lemma cong_0 x y : cong 0 x y <-> x = y.
Proof.
  split. - intros [k H]. lia. - intros ->. apply cong_refl.
Qed.
Lemma cong_1 x y : cong 1 x y.
Proof. exists (x-y). lia. Qed.
Lemma cong_divide d q x y : (d | q) -> cong q x y -> cong d x y.
Proof. intros H H'. eapply Z.divide_trans; eauto. Qed.
Lemma cong_mul_cancel q k x y : rel_prime k q -> cong q (k*x) (k*y) -> cong q x y.
Proof.
  intros Hr H. unfold cong in *. rewrite <- Z.mul_sub_distr_l in H.
  apply Gauss with k; auto. now apply rel_prime_sym.
Qed.
Lemma cong_multiple q x k : cong q (x + k * q) x.
Proof. exists k. ring. Qed.
Lemma cong_eq q x y : x = y -> cong q x y.
Proof. intros ->; apply cong_refl. Qed.

#[global] Instance cong_equiv q : Equivalence (cong q).
Proof. split; red; [apply cong_refl|apply cong_sym|apply cong_trans]. Qed.
#[global] Instance cong_add_proper q : Proper (cong q ==> cong q ==> cong q) Z.add.
Proof. intros ? ? ? ? ? ?; now apply cong_add. Qed.
#[global] Instance cong_sub_proper q : Proper (cong q ==> cong q ==> cong q) Z.sub.
Proof. intros ? ? ? ? ? ?; now apply cong_sub. Qed.
#[global] Instance cong_mul_proper q : Proper (cong q ==> cong q ==> cong q) Z.mul.
Proof. intros ? ? ? ? ? ?; now apply cong_mul. Qed.
#[global] Instance cong_opp_proper q : Proper (cong q ==> cong q) Z.opp.
Proof. intros ? ? ?; now apply cong_opp. Qed.

(** product of a list *)
Fixpoint prodZ (l : list Z) : Z := match l with [] => 1 | x :: l => x * prodZ l end.
Fixpoint sumZ (l : list Z) : Z := match l with [] => 0 | x :: l => x + sumZ l end.

Lemma prodZ_app l1 l2 : prodZ (l1 ++ l2) = prodZ l1 * prodZ l2.
Proof.
  induction l1 as [|x l1 IH]; cbn -[Z.mul].
  - now rewrite Z.mul_1_l.
  - rewrite IH. ring.
Qed.
Lemma prodZ_pos l : Forall (fun x => 0 < x) l -> 0 < prodZ l.
Proof. induction 1; cbn -[Z.mul]; nia. Qed.
Lemma prodZ_divide l x : In x l -> (x | prodZ l).
Proof.
  induction l as [|y l IH]; cbn -[Z.mul]; intros H; [easy|].
  destruct H as [->|H]; [apply Z.divide_factor_l|].
  apply Z.divide_mul_r. auto.
Qed.
Lemma rel_prime_prodZ a l : Forall (rel_prime a) l -> rel_prime a (prodZ l).
Proof.
  induction 1; cbn -[Z.mul].
  - apply rel_prime_sym, rel_prime_1.
  - now apply rel_prime_mult.
Qed.
Lemma sumZ_app l1 l2 : sumZ (l1 ++ l2) = sumZ l1 + sumZ l2.
Proof. induction l1 as [|x l1 IH]; cbn -[Z.add]; lia. Qed.

(** CRT uniqueness for a list of pairwise coprime moduli *)
Definition pairwise_coprime (l : list Z) : Prop :=
  ForallOrdPairs rel_prime l.

Lemma crt_cong l x y :
  pairwise_coprime l -> Forall (fun q => cong q x y) l -> cong (prodZ l) x y.
Proof.
  induction 1 as [|q l Hq Hl IH]; intros H; cbn -[Z.mul].
  - apply cong_1.
  - inversion_clear H. specialize (IH H1). unfold cong in *.
    destruct H0 as [k Hk]. rewrite Hk in IH |- *.
    assert (H2 : (prodZ l | k)).
    { apply Gauss with q. now rewrite Z.mul_comm.
      apply rel_prime_sym, rel_prime_prodZ, Hq. }
    destruct H2 as [m ->]. exists m. ring.
Qed.

(** finite sums indexed by nat *)
Fixpoint sumn (n : nat) (f : nat -> Z) : Z :=
  match n with O => 0 | S n => sumn n f + f n end.

Lemma sumn_ext n f g : (forall i, (i < n)%nat -> f i = g i) -> sumn n f = sumn n g.
Proof. induction n as [|n IH]; cbn -[Z.add]; intros H; auto. rewrite IH, H; auto. Qed.
Lemma sumn_cong q n f g : (forall i, (i < n)%nat -> cong q (f i) (g i)) -> cong q (sumn n f) (sumn n g).
Proof.
  induction n as [|n IH]; cbn -[Z.add]; intros H; [reflexivity|].
  apply cong_add; auto.
Qed.
Lemma sumn_mul_l n c f : sumn n (fun i => c * f i) = c * sumn n f.
Proof. induction n; cbn -[Z.add Z.mul]; lia. Qed.
Lemma sumn_mul_r n c f : sumn n (fun i => f i * c) = sumn n f * c.
Proof. induction n; cbn -[Z.add Z.mul]; lia. Qed.
Lemma sumn_add n f g : sumn n (fun i => f i + g i) = sumn n f + sumn n g.
Proof. induction n; cbn -[Z.add]; lia. Qed.
Lemma sumn_opp n f : sumn n (fun i => - f i) = - sumn n f.
Proof. induction n; cbn -[Z.add]; lia. Qed.
Lemma sumn_const n c : sumn n (fun _ => c) = Z.of_nat n * c.
Proof. induction n; cbn -[Z.add Z.mul Z.of_nat]; lia. Qed.
Lemma sumn_0 n f : (forall i, (i < n)%nat -> f i = 0) -> sumn n f = 0.
Proof. intros H. rewrite (sumn_ext n f (fun _ => 0)) by auto. rewrite sumn_const. lia. Qed.
Lemma sumn_le n f g : (forall i, (i < n)%nat -> f i <= g i) -> sumn n f <= sumn n g.
Proof. induction n as [|n IH]; cbn -[Z.add]; intros H; [lia|]. specialize (IH ltac:(auto)). specialize (H n ltac:(lia)). lia. Qed.
Lemma sumn_nonneg n f : (forall i, (i < n)%nat -> 0 <= f i) -> 0 <= sumn n f.
Proof. intros H. rewrite <- (sumn_0 n (fun _ => 0)) by auto. now apply sumn_le. Qed.
Lemma sumn_abs n f : Z.abs (sumn n f) <= sumn n (fun i => Z.abs (f i)).
Proof. induction n; cbn -[Z.add Z.abs]; lia. Qed.
Lemma sumn_abs_le n f B : (forall i, (i < n)%nat -> Z.abs (f i) <= B) -> Z.abs (sumn n f) <= Z.of_nat n * B.
Proof.
  intros H. eapply Z.le_trans; [apply sumn_abs|]. rewrite <- sumn_const. now apply sumn_le.
Qed.
Lemma sumn_split n m f : sumn (n + m) f = sumn n f + sumn m (fun i => f (n + i)%nat).
Proof.
  induction m as [|m IH]; [rewrite Nat.add_0_r; cbn; lia|].
  rewrite Nat.add_succ_r. cbn -[Z.add]. lia.
Qed.
Lemma sumn_S_l n f : sumn (S n) f = f 0%nat + sumn n (fun i => f (S i)).
Proof. change (S n) with (1 + n)%nat. rewrite sumn_split. cbn -[Z.add]. lia. Qed.
Lemma sumn_rev n f : sumn n f = sumn n (fun i => f (n - 1 - i)%nat).
Proof.
  induction n as [|n IH]; [reflexivity|].
  rewrite (sumn_S_l n (fun i => f (S n - 1 - i)%nat)).
  cbn -[Z.add Nat.sub]. rewrite IH. replace (S n - 1 - 0)%nat with n by lia.
  rewrite Z.add_comm. f_equal. apply sumn_ext. intros. f_equal. lia.
Qed.
Lemma sumn_comm n m f : sumn n (fun i => sumn m (fun j => f i j)) = sumn m (fun j => sumn n (fun i => f i j)).
Proof.
  induction n as [|n IH]; cbn -[Z.add].
  - now rewrite sumn_0.
  - rewrite IH, sumn_add. reflexivity.
Qed.
(** sum with a single nonzero term *)
Lemma sumn_single n k f : (k < n)%nat -> (forall i, (i < n)%nat -> i <> k -> f i = 0) -> sumn n f = f k.
Proof.
  intros Hk H. induction n as [|n IH]; [lia|]. cbn -[Z.add].
  destruct (Nat.eq_dec n k) as [->|Hn].
  - rewrite sumn_0; [lia|]. intros i Hi. apply H; lia.
  - rewrite IH by (try lia; intros; apply H; lia). rewrite (H n) by lia. lia.
Qed.

(** product of all moduli but the i-th *)
Definition except (qs : list Z) (i : nat) : Z := prodZ (firstn i qs) * prodZ (skipn (S i) qs).
Lemma except_mul qs i : (i < length qs)%nat -> nth i qs 0 * except qs i = prodZ qs.
Proof.
  intros H. unfold except. rewrite <- (firstn_skipn i qs) at 4.
  rewrite prodZ_app. assert (E : skipn i qs = nth i qs 0 :: skipn (S i) qs).
  { revert i H. induction qs as [|q qs IH]; intros i H; cbn in H; [lia|].
    destruct i; [reflexivity|]. cbn [skipn nth]. rewrite IH by lia. reflexivity. }
  rewrite E. cbn [prodZ]. ring.
Qed.
Lemma Forall_nth_Z (P : Z -> Prop) l i : Forall P l -> (i < length l)%nat -> P (nth i l 0).
Proof. intros H Hi. rewrite Forall_forall in H. apply H. now apply nth_In. Qed.
