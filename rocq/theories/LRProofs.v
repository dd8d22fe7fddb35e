(** The rotate-and-add loops and the training iterations on exact slot vectors. *)
From Coq Require Import ZArith Lia List Bool Ring_theory InitialRing Ring.
From Verif Require Import Go LR SpecSlots SpecLR SlotThms.
Import ListNotations.
Local Open Scope Z_scope.

Lemma sbind_ok {S A B} (m : SM S A) (k : A -> SM S B) s a s' : m s = Ok (a, s') -> sbind m k s = k a s'.
Proof. intros E. unfold sbind. now rewrite E. Qed.
Lemma slift_ok {S A} (r : res A) (s : S) a : r = Ok a -> slift r s = Ok (a, s).
Proof. intros ->. reflexivity. Qed.
Lemma idx_nth {A} (l : list A) i d : (i < length l)%nat -> idx l i = Ok (nth i l d).
Proof. intros H. unfold idx. now rewrite (nth_error_nth' _ d H). Qed.
Lemma log2_up_loop i : 0 <= i -> 2 ^ i = 2 ^ Z.of_nat (Z.to_nat i). Proof. intros. now rewrite Z2Nat.id. Qed.

Section Ring.
Context {R : Type} (rO rI : R) (radd rmul rsub : R -> R -> R) (ropp : R -> R).
Context (RT : ring_theory rO rI radd rmul rsub ropp (@eq R)).
Add Ring R_ring2 : RT.
Notation "x +' y" := (radd x y) (at level 50, left associativity).
Notation "x -' y" := (rsub x y) (at level 50, left associativity).
Notation "x *' y" := (rmul x y) (at level 40, left associativity).
Notation sum := (rsum rO radd).
Notation XO := (exactOps rO radd rmul).
Notation sum_ext := (SlotThms.sum_ext rO radd).
Notation sum_zero := (sum_zero rO rI radd rmul rsub ropp RT).
Notation sum_add := (sum_add rO rI radd rmul rsub ropp RT).
Notation sum_mul_l := (sum_mul_l rO rI radd rmul rsub ropp RT).

Lemma sum_app n m f : sum (n + m) f = sum n f +' sum m (fun i => f (n + i)%nat).
Proof. induction m as [|m IH]; [rewrite Nat.add_0_r; cbn; ring|]. rewrite Nat.add_succ_r. cbn [rsum]. rewrite IH. ring. Qed.
(** a sum of which at most one term is not zero *)
Lemma sum_single n k f : (k < n)%nat -> (forall i, (i < n)%nat -> i <> k -> f i = rO) -> sum n f = f k.
Proof.
  intros Hk H. rewrite (sum_ext n f (fun i => if Nat.eqb i k then f k else rO)).
  - apply (sum_one rO rI radd rmul rsub ropp RT); auto.
  - intros i Hi. destruct (Nat.eqb_spec i k) as [->|Hne]; [reflexivity|]. now apply H.
Qed.
Lemma sum_S_l n f : sum (S n) f = f 0%nat +' sum n (fun i => f (S i)).
Proof. change (S n) with (1 + n)%nat. rewrite sum_app. cbn [rsum]. rewrite (sum_ext n (fun i => f (1 + i)%nat) (fun i => f (S i))) by auto. ring. Qed.
(** a cyclic shift of the terms *)
Lemma sum_cyclic m a f : sum m (fun t => f ((a + t) mod m)%nat) = sum m f.
Proof.
  destruct (Nat.eq_dec m 0) as [->|Hm]; [reflexivity|]. induction a as [|a IH].
  - apply sum_ext. intros i Hi. cbn. now rewrite Nat.mod_small.
  - rewrite <- IH. destruct m as [|m]; [lia|]. rewrite (sum_S_l m (fun t => f ((a + t) mod S m)%nat)). cbn [rsum].
    rewrite (sum_ext m (fun t => f ((S a + t) mod S m)%nat) (fun t => f ((a + S t) mod S m)%nat)) by (intros i _; do 2 f_equal; lia).
    replace (f ((S a + m) mod S m)%nat) with (f ((a + 0) mod S m)%nat); [ring|]. f_equal.
    replace (S a + m)%nat with (a + 0 + 1 * S m)%nat by lia. now rewrite Nat.mod_add.
Qed.

(** ** The rotate-and-add loop *)
Lemma sumLoop_spec n (Hn : 0 < n) amount c (Ham : forall i, amount i = c * i) bound : forall fuel k x0 x,
  bound - 2 ^ Z.of_nat k <= Z.of_nat fuel ->
  (forall i, 0 <= i < n -> x i = sum (2 ^ k) (fun t => x0 ((i + c * Z.of_nat t) mod n))) -> (2 ^ Z.of_nat k < bound \/ (k = Z.to_nat (Z.log2_up bound))) ->
  exists y, sumLoop (XO n) fuel (2 ^ Z.of_nat k) bound amount x tt = Ok (y, tt) /\
    forall i, 0 <= i < n -> y i = sum (2 ^ Z.to_nat (Z.log2_up bound)) (fun t => x0 ((i + c * Z.of_nat t) mod n)).
Proof.
  induction fuel as [|fuel IH]; intros k x0 x Hf Hx Hk; cbn [sumLoop].
  - destruct (Z.ltb_spec (2 ^ Z.of_nat k) bound) as [H|H]; [lia|]. destruct Hk as [Hk| ->]; [lia|]. exists x. split; [reflexivity|exact Hx].
  - destruct (Z.ltb_spec (2 ^ Z.of_nat k) bound) as [H|H].
    2:{ destruct Hk as [Hk| ->]; [lia|]. exists x. split; [reflexivity|exact Hx]. }
    assert (E2 : 2 * 2 ^ Z.of_nat k = 2 ^ Z.of_nat (S k)). { rewrite Nat2Z.inj_succ, Z.pow_succ_r by lia. reflexivity. }
    rewrite (sbind_ok _ _ tt _ tt eq_refl), (sbind_ok _ _ tt _ tt eq_refl), E2. apply IH.
    + rewrite <- E2. pose proof (Z.pow_pos_nonneg 2 (Z.of_nat k) ltac:(lia) ltac:(lia)). lia.
    + intros i Hi. replace (2 ^ S k)%nat with (2 ^ k + 2 ^ k)%nat by (cbn; lia). rewrite sum_app. rewrite Hx by exact Hi. f_equal. rewrite Hx by (apply Z.mod_pos_bound; lia).
      apply sum_ext. intros t _. f_equal. rewrite Ham, Z.add_mod_idemp_l by lia. f_equal. rewrite Nat2Z.inj_add, Nat2Z.inj_pow. change (Z.of_nat 2) with 2. ring.
    + destruct (Z_lt_le_dec (2 ^ Z.of_nat (S k)) bound) as [Hlt|Hle]; [now left|right].
      assert (El : Z.log2_up bound = Z.of_nat (S k)); [|lia]. apply Z.log2_up_unique; [lia|]. rewrite <- E2 in Hle. replace (Z.pred (Z.of_nat (S k))) with (Z.of_nat k) by lia. lia.
Qed.
Lemma rotSum_spec n (Hn : 0 < n) amount c (Ham : forall i, amount i = c * i) bound x :
  exists y, rotSum (XO n) bound amount x tt = Ok (y, tt) /\
    forall i, 0 <= i < n -> y i = sum (2 ^ Z.to_nat (Z.log2_up bound)) (fun t => x ((i + c * Z.of_nat t) mod n)).
Proof.
  unfold rotSum. change 1 with (2 ^ Z.of_nat 0) at 1. apply (sumLoop_spec n Hn amount c Ham).
  - cbn. lia.
  - intros i Hi. cbn. rewrite Z.mul_0_r, Z.add_0_r, Z.mod_small by lia. ring.
  - cbn. destruct (Z_lt_le_dec 1 bound) as [H|H]; [now left|right]. rewrite Z.log2_up_eqn0 by lia. reflexivity.
Qed.

(** ** SumRowVec and SumColVec *)
Lemma sumRow_spec n numRow numCol x : 0 < n ->
  exists y, SumRowVec (XO n) x numRow numCol tt = Ok (y, tt) /\
    forall i, 0 <= i < n -> y i = sum (2 ^ Z.to_nat (Z.log2_up numRow)) (fun t => x ((i + numCol * Z.of_nat t) mod n)).
Proof. intros Hn. apply (rotSum_spec n Hn _ numCol). reflexivity. Qed.
Lemma log2_up_2 r : Z.to_nat (Z.log2_up (2 ^ Z.of_nat r)) = r. Proof. rewrite Z.log2_up_pow2 by lia. lia. Qed.
(** a cyclic sum over the rows *)
Lemma row_cyclic r (C : Z) (x : slotvec) i : 0 < C -> 0 <= i < 2 ^ Z.of_nat r * C ->
  sum (2 ^ r) (fun t => x ((i + C * Z.of_nat t) mod (2 ^ Z.of_nat r * C))) = sum (2 ^ r) (fun t => x (C * Z.of_nat t + i mod C)).
Proof.
  intros HC Hi. set (m := (2 ^ r)%nat). assert (Em : 2 ^ Z.of_nat r = Z.of_nat m). { unfold m. rewrite Nat2Z.inj_pow. reflexivity. }
  assert (Hm : m <> 0%nat) by (unfold m; apply Nat.pow_nonzero; lia). rewrite Em in *.
  set (a := Z.to_nat (i / C)). assert (Ha : Z.of_nat a = i / C). { unfold a. rewrite Z2Nat.id; [reflexivity|]. apply Z.div_pos; lia. }
  rewrite <- (sum_cyclic m a (fun t => x (C * Z.of_nat t + i mod C))). apply sum_ext. intros t _. f_equal.
  rewrite Nat2Z.inj_mod, Nat2Z.inj_add, Ha. rewrite (Z.mul_comm (Z.of_nat m) C).
  replace (i + C * Z.of_nat t) with (i mod C + C * (i / C + Z.of_nat t)) by (pose proof (Z.div_mod i C ltac:(lia)); nia).
  set (u := i / C + Z.of_nat t). pose proof (Z.mod_pos_bound i C HC). pose proof (Z.mod_pos_bound u (Z.of_nat m) ltac:(lia)).
  symmetry. apply Z.mod_unique with (u / Z.of_nat m); [left; nia|]. pose proof (Z.div_mod u (Z.of_nat m) ltac:(lia)). nia.
Qed.
Lemma sumRow_pow r (C : Z) x : 0 < C -> let n := 2 ^ Z.of_nat r * C in
  exists y, SumRowVec (XO n) x (2 ^ Z.of_nat r) C tt = Ok (y, tt) /\
    forall i, 0 <= i < n -> y i = sum (2 ^ r) (fun t => x (C * Z.of_nat t + i mod C)).
Proof.
  intros HC n. pose proof (Z.pow_pos_nonneg 2 (Z.of_nat r) ltac:(lia) ltac:(lia)) as H2. assert (Hn : 0 < n) by (unfold n; nia).
  destruct (sumRow_spec n (2 ^ Z.of_nat r) C x Hn) as (y & Ey & Hy). exists y. split; [exact Ey|]. intros i Hi. rewrite (Hy i Hi), log2_up_2. now apply row_cyclic.
Qed.
Lemma sumCol_pow c (n : Z) x mask numRow : 0 < n -> let C := 2 ^ Z.of_nat c in (C | n) ->
  (forall i, 0 <= i < n -> mask i = if i mod C =? 0 then rI else rO) ->
  exists y, SumColVec (XO n) x mask numRow C tt = Ok (y, tt) /\
    forall i, 0 <= i < n -> y i = sum (2 ^ c) (fun t => x (C * (i / C) + Z.of_nat t)).
Proof.
  intros Hn C HCn Hm. pose proof (Z.pow_pos_nonneg 2 (Z.of_nat c) ltac:(lia) ltac:(lia)) as H2. fold C in H2.
  assert (EC : C = Z.of_nat (2 ^ c)). { unfold C. rewrite Nat2Z.inj_pow. reflexivity. }
  unfold SumColVec. destruct (rotSum_spec n Hn (fun i => i) 1 ltac:(intros ii; cbv beta; lia) C x) as (w & Ew & Hw). rewrite (sbind_ok _ _ _ _ _ Ew), (sbind_ok _ _ tt _ tt eq_refl).
  set (w' := fun i : Z => w i *' mask i).
  destruct (rotSum_spec n Hn (fun i => - i) (-1) ltac:(intros ii; cbv beta; lia) C w') as (y & Ey & Hy). exists y. split; [exact Ey|]. intros i Hi. rewrite (Hy i Hi). unfold C at 1. rewrite log2_up_2.
  pose proof (Z.mod_pos_bound i C H2) as Hr. pose proof (Z.div_mod i C ltac:(lia)) as Hd. assert (Hq : 0 <= i / C) by (apply Z.div_pos; lia).
  assert (Hmm : forall t, ((i + -1 * Z.of_nat t) mod n) mod C = (i - Z.of_nat t) mod C).
  { intros t. destruct HCn as [e He]. assert (En : n = C * e) by (rewrite He; apply Z.mul_comm). clearbody C. rewrite En.
    rewrite (Z.mod_eq (i + -1 * Z.of_nat t) (C * e)) by (intros E0; lia).
    replace (i + -1 * Z.of_nat t - C * e * ((i + -1 * Z.of_nat t) / (C * e))) with (i - Z.of_nat t + (- (e * ((i + -1 * Z.of_nat t) / (C * e)))) * C) by ring. now rewrite Z.mod_add by lia. }
  rewrite (sum_single (2 ^ c) (Z.to_nat (i mod C))).
  - rewrite Z2Nat.id by lia. replace (i + -1 * (i mod C)) with (C * (i / C)) by lia. rewrite Z.mod_small by nia. unfold w'.
    rewrite Hm by nia. replace ((C * (i / C)) mod C) with 0 by (rewrite Z.mul_comm, Z.mod_mul by lia; reflexivity). rewrite Z.eqb_refl. rewrite Hw by nia. unfold C at 1. rewrite log2_up_2.
    rewrite (sum_ext _ _ (fun t => x (C * (i / C) + Z.of_nat t))); [ring|]. intros t Ht. f_equal. rewrite Z.mul_1_l. apply Z.mod_small.
    destruct HCn as [e He]. assert (i / C < e) by (apply Z.div_lt_upper_bound; lia). assert (Z.of_nat t < C) by (rewrite EC; lia). nia.
  - lia.
  - intros t Ht Hne. unfold w'. rewrite Hm by (apply Z.mod_pos_bound; lia). rewrite Hmm. destruct (Z.eqb_spec ((i - Z.of_nat t) mod C) 0) as [E0|_]; [|ring].
    exfalso. apply Hne. apply Z.mod_divide in E0; [|lia]. destruct E0 as [e He]. assert (Z.of_nat t < C) by (rewrite EC; lia).
    assert (Et : i mod C = Z.of_nat t); [|lia]. symmetry. apply Z.mod_unique with e; [left; lia|lia].
Qed.

(** ** The encoded vectors *)
Lemma setAt_ok (v : list R) i x : (i < length v)%nat -> exists v', setAt v (Z.of_nat i) x = Ok v' /\ length v' = length v /\
  forall k, nth k v' rO = if Nat.eqb k i then x else nth k v rO.
Proof.
  intros Hi. unfold setAt. destruct (Z.leb_spec 0 (Z.of_nat i)); [|lia]. destruct (Z.ltb_spec (Z.of_nat i) (Z.of_nat (length v))); [|lia]. cbn [andb].
  rewrite Nat2Z.id. eexists. split; [reflexivity|]. assert (L1 : length (firstn i v) = i) by (apply firstn_length_le; lia). split.
  - rewrite app_length. cbn [length]. rewrite L1, skipn_length. lia.
  - intros k. destruct (Nat.eqb_spec k i) as [->|Hne].
    + rewrite app_nth2 by lia. rewrite L1, Nat.sub_diag. reflexivity.
    + destruct (Nat.lt_ge_cases k i) as [Hk|Hk].
      * rewrite app_nth1 by lia. rewrite <- (firstn_skipn i v) at 2. rewrite app_nth1 by lia. reflexivity.
      * rewrite app_nth2 by lia. rewrite L1. destruct (k - i)%nat as [|e] eqn:Ee; [lia|]. cbn [nth].
        rewrite <- (firstn_skipn (S i) v) at 2. rewrite app_nth2 by (rewrite firstn_length_le; lia). rewrite firstn_length_le by lia. f_equal. lia.
Qed.
(** [v[base+k] = item(k)] for k in a .. a+m-1 *)
Lemma writes_ok (item : nat -> res R) f base : forall m a v, (forall k, (a <= k < a + m)%nat -> item k = Ok (f k)) -> (base + a + m <= length v)%nat ->
  exists v', foldM (fun v k => let* x := item k in setAt v (Z.of_nat (base + k)) x) (seq a m) v = Ok v' /\ length v' = length v /\
    forall k, nth k v' rO = if Nat.leb (base + a) k && Nat.ltb k (base + a + m) then f (k - base)%nat else nth k v rO.
Proof.
  induction m as [|m IH]; intros a v Hi Hl; cbn [seq foldM].
  - exists v. split; [reflexivity|]. split; [reflexivity|]. intros k. destruct (Nat.leb_spec (base + a) k); destruct (Nat.ltb_spec k (base + a + 0)); cbn [andb]; auto; lia.
  - rewrite (Hi a) by lia. cbn [bind]. destruct (setAt_ok v (base + a) (f a) ltac:(lia)) as (v1 & E1 & L1 & N1). rewrite E1. cbn [bind].
    destruct (IH (S a) v1) as (v2 & E2 & L2 & N2); [intros k Hk; apply Hi; lia|lia|]. exists v2. split; [exact E2|]. split; [congruence|].
    intros k. rewrite N2, N1. destruct (Nat.eqb_spec k (base + a)) as [->|Hne].
    + destruct (Nat.leb_spec (base + S a) (base + a)); [lia|]. cbn [andb]. destruct (Nat.leb_spec (base + a) (base + a)); [|lia]. destruct (Nat.ltb_spec (base + a) (base + a + S m)); [|lia]. cbn [andb]. f_equal. lia.
    + destruct (Nat.leb_spec (base + S a) k); destruct (Nat.leb_spec (base + a) k); destruct (Nat.ltb_spec k (base + S a + m)); destruct (Nat.ltb_spec k (base + a + S m)); cbn [andb]; auto; lia.
Qed.
(** all the rows of a matrix *)
Lemma matrix_ok (item : nat -> nat -> res R) f C : forall m a v, (0 < C)%nat -> (forall i j, (a <= i < a + m)%nat -> (j < C)%nat -> item i j = Ok (f i j)) -> (C * (a + m) <= length v)%nat ->
  exists v', foldM (fun v i => foldM (fun v j => let* x := item i j in setAt v (Z.of_nat (C * i + j)) x) (seq 0 C) v) (seq a m) v = Ok v' /\ length v' = length v /\
    forall k, nth k v' rO = if Nat.leb (C * a) k && Nat.ltb k (C * (a + m)) then f (k / C)%nat (k mod C)%nat else nth k v rO.
Proof.
  intros m a v HC. revert a v. induction m as [|m IH]; intros a v Hi Hl; cbn [seq foldM].
  - exists v. split; [reflexivity|]. split; [reflexivity|]. intros k. destruct (Nat.leb_spec (C * a) k); destruct (Nat.ltb_spec k (C * (a + 0))); cbn [andb]; auto; nia.
  - destruct (writes_ok (item a) (f a) (C * a) C 0 v) as (v1 & E1 & L1 & N1); [intros k Hk; apply Hi; lia|nia|]. rewrite E1. cbn [bind].
    destruct (IH (S a) v1) as (v2 & E2 & L2 & N2); [intros i j Hij; apply Hi; lia|nia|]. exists v2. split; [exact E2|]. split; [congruence|].
    intros k. rewrite N2, N1, Nat.add_0_r.
    destruct (Nat.leb_spec (C * S a) k) as [A1|A1]; destruct (Nat.ltb_spec k (C * (S a + m))) as [A2|A2]; destruct (Nat.leb_spec (C * a) k) as [A3|A3]; destruct (Nat.ltb_spec k (C * (a + S m))) as [A4|A4];
      destruct (Nat.ltb_spec k (C * a + C)) as [A5|A5]; cbn [andb]; auto; try nia.
    assert (E : (k / C)%nat = a /\ (k mod C)%nat = (k - C * a)%nat); [|destruct E as [-> ->]; reflexivity].
    split; [symmetry; apply Nat.div_unique with (k - C * a)%nat; lia|symmetry; apply Nat.mod_unique with a; lia].
Qed.
(** ** One training iteration *)
Notation sg := (sigma3 radd rmul).
Notation dt := (dot rO radd rmul).
Notation gr := (gradient rO radd rmul rsub).
Notation nst := (nesterov rO rI radd rmul rsub).
Notation VK := (vconst rO rI rmul rsub ropp).
Lemma sumOver_seq n f : sumOver rO radd (seq 0 n) f = sum n f.
Proof.
  assert (G : forall n a, sumOver rO radd (seq a n) f = sum n (fun i => f (a + i)%nat)).
  { clear n. induction n as [|n IH]; intros a; [reflexivity|]. cbn [seq sumOver]. rewrite IH, sum_S_l, Nat.add_0_r. f_equal. apply sum_ext. intros i _. f_equal. lia. }
  rewrite G. reflexivity.
Qed.
Lemma sumOver_app l1 l2 f : sumOver rO radd (l1 ++ l2) f = sumOver rO radd l1 f +' sumOver rO radd l2 f.
Proof. induction l1 as [|i l IH]; cbn [app sumOver]; [ring|]. rewrite IH. ring. Qed.
(** the same row of numbers in every row of the slot matrix *)
Definition rowsOf (C n : Z) (V : nat -> R) (v : Z -> R) : Prop := forall i, 0 <= i < n -> v i = V (Z.to_nat (i mod C)).
(** z holds X, one data point per row *)
Definition dataOf (C n : Z) (X : nat -> nat -> R) (z : Z -> R) : Prop := forall i, 0 <= i < n -> z i = X (Z.to_nat (i / C)) (Z.to_nat (i mod C)).
Definition labelsOf (C n : Z) (Y : nat -> R) (z y : Z -> R) : Prop := forall i, 0 <= i < n -> y i = Y (Z.to_nat (i / C)) \/ z i = rO.
Definition maskOf (C n : Z) (mask : Z -> R) : Prop := forall i, 0 <= i < n -> mask i = if i mod C =? 0 then rI else rO.

Section Iter.
Context (r c : nat).
Notation C := (2 ^ Z.of_nat c).
Notation n := (2 ^ Z.of_nat r * 2 ^ Z.of_nat c).
Lemma C_pos : 0 < C. Proof. apply Z.pow_pos_nonneg; lia. Qed.
Lemma n_pos : 0 < n. Proof. pose proof C_pos. assert (0 < 2 ^ Z.of_nat r) by (apply Z.pow_pos_nonneg; lia). nia. Qed.
Lemma C_nat : C = Z.of_nat (2 ^ c). Proof. rewrite Nat2Z.inj_pow. reflexivity. Qed.
Lemma r_nat : 2 ^ Z.of_nat r = Z.of_nat (2 ^ r). Proof. rewrite Nat2Z.inj_pow. reflexivity. Qed.
Lemma slot_split q t : (q < 2 ^ r)%nat -> (t < 2 ^ c)%nat -> let i := C * Z.of_nat q + Z.of_nat t in 0 <= i < n /\ Z.to_nat (i / C) = q /\ Z.to_nat (i mod C) = t.
Proof.
  intros Hq Ht i. pose proof C_pos as HC. pose proof C_nat as EC. pose proof r_nat as Er. unfold i.
  assert (E1 : (C * Z.of_nat q + Z.of_nat t) / C = Z.of_nat q). { rewrite Z.mul_comm, Z.div_add_l, Z.div_small by lia. lia. }
  assert (E2 : (C * Z.of_nat q + Z.of_nat t) mod C = Z.of_nat t). { rewrite Z.add_comm, Z.mul_comm, Z.mod_add, Z.mod_small by lia. lia. }
  rewrite E1, E2, !Nat2Z.id. repeat split; auto; [nia|]. rewrite Er. nia.
Qed.
Lemma slot_bounds i : 0 <= i < n -> (Z.to_nat (i / C) < 2 ^ r)%nat /\ (Z.to_nat (i mod C) < 2 ^ c)%nat.
Proof.
  intros Hi. pose proof C_pos as HC. pose proof C_nat as EC. pose proof r_nat as Er. pose proof (Z.mod_pos_bound i C HC).
  assert (i / C < 2 ^ Z.of_nat r) by (apply Z.div_lt_upper_bound; lia). assert (0 <= i / C) by (apply Z.div_pos; lia). lia.
Qed.

Context (gn c0 c1 c3 c13 : R) (Hc : c3 *' c13 = c1).
Context (X : nat -> nat -> R) (Y : nat -> R).
(** the value every row gets from SumColVec *)
Lemma inner_product z v V (w : Z -> R) : dataOf C n X z -> rowsOf C n V v ->
  (forall i, 0 <= i < n -> w i = sum (2 ^ c) (fun t => z (C * (i / C) + Z.of_nat t) *' v (C * (i / C) + Z.of_nat t))) ->
  forall i, 0 <= i < n -> w i = dt (2 ^ c) (X (Z.to_nat (i / C))) V.
Proof.
  intros Hz Hv Hw i Hi. rewrite (Hw i Hi). apply sum_ext. intros t Ht. destruct (slot_bounds i Hi) as [Hq _]. pose proof C_pos as HC.
  assert (Eq : i / C = Z.of_nat (Z.to_nat (i / C))). { rewrite Z2Nat.id; [auto|]. apply Z.div_pos; lia. }
  rewrite Eq. destruct (slot_split (Z.to_nat (i / C)) t Hq Ht) as (Hb & E1 & E2). rewrite (Hz _ Hb), (Hv _ Hb), E1, E2, Nat2Z.id. reflexivity.
Qed.
(** the value of slot i of g and u before the sum over the rows *)
Lemma residual_identity k m z y Yr : y = Yr \/ z = rO ->
  m *' (z *' (ropp k *' c3)) *' (m *' m +' c13) +' z *' (ropp k *' (c0 -' y)) = ropp k *' ((sg c0 c1 c3 m -' Yr) *' z).
Proof. intros H. unfold sigma3. rewrite <- Hc. destruct H as [-> | ->]; ring. Qed.
Lemma sum_rows_of k g V z v : dataOf C n X z -> rowsOf C n V v ->
  (forall i, 0 <= i < n -> g i = ropp k *' ((sg c0 c1 c3 (dt (2 ^ c) (X (Z.to_nat (i / C))) V) -' Y (Z.to_nat (i / C))) *' z i)) ->
  forall i, 0 <= i < n -> sum (2 ^ r) (fun t => g (C * Z.of_nat t + i mod C)) = ropp k *' gr c0 c1 c3 (2 ^ c) X Y (seq 0 (2 ^ r)) V (Z.to_nat (i mod C)).
Proof.
  intros Hz Hv Hg i Hi. unfold gradient. rewrite sumOver_seq, <- sum_mul_l. apply sum_ext. intros t Ht. destruct (slot_bounds i Hi) as [_ Hj].
  pose proof C_pos as HC. assert (Ej : i mod C = Z.of_nat (Z.to_nat (i mod C))). { rewrite Z2Nat.id; [auto|]. pose proof (Z.mod_pos_bound i C HC). lia. }
  rewrite Ej. destruct (slot_split t (Z.to_nat (i mod C)) Ht Hj) as (Hb & E1 & E2). rewrite (Hg _ Hb), (Hz _ Hb), E1, E2, Nat2Z.id. reflexivity.
Qed.

Context (etas : list R) (mask : list R) (y z : Z -> R).
Context (Hmask : maskOf C n (ofList rO mask)) (Hz : dataOf C n X z) (Hy : labelsOf C n Y z y).
Ltac op := rewrite (sbind_ok _ _ tt _ tt eq_refl).
Ltac ix H := rewrite (sbind_ok _ _ tt _ tt (slift_ok _ tt _ H)).
Lemma trainIter_ok V B v beta a eta : nth_error etas a = Some eta -> rowsOf C n V v -> rowsOf C n B beta ->
  exists v' b', trainIter (XO n) (VK gn c0 c3 c13 etas mask y) (2 ^ Z.of_nat r) C z (v, beta) a tt = Ok ((v', b'), tt) /\
    let nb := nst c0 c1 c3 gn (2 ^ c) X Y (seq 0 (2 ^ r)) eta (V, B) in rowsOf C n (fst nb) v' /\ rowsOf C n (snd nb) b'.
Proof.
  intros Ha Hv Hb. pose proof C_pos as HC. pose proof n_pos as Hn. assert (HCn : (C | n)) by (exists (2 ^ Z.of_nat r); reflexivity).
  assert (I2 : forall f, idx (map f etas) a = Ok (f eta : Z -> R)). { intros f. unfold idx. rewrite nth_error_map, Ha. reflexivity. }
  unfold trainIter. do 2 op. ix (I2 (fun eta i => ropp (rI -' eta) *' gn *' (c0 -' y i))). do 2 op. ix (I2 (fun eta (_ : Z) => ropp (rI -' eta) *' gn *' c3)). op.
  destruct (sumCol_pow c n (fun i => z i *' v i) (ofList rO mask) (2 ^ Z.of_nat r) Hn HCn Hmask) as (m & Em & Hm0). rewrite (sbind_ok _ _ _ _ _ Em). clear Em.
  assert (Hm := inner_product z v V m Hz Hv Hm0). do 6 op.
  set (gf := fun i : Z => m i *' (z i *' (ropp gn *' c3)) *' (m i *' m i +' c13) +' z i *' (ropp gn *' (c0 -' y i))). destruct (sumRow_pow r C gf HC) as (G & EG & HG).
  unfold SumRowVec in EG. rewrite (sbind_ok _ _ _ _ _ EG). clear EG. do 3 op. ix (I2 (fun eta (_ : Z) => rI -' eta)). op. ix (I2 (fun eta (_ : Z) => eta)). do 2 op.
  set (uf := fun i : Z => z i *' (ropp (rI -' eta) *' gn *' c3) *' m i *' (m i *' m i +' c13) +' z i *' (ropp (rI -' eta) *' gn *' (c0 -' y i))). destruct (sumRow_pow r C uf HC) as (U & EU & HU).
  rewrite (sbind_ok _ _ _ _ _ EU). clear EU. op. do 2 eexists. split; [reflexivity|]. cbv zeta. cbn [nesterov fst snd].
  assert (EG : forall i, 0 <= i < n -> G i = ropp gn *' gr c0 c1 c3 (2 ^ c) X Y (seq 0 (2 ^ r)) V (Z.to_nat (i mod C))).
  { intros i Hi. rewrite (HG i Hi). apply (sum_rows_of gn gf V z v Hz Hv); [|exact Hi]. intros k Hk. rewrite <- (Hm k Hk). apply residual_identity. apply (Hy k Hk). }
  assert (EU : forall i, 0 <= i < n -> U i = ropp ((rI -' eta) *' gn) *' gr c0 c1 c3 (2 ^ c) X Y (seq 0 (2 ^ r)) V (Z.to_nat (i mod C))).
  { intros i Hi. rewrite (HU i Hi). apply (sum_rows_of ((rI -' eta) *' gn) uf V z v Hz Hv); [|exact Hi]. intros k Hk. rewrite <- (Hm k Hk), <- (residual_identity _ _ _ _ _ (Hy k Hk)). unfold uf. ring. }
  split; intros i Hi.
  - rewrite (EU i Hi), (Hv i Hi), (Hb i Hi). ring.
  - rewrite (EG i Hi), (Hv i Hi). ring.
Qed.
End Iter.

(** ** All the iterations *)
Lemma dot_dim d d' x v : (d <= d')%nat -> (forall k, (d <= k)%nat -> x k = rO) -> dt d' x v = dt d x v.
Proof.
  intros H Hx. unfold dot. replace d' with (d + (d' - d))%nat by lia. rewrite sum_app, (sum_ext (d' - d) _ (fun _ => rO)).
  - rewrite sum_zero. ring.
  - intros i _. rewrite Hx by lia. ring.
Qed.
Lemma gradient_dim c0 c1 c3 d d' X Y ids v j : (d <= d')%nat -> (forall i k, (d <= k)%nat -> X i k = rO) -> gr c0 c1 c3 d' X Y ids v j = gr c0 c1 c3 d X Y ids v j.
Proof. intros H HX. unfold gradient. induction ids as [|i ids IH]; cbn [sumOver]; [reflexivity|]. rewrite IH, (dot_dim d d') by auto. reflexivity. Qed.
Lemma nesterov_dim c0 c1 c3 gn d d' X Y ids eta vb j : (d <= d')%nat -> (forall i k, (d <= k)%nat -> X i k = rO) ->
  fst (nst c0 c1 c3 gn d' X Y ids eta vb) j = fst (nst c0 c1 c3 gn d X Y ids eta vb) j /\ snd (nst c0 c1 c3 gn d' X Y ids eta vb) j = snd (nst c0 c1 c3 gn d X Y ids eta vb) j.
Proof. intros H HX. destruct vb as [v b]. cbn [nesterov fst snd]. rewrite (gradient_dim c0 c1 c3 d d') by auto. auto. Qed.
(** more generally, different descriptions of the same data *)
Lemma gradient_ext c0 c1 c3 d X X' Y Y' v j : forall ids ids', Forall2 (fun i i' => (forall k, X i k = X' i' k) /\ Y i = Y' i') ids ids' -> gr c0 c1 c3 d X Y ids v j = gr c0 c1 c3 d X' Y' ids' v j.
Proof.
  unfold gradient. induction 1 as [|i i' ids ids' [H1 H2] H IH]; [reflexivity|]. cbn [sumOver]. rewrite IH, H1, H2. do 4 f_equal.
  unfold dot. apply sum_ext. intros k _. now rewrite H1.
Qed.

Notation nsf := (nesterovFrom rO rI radd rmul rsub).
Lemma firstn_skipn_cons {A} (l : list A) a m x : nth_error l a = Some x -> firstn (S m) (skipn a l) = x :: firstn m (skipn (S a) l).
Proof. revert l. induction a as [|a IH]; intros [|b l] H; cbn in H |- *; try discriminate; [now inversion H|]. now apply (IH l). Qed.
Lemma train_ok r c gn c0 c1 c3 c13 X Y etas mask y z nf : c3 *' c13 = c1 -> maskOf (2 ^ Z.of_nat c) (2 ^ Z.of_nat r * 2 ^ Z.of_nat c) (ofList rO mask) ->
  dataOf (2 ^ Z.of_nat c) (2 ^ Z.of_nat r * 2 ^ Z.of_nat c) X z -> labelsOf (2 ^ Z.of_nat c) (2 ^ Z.of_nat r * 2 ^ Z.of_nat c) Y z y ->
  (nf <= 2 ^ c)%nat -> (forall i k, (nf <= k)%nat -> X i k = rO) ->
  forall m a V B v b, (a + m <= length etas)%nat -> rowsOf (2 ^ Z.of_nat c) (2 ^ Z.of_nat r * 2 ^ Z.of_nat c) V v -> rowsOf (2 ^ Z.of_nat c) (2 ^ Z.of_nat r * 2 ^ Z.of_nat c) B b ->
  exists v' b', sfold (trainIter (XO (2 ^ Z.of_nat r * 2 ^ Z.of_nat c)) (VK gn c0 c3 c13 etas mask y) (2 ^ Z.of_nat r) (2 ^ Z.of_nat c) z) (seq a m) (v, b) tt = Ok ((v', b'), tt) /\
    let nb := nsf c0 c1 c3 gn nf X Y (fun _ => seq 0 (2 ^ r)) a (firstn m (skipn a etas)) (V, B) in
    rowsOf (2 ^ Z.of_nat c) (2 ^ Z.of_nat r * 2 ^ Z.of_nat c) (fst nb) v' /\ rowsOf (2 ^ Z.of_nat c) (2 ^ Z.of_nat r * 2 ^ Z.of_nat c) (snd nb) b'.
Proof.
  intros Hc Hmask Hz Hy Hnf HX. induction m as [|m IH]; intros a V B v b Hl Hv Hb; cbn [seq sfold].
  - exists v, b. split; [reflexivity|]. split; assumption.
  - destruct (nth_error etas a) as [eta|] eqn:Ea; [|apply nth_error_None in Ea; lia].
    destruct (trainIter_ok r c gn c0 c1 c3 c13 Hc X Y etas mask y z Hmask Hz Hy V B v b a eta Ea Hv Hb) as (v1 & b1 & E1 & H1 & H2). rewrite (sbind_ok _ _ _ _ _ E1).
    set (nb := nst c0 c1 c3 gn nf X Y (seq 0 (2 ^ r)) eta (V, B)).
    destruct (IH (S a) (fst nb) (snd nb) v1 b1) as (v2 & b2 & E2 & H3); [lia| | |].
    + intros i Hi. rewrite (H1 i Hi). apply nesterov_dim; auto.
    + intros i Hi. rewrite (H2 i Hi). apply nesterov_dim; auto.
    + exists v2, b2. split; [exact E2|]. rewrite (firstn_skipn_cons _ _ _ _ Ea). cbn [nesterovFrom]. fold nb. rewrite <- surjective_pairing in H3. exact H3.
Qed.

Lemma mask_ok slotNum c (n : Z) : Z.of_nat slotNum = n -> maskOf (2 ^ Z.of_nat c) n (ofList rO (maskVector rO rI slotNum (2 ^ c))).
Proof.
  intros En i Hi. unfold ofList, maskVector. set (f := fun k : nat => if Nat.eqb (k mod 2 ^ c) 0 then rI else rO).
  rewrite (nth_indep _ rO (f 0%nat)) by (rewrite map_length, seq_length; lia). rewrite map_nth, seq_nth by lia. unfold f. cbn [Nat.add].
  assert (E : Z.of_nat (Z.to_nat i mod 2 ^ c) = i mod 2 ^ Z.of_nat c). { rewrite Nat2Z.inj_mod, Nat2Z.inj_pow, Z2Nat.id by lia. reflexivity. }
  destruct (Nat.eqb_spec (Z.to_nat i mod 2 ^ c) 0) as [H|H]; destruct (Z.eqb_spec (i mod 2 ^ Z.of_nat c) 0); auto; lia.
Qed.
Lemma nth_repeat0 k m : nth k (repeat rO m) rO = rO.
Proof. revert k. induction m as [|m IH]; intros [|k]; cbn; auto. Qed.

(** the data of lr.go *)
Definition featureOf (t : list (list R)) (nf : nat) (i j : nat) : R := if Nat.ltb j nf then entry rO t i j else rO.
Lemma div_nat i c : 0 <= i -> Z.to_nat (i / 2 ^ Z.of_nat c) = (Z.to_nat i / 2 ^ c)%nat.
Proof. intros. rewrite <- (Nat2Z.id (Z.to_nat i / 2 ^ c)). f_equal. rewrite Nat2Z.inj_div, Nat2Z.inj_pow, Z2Nat.id by lia. reflexivity. Qed.
Lemma mod_nat i c : 0 <= i -> Z.to_nat (i mod 2 ^ Z.of_nat c) = (Z.to_nat i mod 2 ^ c)%nat.
Proof. intros. rewrite <- (Nat2Z.id (Z.to_nat i mod 2 ^ c)). f_equal. rewrite Nat2Z.inj_mod, Nat2Z.inj_pow, Z2Nat.id by lia. reflexivity. Qed.
Lemma pow2_pos c : (0 < 2 ^ c)%nat. Proof. assert (2 ^ c <> 0)%nat by (apply Nat.pow_nonzero; lia). lia. Qed.
Lemma zVector_ok r c nf (t : list (list R)) : (nf <= 2 ^ c)%nat -> table t (2 ^ r) nf ->
  exists zl, zVector rO (2 ^ r * 2 ^ c) (2 ^ r) (2 ^ c) nf t = Ok zl /\ dataOf (2 ^ Z.of_nat c) (2 ^ Z.of_nat r * 2 ^ Z.of_nat c) (featureOf t nf) (ofList rO zl).
Proof.
  intros Hnf [Ht1 Ht2]. unfold zVector. pose proof (pow2_pos c) as Hc.
  destruct (matrix_ok (fun i j => if Nat.leb (S j) nf then let* row := idx t i in idx row j else Ok rO) (featureOf t nf) (2 ^ c) (2 ^ r) 0 (repeat rO (2 ^ r * 2 ^ c)) Hc) as (zl & E & _ & N).
  - intros i j Hi Hj. unfold featureOf. change (Nat.ltb j nf) with (Nat.leb (S j) nf). destruct (Nat.leb_spec (S j) nf) as [H|H]; [|reflexivity].
    rewrite (idx_nth t i []) by lia. cbn [bind]. apply idx_nth. specialize (Ht2 i ltac:(lia)). lia.
  - rewrite repeat_length. cbn [Nat.add]. lia.
  - exists zl. split; [exact E|]. intros i Hi. unfold ofList. rewrite N, div_nat, mod_nat by lia. rewrite Nat.mul_0_r. cbn [Nat.add].
    destruct (Nat.leb_spec 0 (Z.to_nat i)); [|lia]. destruct (Nat.ltb_spec (Z.to_nat i) (2 ^ c * 2 ^ r)) as [|H1]; [reflexivity|].
    exfalso. apply Nat2Z.inj_le in H1. rewrite Nat2Z.inj_mul, !Nat2Z.inj_pow, Z2Nat.id in H1 by lia. change (Z.of_nat 2) with 2 in H1. lia.
Qed.
Lemma labelVector_ok r c (t : list R) z : (2 ^ r <= length t)%nat ->
  exists yl, labelVector rO (2 ^ r * 2 ^ c) (2 ^ r) (2 ^ c) t = Ok yl /\ labelsOf (2 ^ Z.of_nat c) (2 ^ Z.of_nat r * 2 ^ Z.of_nat c) (entry1 rO t) z (ofList rO yl).
Proof.
  intros Ht. unfold labelVector. pose proof (pow2_pos c) as Hc.
  destruct (matrix_ok (fun i j => idx t i) (fun i _ => entry1 rO t i) (2 ^ c) (2 ^ r) 0 (repeat rO (2 ^ r * 2 ^ c)) Hc) as (yl & E & _ & N).
  - intros i j Hi Hj. apply idx_nth. lia.
  - rewrite repeat_length. cbn [Nat.add]. lia.
  - exists yl. split; [exact E|]. intros i Hi. left. unfold ofList. rewrite N, div_nat by lia. rewrite Nat.mul_0_r. cbn [Nat.add].
    destruct (Nat.leb_spec 0 (Z.to_nat i)); [|lia]. destruct (Nat.ltb_spec (Z.to_nat i) (2 ^ c * 2 ^ r)) as [|H1]; [reflexivity|].
    exfalso. apply Nat2Z.inj_le in H1. rewrite Nat2Z.inj_mul, !Nat2Z.inj_pow, Z2Nat.id in H1 by lia. change (Z.of_nat 2) with 2 in H1. lia.
Qed.
Notation nsa := (nesterovAll rO rI radd rmul rsub).
Theorem lrTrain_ok r c nf numIter gn c0 c1 c3 c13 etas feature label : c3 *' c13 = c1 -> (nf <= 2 ^ c)%nat -> table feature (2 ^ r) nf -> (2 ^ r <= length label)%nat -> (numIter <= length etas)%nat ->
  exists v beta, lrTrain rO rI radd rmul rsub ropp (2 ^ r * 2 ^ c) (2 ^ r) (2 ^ c) nf numIter gn c0 c3 c13 etas feature label = Ok (v, beta) /\
    let nb := nsa c0 c1 c3 gn nf (featureOf feature nf) (entry1 rO label) (fun _ => seq 0 (2 ^ r)) (firstn numIter etas) in
    rowsOf (2 ^ Z.of_nat c) (2 ^ Z.of_nat r * 2 ^ Z.of_nat c) (fst nb) v /\ rowsOf (2 ^ Z.of_nat c) (2 ^ Z.of_nat r * 2 ^ Z.of_nat c) (snd nb) beta.
Proof.
  intros Hc Hnf Ht Hl He. unfold lrTrain. destruct (zVector_ok r c nf feature Hnf Ht) as (zl & Ez & Hz). rewrite Ez. cbn [bind].
  destruct (labelVector_ok r c label (ofList rO zl) Hl) as (yl & Ey & Hy). rewrite Ey. cbn [bind].
  assert (En : Z.of_nat (2 ^ r * 2 ^ c) = 2 ^ Z.of_nat r * 2 ^ Z.of_nat c) by (rewrite Nat2Z.inj_mul, !Nat2Z.inj_pow; reflexivity).
  rewrite !(Nat2Z.inj_pow 2). change (Z.of_nat 2) with 2. rewrite En.
  destruct (train_ok r c gn c0 c1 c3 c13 (featureOf feature nf) (entry1 rO label) etas (maskVector rO rI (2 ^ r * 2 ^ c) (2 ^ c)) (ofList rO yl) (ofList rO zl) nf Hc (mask_ok _ _ _ En) Hz Hy Hnf) with (m := numIter) (a := 0%nat) (V := fun _ : nat => rO) (B := fun _ : nat => rO) (v := fun _ : Z => rO) (b := fun _ : Z => rO) as (v & b & E & H).
  - intros i k Hk. unfold featureOf. destruct (Nat.ltb_spec k nf); [lia|reflexivity].
  - lia.
  - intros i _. reflexivity.
  - intros i _. reflexivity.
  - exists v, b. unfold train. rewrite E. split; [reflexivity|]. exact H.
Qed.

(** only the first d coordinates matter *)
Lemma dot_ext d x x' v v' : (forall k, (k < d)%nat -> x k = x' k /\ v k = v' k) -> dt d x v = dt d x' v'.
Proof. intros H. unfold dot. apply sum_ext. intros k Hk. destruct (H k Hk) as [-> ->]. reflexivity. Qed.
Lemma gradient_agree c0 c1 c3 d X X' Y ids v v' j : (forall i k, (k < d)%nat -> X i k = X' i k) -> (forall k, (k < d)%nat -> v k = v' k) -> (j < d)%nat ->
  gr c0 c1 c3 d X Y ids v j = gr c0 c1 c3 d X' Y ids v' j.
Proof. intros HX Hv Hj. unfold gradient. induction ids as [|i ids IH]; cbn [sumOver]; [reflexivity|]. rewrite IH, (dot_ext d (X i) (X' i) v v') by auto. rewrite HX by auto. reflexivity. Qed.
Lemma nesterovFrom_agree c0 c1 c3 gn d X X' Y ids : (forall i k, (k < d)%nat -> X i k = X' i k) -> forall etas a V B V' B', (forall k, (k < d)%nat -> V k = V' k /\ B k = B' k) ->
  forall j, (j < d)%nat -> fst (nsf c0 c1 c3 gn d X Y ids a etas (V, B)) j = fst (nsf c0 c1 c3 gn d X' Y ids a etas (V', B')) j /\ snd (nsf c0 c1 c3 gn d X Y ids a etas (V, B)) j = snd (nsf c0 c1 c3 gn d X' Y ids a etas (V', B')) j.
Proof.
  intros HX. induction etas as [|eta etas IH]; intros a V B V' B' HV j Hj; cbn [nesterovFrom]; [now apply HV|].
  cbn [nesterov]. apply IH; [|exact Hj]. intros k Hk. destruct (HV k Hk) as [E1 E2]. rewrite E1, E2.
  rewrite (gradient_agree c0 c1 c3 d X X' Y (ids a) V V' k) by (auto; intros; now apply HV). auto.
Qed.
(** the theorem in the terms of the data alone *)
Theorem lrTrain_rows r c nf numIter gn c0 c1 c3 c13 etas feature label : c3 *' c13 = c1 -> (nf <= 2 ^ c)%nat -> table feature (2 ^ r) nf -> (2 ^ r <= length label)%nat -> (numIter <= length etas)%nat ->
  exists v beta, lrTrain rO rI radd rmul rsub ropp (2 ^ r * 2 ^ c) (2 ^ r) (2 ^ c) nf numIter gn c0 c3 c13 etas feature label = Ok (v, beta) /\
    let nb := nsa c0 c1 c3 gn nf (entry rO feature) (entry1 rO label) (fun _ => seq 0 (2 ^ r)) (firstn numIter etas) in
    forall row j, (row < 2 ^ r)%nat -> (j < nf)%nat -> let i := Z.of_nat (2 ^ c * row + j) in v i = fst nb j /\ beta i = snd nb j.
Proof.
  intros Hc Hnf Ht Hl He. destruct (lrTrain_ok r c nf numIter gn c0 c1 c3 c13 etas feature label Hc Hnf Ht Hl He) as (v & b & E & Hv & Hb). exists v, b. split; [exact E|].
  intros nb row j Hrow Hj i. destruct (slot_split r c row j Hrow ltac:(lia)) as (Hi & _ & E2).
  assert (Ei : i = 2 ^ Z.of_nat c * Z.of_nat row + Z.of_nat j). { unfold i. rewrite Nat2Z.inj_add, Nat2Z.inj_mul, Nat2Z.inj_pow. reflexivity. }
  rewrite Ei, (Hv _ Hi), (Hb _ Hi), E2. unfold nb, nesterovAll. apply nesterovFrom_agree; auto.
  intros i0 k Hk. unfold featureOf. destruct (Nat.ltb_spec k nf); [reflexivity|lia].
Qed.

(** ** Inference *)
Theorem lrInfer_ok s nf c0 c1 c3 c13 beta x : c3 *' c13 = c1 -> (nf <= 2 ^ s)%nat -> (nf <= length x)%nat ->
  lrInfer rO rI radd rmul rsub ropp (2 ^ s) nf c0 c3 c13 beta x = Ok (sg c0 c1 c3 (dt nf (entry1 rO x) (fun k => beta (Z.of_nat k)))).
Proof.
  intros Hc Hnf Hx. unfold lrInfer, testVector.
  destruct (writes_ok (idx x) (entry1 rO x) 0 nf 0 (repeat rO (2 ^ s))) as (xv & Ex & _ & Nx); [intros k Hk; apply idx_nth; lia|rewrite repeat_length; lia|].
  cbn [Nat.add] in Ex. rewrite Ex. cbn [bind]. unfold infer. set (n := Z.of_nat (2 ^ s)). assert (Hn : 0 < n) by (pose proof (pow2_pos s); lia).
  rewrite (sbind_ok _ _ tt _ tt eq_refl). set (p := fun i : Z => ofList rO xv i *' beta i).
  destruct (rotSum_spec n Hn (fun i => i) 1 ltac:(intros ii; cbv beta; lia) (Z.of_nat nf) p) as (w & Ew & Hw). rewrite (sbind_ok _ _ _ _ _ Ew).
  repeat rewrite (sbind_ok _ _ tt _ tt eq_refl). cbn [o_add exactOps sret bind k_9 k_5 k_8 vconst]. f_equal.
  assert (E0 : w 0 = dt nf (entry1 rO x) (fun k => beta (Z.of_nat k))).
  { rewrite (Hw 0 ltac:(lia)). set (l := Z.to_nat (Z.log2_up (Z.of_nat nf))).
    assert (Hl : (l <= s)%nat). { unfold l. assert (Z.log2_up (Z.of_nat nf) <= Z.of_nat s); [|lia]. destruct nf as [|nf0]; [cbn; lia|]. apply Z.log2_up_le_pow2; [lia|]. change 2 with (Z.of_nat 2). rewrite <- Nat2Z.inj_pow. lia. }
    assert (Hnl : (nf <= 2 ^ l)%nat). { unfold l. destruct nf as [|nf0]; [apply Nat.le_0_l|]. assert (Z.of_nat (S nf0) <= 2 ^ Z.log2_up (Z.of_nat (S nf0))).
      { destruct (Z.eq_dec (Z.of_nat (S nf0)) 1) as [E1|E1]; [rewrite E1; cbn; lia|]. apply Z.log2_up_spec. lia. }
      apply Nat2Z.inj_le. rewrite Nat2Z.inj_pow, Z2Nat.id by apply Z.log2_up_nonneg. exact H. }
    assert (Hls : (2 ^ l <= 2 ^ s)%nat) by (apply Nat.pow_le_mono_r; lia).
    rewrite <- (dot_dim nf (2 ^ l) (fun k => nth k xv rO) (fun k => beta (Z.of_nat k)) Hnl) || idtac.
    rewrite (dot_ext nf (entry1 rO x) (fun k => nth k xv rO) _ (fun k => beta (Z.of_nat k))).
    2:{ intros k Hk. split; [|reflexivity]. rewrite Nx. destruct (Nat.leb_spec (0 + 0) k); [|lia]. destruct (Nat.ltb_spec k (0 + 0 + nf)); [|lia]. cbn [andb]. f_equal. lia. }
    rewrite <- (dot_dim nf (2 ^ l)).
    - unfold dot. apply sum_ext. intros t Ht. unfold p, ofList. rewrite Z.mod_small by (unfold n; lia). replace (0 + 1 * Z.of_nat t) with (Z.of_nat t) by lia. rewrite Nat2Z.id. reflexivity.
    - exact Hnl.
    - intros k Hk. rewrite Nx, nth_repeat0. destruct (Nat.ltb_spec k (0 + 0 + nf)); [lia|]. now rewrite andb_false_r. }
  rewrite E0. unfold sigma3. rewrite <- Hc. ring.
Qed.

(** ** Mini-batches *)
Record ctData := mkCtData { d_z : Z -> R; d_y : Z -> R; d_X : nat -> nat -> R; d_Y : nat -> R }.
Section Batch.
Context (r c : nat).
Notation C := (2 ^ Z.of_nat c).
Notation n := (2 ^ Z.of_nat r * 2 ^ Z.of_nat c).
Context (gn c0 c1 c3 c13 : R) (Hc : c3 *' c13 = c1) (etas : list R) (mask : list R) (y0 : Z -> R).
Context (Hmask : maskOf C n (ofList rO mask)).
Definition dataOk (d : ctData) : Prop := dataOf C n (d_X d) (d_z d) /\ labelsOf C n (d_Y d) (d_z d) (d_y d).
Definition ctArg (d : ctData) : @slotvec R * @slotvec R * list (@slotvec R) :=
  (d_z d, k_1 (VK gn c0 c3 c13 etas [] (d_y d)), k_2 (VK gn c0 c3 c13 etas [] (d_y d))).
Definition resid (V : nat -> R) (d : ctData) (i : Z) : R := (sg c0 c1 c3 (dt (2 ^ c) (d_X d (Z.to_nat (i / C))) V) -' d_Y d (Z.to_nat (i / C))) *' d_z d i.
Ltac op := rewrite (sbind_ok _ _ tt _ tt eq_refl).
Ltac ix H := rewrite (sbind_ok _ _ tt _ tt (slift_ok _ tt _ H)).
Lemma batchCt_ok V v a eta d g u : nth_error etas a = Some eta -> rowsOf C n V v -> dataOk d ->
  exists g' u', batchCt (XO n) (VK gn c0 c3 c13 etas mask y0) (2 ^ Z.of_nat r) C a v (g, u) (ctArg d) tt = Ok ((g', u'), tt) /\
    forall i, 0 <= i < n -> g' i = g i +' ropp gn *' resid V d i /\ u' i = u i +' ropp ((rI -' eta) *' gn) *' resid V d i.
Proof.
  intros Ha Hv [Hz Hy]. pose proof (C_pos c) as HC. pose proof (n_pos r c) as Hn. assert (HCn : (C | n)) by (exists (2 ^ Z.of_nat r); reflexivity).
  assert (I2 : forall f, idx (map f etas) a = Ok (f eta : Z -> R)). { intros f. unfold idx. rewrite nth_error_map, Ha. reflexivity. }
  destruct d as [z y X Y]. cbn [d_z d_y d_X d_Y] in *. unfold batchCt, ctArg. cbn [d_z d_y]. do 2 op. ix (I2 (fun eta i => ropp (rI -' eta) *' gn *' (c0 -' y i))). do 2 op.
  ix (I2 (fun eta (_ : Z) => ropp (rI -' eta) *' gn *' c3)). op.
  destruct (sumCol_pow c n (fun i => z i *' v i) (ofList rO mask) (2 ^ Z.of_nat r) Hn HCn Hmask) as (m & Em & Hm0). rewrite (sbind_ok _ _ _ _ _ Em). clear Em.
  assert (Hm := inner_product r c X z v V m Hz Hv Hm0). do 10 op. do 2 eexists. split; [reflexivity|]. intros i Hi. unfold resid. cbn [d_X d_Y d_z]. rewrite <- (Hm i Hi).
  rewrite <- (residual_identity c0 c1 c3 c13 Hc gn (m i) (z i) (y i) _ (Hy i Hi)), <- (residual_identity c0 c1 c3 c13 Hc ((rI -' eta) *' gn) (m i) (z i) (y i) _ (Hy i Hi)).
  cbn [k_1 k_2 k_3 k_5 vconst]. split; ring.
Qed.
Fixpoint residAll (V : nat -> R) (ds : list ctData) (i : Z) : R := match ds with [] => rO | d :: ds => resid V d i +' residAll V ds i end.
Lemma batchCts_ok V v a eta : nth_error etas a = Some eta -> rowsOf C n V v -> forall ds g u, Forall dataOk ds ->
  exists g' u', sfold (batchCt (XO n) (VK gn c0 c3 c13 etas mask y0) (2 ^ Z.of_nat r) C a v) (map ctArg ds) (g, u) tt = Ok ((g', u'), tt) /\
    forall i, 0 <= i < n -> g' i = g i +' ropp gn *' residAll V ds i /\ u' i = u i +' ropp ((rI -' eta) *' gn) *' residAll V ds i.
Proof.
  intros Ha Hv. induction ds as [|d ds IH]; intros g u Hd; cbn [map sfold residAll].
  - exists g, u. split; [reflexivity|]. intros i _. split; ring.
  - inversion Hd as [|? ? Hd1 Hd2]; subst. destruct (batchCt_ok V v a eta d g u Ha Hv Hd1) as (g1 & u1 & E1 & H1). rewrite (sbind_ok _ _ _ _ _ E1).
    destruct (IH g1 u1 Hd2) as (g2 & u2 & E2 & H2). exists g2, u2. split; [exact E2|]. intros i Hi. destruct (H1 i Hi) as [A1 A2]. destruct (H2 i Hi) as [B1 B2]. rewrite B1, B2, A1, A2. split; ring.
Qed.
(** the sum of the gradients of the ciphertexts *)
Fixpoint gradAll (V : nat -> R) (ds : list ctData) (j : nat) : R :=
  match ds with [] => rO | d :: ds => gr c0 c1 c3 (2 ^ c) (d_X d) (d_Y d) (seq 0 (2 ^ r)) V j +' gradAll V ds j end.
Lemma residAll_rows V v ds : rowsOf C n V v -> Forall dataOk ds -> forall i, 0 <= i < n ->
  sum (2 ^ r) (fun t => residAll V ds (C * Z.of_nat t + i mod C)) = gradAll V ds (Z.to_nat (i mod C)).
Proof.
  intros Hv Hd i Hi. induction Hd as [|d ds [Hz Hy] Hd IH]; cbn [residAll gradAll]; [apply sum_zero|].
  rewrite sum_add, IH. f_equal. set (g := fun i : Z => ropp (ropp rI) *' resid V d i).
  rewrite <- (sum_ext (2 ^ r) (fun t => g (C * Z.of_nat t + i mod C))) by (intros t Ht; unfold g; ring).
  rewrite (sum_rows_of r c c0 c1 c3 (d_X d) (d_Y d) (ropp rI) g V (d_z d) v Hz Hv); [ring| |exact Hi]. intros k Hk. reflexivity.
Qed.
Lemma batchIter_ok (batches : list (list (@slotvec R * @slotvec R * list (@slotvec R)))) V B v beta a eta ds : nth_error etas a = Some eta -> rowsOf C n V v -> rowsOf C n B beta ->
  (0 < length batches)%nat -> nth_error batches (a mod length batches) = Some (map ctArg ds) -> Forall dataOk ds ->
  exists v' b', batchIter (XO n) (VK gn c0 c3 c13 etas mask y0) (2 ^ Z.of_nat r) C batches (v, beta) a tt = Ok ((v', b'), tt) /\
    rowsOf C n (fun j => (rI -' eta) *' (V j -' gn *' gradAll V ds j) +' eta *' B j) v' /\ rowsOf C n (fun j => V j -' gn *' gradAll V ds j) b'.
Proof.
  intros Ha Hv Hb Hlb Hbat Hd. pose proof (C_pos c) as HC.
  assert (I2 : forall f, idx (map f etas) a = Ok (f eta : Z -> R)). { intros f. unfold idx. rewrite nth_error_map, Ha. reflexivity. }
  destruct (length batches) as [|lb] eqn:El; [lia|]. unfold batchIter. assert (Ib : idx batches (a mod S lb) = Ok (map ctArg ds)) by (unfold idx; rewrite Hbat; reflexivity).
  cbv zeta. rewrite El. cbv iota. ix Ib. do 2 op. destruct (batchCts_ok V v a eta Ha Hv ds (fun _ => rO) (fun _ => rO) Hd) as (g & u & E & Hgu). rewrite (sbind_ok _ _ _ _ _ E).
  destruct (sumRow_pow r C g HC) as (G & EG & HG). rewrite (sbind_ok _ _ _ _ _ EG). op. ix (I2 (fun eta (_ : Z) => rI -' eta)). op. ix (I2 (fun eta (_ : Z) => eta)). do 2 op.
  destruct (sumRow_pow r C u HC) as (U & EU & HU). rewrite (sbind_ok _ _ _ _ _ EU). op. do 2 eexists. split; [reflexivity|].
  assert (Hin : forall i t, 0 <= i < n -> (t < 2 ^ r)%nat -> 0 <= C * Z.of_nat t + i mod C < n).
  { intros i t Hi Ht. destruct (slot_bounds r c i Hi) as [_ Hj]. pose proof (Z.mod_pos_bound i C HC). replace (i mod C) with (Z.of_nat (Z.to_nat (i mod C))) by lia. apply (slot_split r c t _ Ht Hj). }
  assert (EG' : forall i, 0 <= i < n -> G i = ropp gn *' gradAll V ds (Z.to_nat (i mod C))).
  { intros i Hi. rewrite (HG i Hi), <- (residAll_rows V v ds Hv Hd i Hi), <- sum_mul_l. apply sum_ext. intros t Ht. destruct (Hgu _ (Hin i t Hi Ht)) as [-> _]. ring. }
  assert (EU' : forall i, 0 <= i < n -> U i = ropp ((rI -' eta) *' gn) *' gradAll V ds (Z.to_nat (i mod C))).
  { intros i Hi. rewrite (HU i Hi), <- (residAll_rows V v ds Hv Hd i Hi), <- sum_mul_l. apply sum_ext. intros t Ht. destruct (Hgu _ (Hin i t Hi Ht)) as [_ ->]. ring. }
  split; intros i Hi.
  - rewrite (EU' i Hi), (Hv i Hi), (Hb i Hi). ring.
  - rewrite (EG' i Hi), (Hv i Hi). ring.
Qed.
End Batch.
End Ring.
