(** mkckks/utils.go: bit reversal, reduction of constants, modulus chains. *)
From Coq Require Import ZArith Znumtheory Lia Bool List String Reals Lra Psatz.
From Verif Require Import Spec SpecProofs Go GoProofs Arith Lattigo LattigoProofs.
From Verif Require Import F64 F64Proofs F64More Utils SpecEv EvFloat EvProofs RingOpsProofs NTTProofs.
Import ListNotations.
Local Open Scope Z_scope.

(** * bit reversal *)
(** the counter of the loop: digit t of c counts (N/2)/2^t *)
Fixpoint V (b : Z) (h : nat) (c : Z) : Z := match h with O => 0 | S h => (c mod 2) * b + V (b / 2) h (c / 2) end.
Lemma V_bound h : forall b c, 0 <= b -> 0 <= V b h c /\ (1 <= b -> V b h c < 2 * b).
Proof.
  induction h as [|h IH]; intros b c Hb; cbn [V]; [lia|]. pose proof (Z.mod_pos_bound c 2 ltac:(lia)) as M.
  assert (0 <= b / 2) as H2 by (apply Z.div_pos; lia). destruct (IH (b / 2) (c / 2) H2) as [L U]. assert (0 <= c mod 2 * b) by (apply Z.mul_nonneg_nonneg; lia).
  split; [lia|]. intros H1. assert (c mod 2 * b <= b) by nia. destruct (Z_le_gt_dec 1 (b / 2)) as [Hh|Hh].
  - specialize (U Hh). pose proof (Z.mul_div_le b 2 ltac:(lia)). lia.
  - assert (b / 2 = 0) as -> by lia. assert (forall h c, V 0 h c = 0) as ->. { clear. induction h as [|h IH]; intros c; cbn [V]; [auto|]. rewrite IH. lia. } lia.
Qed.
Lemma V_lt h b c : 1 <= b -> V (b / 2) h c < b.
Proof.
  intros Hb. destruct (Z_le_gt_dec 1 (b / 2)) as [H|H].
  - destruct (V_bound h (b / 2) c ltac:(lia)) as [_ U]. specialize (U H). pose proof (Z.mul_div_le b 2 ltac:(lia)). lia.
  - assert (b / 2 = 0) as -> by (pose proof (Z.div_pos b 2); lia). assert (forall h c, V 0 h c = 0) as ->. { clear. induction h as [|h IH]; intros c; cbn [V]; [auto|]. rewrite IH. lia. } lia.
Qed.
Lemma half_pow b h : 1 <= b -> 1 <= b / 2 ^ Z.of_nat (S h) -> 1 <= b / 2 / 2 ^ Z.of_nat h.
Proof. intros Hb H. rewrite Z.div_div by lia. replace (2 * 2 ^ Z.of_nat h) with (2 ^ Z.of_nat (S h)); [exact H|]. rewrite Nat2Z.inj_succ, Z.pow_succ_r by lia. ring. Qed.
(** one step of the counter *)
Lemma br_step : forall h fuel b c, 1 <= b / 2 ^ Z.of_nat h -> 0 <= c < 2 ^ Z.of_nat (S h) - 1 -> (S h < fuel)%nat ->
  exists j' bit', brLoop fuel (V b (S h) c) b = Some (j', bit') /\ j' + bit' = V b (S h) (c + 1).
Proof.
  induction h as [|h IH]; intros fuel b c Hb Hc Hf; (destruct fuel as [|fuel]; [lia|]); cbn [brLoop].
  - assert (c = 0) as -> by (change (2 ^ Z.of_nat 1) with 2 in Hc; lia). rewrite Z.div_1_r in Hb. cbn [V]. change (0 mod 2) with 0. change ((0 + 1) mod 2) with 1. destruct (Z.leb_spec b (0 * b + 0)); [lia|]. do 2 eexists. split; [reflexivity|]. lia.
  - assert (Hb1 : 1 <= b). { destruct (Z_le_gt_dec 1 b); auto. assert (b / 2 ^ Z.of_nat (S h) <= 0); [|lia]. apply Z.div_le_upper_bound; [lia|]. lia. }
    change (V b (S (S h)) c) with (c mod 2 * b + V (b / 2) (S h) (c / 2)). change (V b (S (S h)) (c + 1)) with ((c + 1) mod 2 * b + V (b / 2) (S h) ((c + 1) / 2)).
    pose proof (V_lt (S h) b (c / 2) Hb1) as HV. pose proof (proj1 (V_bound (S h) (b / 2) (c / 2) ltac:(apply Z.div_pos; lia))) as HV0.
    pose proof (Z.div_mod c 2 ltac:(lia)) as D. pose proof (Z.mod_pos_bound c 2 ltac:(lia)) as M. set (c2 := c / 2) in *.
    assert (HP : 2 ^ Z.of_nat (S (S h)) = 2 * 2 ^ Z.of_nat (S h)) by (rewrite (Nat2Z.inj_succ (S h)), Z.pow_succ_r by lia; reflexivity).
    destruct (Z.eq_dec (c mod 2) 0) as [E|E].
    + rewrite E in *. assert ((c + 1) mod 2 = 1 /\ (c + 1) / 2 = c2) as [-> ->]. { split; [symmetry; apply (Z.mod_unique_pos _ 2 c2); lia|symmetry; apply (Z.div_unique_pos _ 2 _ 1); lia]. }
      destruct (Z.leb_spec b (0 * b + V (b / 2) (S h) c2)); [lia|]. do 2 eexists. split; [reflexivity|]. lia.
    + assert (E1 : c mod 2 = 1) by lia. rewrite E1 in *. assert ((c + 1) mod 2 = 0 /\ (c + 1) / 2 = c2 + 1) as [-> ->]. { split; [symmetry; apply (Z.mod_unique_pos _ 2 (c2 + 1)); lia|symmetry; apply (Z.div_unique_pos _ 2 _ 0); lia]. }
      destruct (Z.leb_spec b (1 * b + V (b / 2) (S h) c2)); [|lia]. replace (1 * b + V (b / 2) (S h) c2 - b) with (V (b / 2) (S h) c2) by lia.
      destruct (IH fuel (b / 2) c2) as (j' & bit' & EE & Hj); [now apply half_pow|lia|lia|]. exists j', bit'. split; [exact EE|]. lia.
Qed.
(** the loop never ends once the counter overflows *)
Lemma br_zero fuel : brLoop fuel 0 0 = None.
Proof. induction fuel as [|f IH]; [reflexivity|]. cbn. exact IH. Qed.
Lemma br_over : forall h fuel b, b / 2 ^ Z.of_nat h = 0 -> 0 <= b -> brLoop fuel (V b h (2 ^ Z.of_nat h - 1)) b = None.
Proof.
  induction h as [|h IH]; intros fuel b Hb Hb0.
  - rewrite Z.div_1_r in Hb. subst b. apply br_zero.
  - destruct fuel as [|fuel]; [reflexivity|]. cbn [brLoop V]. assert (HP : 2 ^ Z.of_nat (S h) = 2 * 2 ^ Z.of_nat h) by (rewrite Nat2Z.inj_succ, Z.pow_succ_r by lia; reflexivity).
    pose proof (Z.pow_pos_nonneg 2 (Z.of_nat h) ltac:(lia) ltac:(lia)). rewrite HP in *.
    assert ((2 * 2 ^ Z.of_nat h - 1) mod 2 = 1 /\ (2 * 2 ^ Z.of_nat h - 1) / 2 = 2 ^ Z.of_nat h - 1) as [-> ->]. { split; [symmetry; apply (Z.mod_unique_pos _ 2 (2 ^ Z.of_nat h - 1)); lia|symmetry; apply (Z.div_unique_pos _ 2 _ 1); lia]. }
    pose proof (proj1 (V_bound h (b / 2) (2 ^ Z.of_nat h - 1) ltac:(apply Z.div_pos; lia))). destruct (Z.leb_spec b (1 * b + V (b / 2) h (2 ^ Z.of_nat h - 1))); [|lia].
    replace (1 * b + V (b / 2) h (2 ^ Z.of_nat h - 1) - b) with (V (b / 2) h (2 ^ Z.of_nat h - 1)) by lia. apply IH; [|apply Z.div_pos; lia]. rewrite Z.div_div by lia. exact Hb.
Qed.
(** bit t of R i is bit k-1-t of i *)
Lemma V_testbit : forall h c t, 0 <= c -> 0 <= t <= Z.of_nat h -> Z.testbit (V (2 ^ Z.of_nat h) (S h) c) t = Z.testbit c (Z.of_nat h - t).
Proof.
  induction h as [|h IH]; intros c t Hc Ht.
  - assert (t = 0) as -> by lia. cbn [V]. change (Z.of_nat 0 - 0) with 0. change (2 ^ Z.of_nat 0) with 1. rewrite Z.mul_1_r, Z.add_0_r. rewrite <- (Z.bit0_mod c). now destruct (Z.testbit c 0).
  - assert (HP : 2 ^ Z.of_nat (S h) = 2 * 2 ^ Z.of_nat h) by (rewrite Nat2Z.inj_succ, Z.pow_succ_r by lia; reflexivity).
    change (V (2 ^ Z.of_nat (S h)) (S (S h)) c) with (c mod 2 * 2 ^ Z.of_nat (S h) + V (2 ^ Z.of_nat (S h) / 2) (S h) (c / 2)).
    replace (2 ^ Z.of_nat (S h) / 2) with (2 ^ Z.of_nat h) by (rewrite HP, Z.mul_comm, Z.div_mul by lia; reflexivity).
    pose proof (Z.pow_pos_nonneg 2 (Z.of_nat h) ltac:(lia) ltac:(lia)) as Hp. set (v := V (2 ^ Z.of_nat h) (S h) (c / 2)).
    assert (Hv : 0 <= v < 2 ^ Z.of_nat (S h)). { destruct (V_bound (S h) (2 ^ Z.of_nat h) (c / 2) ltac:(lia)) as [L U]. fold v in L, U. specialize (U ltac:(lia)). lia. }
    destruct (Z.eq_dec t (Z.of_nat (S h))) as [->|Hne].
    + rewrite Z.sub_diag. rewrite <- (Z.add_0_l (Z.of_nat (S h))) at 2. rewrite <- Z.div_pow2_bits by lia. rewrite Z.add_comm, Z.div_add, Z.div_small by lia. rewrite Z.add_0_l. rewrite <- (Z.bit0_mod c). now destruct (Z.testbit c 0).
    + rewrite <- (Z.mod_pow2_bits_low _ (Z.of_nat (S h)) t) by lia. rewrite Z.add_comm, Z.mod_add, Z.mod_small by lia. unfold v. rewrite IH by (try apply Z.div_pos; lia).
      rewrite Z.div2_bits by lia. f_equal. lia.
Qed.
Definition R (h : nat) (i : nat) : nat := Z.to_nat (V (2 ^ Z.of_nat h) (S h) (Z.of_nat i)).
Lemma R_Z h i : Z.of_nat (R h i) = V (2 ^ Z.of_nat h) (S h) (Z.of_nat i).
Proof. unfold R. apply Z2Nat.id. apply V_bound. lia. Qed.
Lemma R_lt h i : (R h i < 2 ^ S h)%nat.
Proof.
  pose proof (R_Z h i) as E. destruct (V_bound (S h) (2 ^ Z.of_nat h) (Z.of_nat i) ltac:(lia)) as [_ U]. specialize (U ltac:(lia)). rewrite <- E in U.
  apply Nat2Z.inj_lt. rewrite Nat2Z.inj_pow. change (Z.of_nat 2) with 2. rewrite Nat2Z.inj_succ, Z.pow_succ_r by lia. lia.
Qed.
Lemma small_bits n a b : 0 <= a < 2 ^ n -> 0 <= b < 2 ^ n -> (forall t, 0 <= t < n -> Z.testbit a t = Z.testbit b t) -> a = b.
Proof.
  intros Ha Hb H. apply Z.bits_inj'. intros t Ht. destruct (Z_lt_ge_dec t n) as [Hl|Hg]; [apply H; lia|].
  assert (0 <= n) by (destruct (Z_lt_ge_dec n 0) as [Hn|]; [rewrite (Z.pow_neg_r 2 n Hn) in Ha; lia|lia]).
  rewrite <- (Z.mod_small a (2 ^ n)), <- (Z.mod_small b (2 ^ n)) by lia. now rewrite !Z.mod_pow2_bits_high by lia.
Qed.
Lemma R_unique h i j : (j < 2 ^ S h)%nat -> (forall t, 0 <= t <= Z.of_nat h -> Z.testbit (Z.of_nat j) t = Z.testbit (Z.of_nat i) (Z.of_nat h - t)) -> j = R h i.
Proof.
  intros Hj H. apply Nat2Z.inj. rewrite R_Z. apply (small_bits (Z.of_nat (S h))).
  - apply Nat2Z.inj_lt in Hj. rewrite Nat2Z.inj_pow in Hj. change (Z.of_nat 2) with 2 in Hj. lia.
  - rewrite <- R_Z. pose proof (R_lt h i) as L. apply Nat2Z.inj_lt in L. rewrite Nat2Z.inj_pow in L. change (Z.of_nat 2) with 2 in L. lia.
  - intros t Ht. rewrite H by lia. rewrite V_testbit by lia. reflexivity.
Qed.
Lemma R_bits h i t : 0 <= t <= Z.of_nat h -> Z.testbit (Z.of_nat (R h i)) t = Z.testbit (Z.of_nat i) (Z.of_nat h - t).
Proof. intros Ht. rewrite R_Z. apply V_testbit; lia. Qed.
Lemma R_inv h i : (i < 2 ^ S h)%nat -> R h (R h i) = i.
Proof. intros Hi. symmetry. apply R_unique; [exact Hi|]. intros t Ht. rewrite R_bits by lia. f_equal. lia. Qed.

Local Notation length := List.length.
Section Slice.
Context {A : Type}.
Lemma nth_error_set (l : list A) i x k : (i < length l)%nat -> nth_error (firstn i l ++ x :: skipn (i + 1) l) k = if Nat.eqb k i then Some x else nth_error l k.
Proof.
  intros Hi. assert (HL : length (firstn i l) = i) by (rewrite firstn_length; lia). destruct (Nat.eqb_spec k i) as [->|Hne].
  - rewrite nth_error_app2 by lia. rewrite HL, Nat.sub_diag. reflexivity.
  - destruct (Nat.lt_ge_cases k i).
    + rewrite nth_error_app1 by lia. rewrite <- (firstn_skipn i l) at 2. rewrite nth_error_app1 by lia. reflexivity.
    + rewrite nth_error_app2 by lia. rewrite HL. destruct (k - i)%nat as [|m] eqn:E; [lia|]. cbn [nth_error]. rewrite <- (firstn_skipn (i + 1) l) at 2. rewrite nth_error_app2 by (rewrite firstn_length; lia). rewrite firstn_length. f_equal. lia.
Qed.
Lemma set_length (l : list A) i x : (i < length l)%nat -> length (firstn i l ++ x :: skipn (i + 1) l) = length l.
Proof. intros Hi. rewrite app_length. cbn [length]. rewrite firstn_length, skipn_length. lia. Qed.
Lemma swap_ok (l : list A) i j : (i < length l)%nat -> (j < length l)%nat -> i <> j ->
  exists l', swap l i j = Ok l' /\ length l' = length l /\ forall k, nth_error l' k = if Nat.eqb k i then nth_error l j else if Nat.eqb k j then nth_error l i else nth_error l k.
Proof.
  intros Hi Hj Hne. destruct (nth_error l i) as [x|] eqn:Ei; [|apply nth_error_None in Ei; lia]. destruct (nth_error l j) as [y|] eqn:Ej; [|apply nth_error_None in Ej; lia].
  unfold swap, idx. rewrite Ei, Ej. cbn [bind]. eexists. split; [reflexivity|]. pose proof (set_length l i y Hi) as L1. split; [rewrite set_length by lia; exact L1|]. intros k.
  rewrite nth_error_set by lia. rewrite nth_error_set by auto. destruct (Nat.eqb_spec k j), (Nat.eqb_spec k i); subst; auto; congruence.
Qed.
Definition done (h m : nat) (s0 s : list A) : Prop :=
  length s = length s0 /\ forall x, nth_error s x = if andb (Nat.ltb x (2 ^ S h)) (Nat.leb (Nat.min x (R h x)) m) then nth_error s0 (R h x) else nth_error s0 x.
Definition revStep (fuel : nat) (N : Z) : list A * Z -> nat -> res (list A * Z) :=
  fun '(sl, j) i => match brLoop fuel j (N / 2) with None => Panic PDiverge | Some (j, bit) => let j := j + bit in
      if Z.of_nat i <? j then let* sl := swap sl i (Z.to_nat j) in Ok (sl, j) else Ok (sl, j) end.
Lemma rev_loop h fuel (s0 : list A) : (S h < fuel)%nat -> (2 ^ S h <= length s0)%nat -> forall n m s, (m + n < 2 ^ S h)%nat -> done h m s0 s ->
  exists s', foldM (fun '(sl, j) i => match brLoop fuel j (2 ^ Z.of_nat (S h) / 2) with None => Panic PDiverge | Some (j, bit) => let j := j + bit in
      if Z.of_nat i <? j then let* sl := swap sl i (Z.to_nat j) in Ok (sl, j) else Ok (sl, j) end) (seq (S m) n) (s, V (2 ^ Z.of_nat h) (S h) (Z.of_nat m)) = Ok (s', V (2 ^ Z.of_nat h) (S h) (Z.of_nat (m + n))) /\ done h (m + n) s0 s'.
Proof.
  intros Hf HL. assert (HP : 2 ^ Z.of_nat (S h) = 2 * 2 ^ Z.of_nat h) by (rewrite Nat2Z.inj_succ, Z.pow_succ_r by lia; reflexivity).
  assert (Hb : 2 ^ Z.of_nat (S h) / 2 = 2 ^ Z.of_nat h) by (rewrite HP, Z.mul_comm, Z.div_mul by lia; reflexivity). rewrite Hb.
  assert (HPn : Z.of_nat (2 ^ S h) = 2 ^ Z.of_nat (S h)) by (rewrite Nat2Z.inj_pow; reflexivity).
  induction n as [|n IH]; intros m s Hm Hd. { rewrite Nat.add_0_r. exists s. split; [reflexivity|exact Hd]. }
  cbn [seq foldM]. destruct (br_step h fuel (2 ^ Z.of_nat h) (Z.of_nat m)) as (j' & bit' & E & Ej); [rewrite Z.div_same by lia; lia|rewrite <- HPn; lia|auto|].
  rewrite E. cbn [bind]. rewrite Ej. cbv zeta. replace (Z.of_nat m + 1) with (Z.of_nat (S m)) by lia. rewrite <- R_Z. rewrite Nat2Z.id.
  replace (m + S n)%nat with (S m + n)%nat by lia. destruct Hd as [Hlen Hd]. set (i := S m) in *. pose proof (R_lt h i) as HRi. assert (Hi : (i < 2 ^ S h)%nat) by (unfold i; lia). pose proof (R_inv h i Hi) as HRR.
  destruct (Z.ltb_spec (Z.of_nat i) (Z.of_nat (R h i))) as [Hlt|Hge].
  - destruct (swap_ok s i (R h i)) as (s1 & E1 & L1 & N1); [lia|lia|lia|]. rewrite E1. cbn [bind]. rewrite R_Z. apply IH; [lia|]. split; [lia|]. intros x. rewrite N1.
    destruct (Nat.eqb_spec x i) as [->|Hxi]; [|destruct (Nat.eqb_spec x (R h i)) as [->|Hxj]].
    + rewrite Hd. rewrite (proj2 (Nat.ltb_lt i _) Hi), (proj2 (Nat.ltb_lt (R h i) _) HRi). rewrite HRR. destruct (Nat.leb_spec (Nat.min (R h i) i) m); [unfold i in *; lia|]. destruct (Nat.leb_spec (Nat.min i (R h i)) i); [reflexivity|lia].
    + rewrite Hd. rewrite (proj2 (Nat.ltb_lt i _) Hi), (proj2 (Nat.ltb_lt (R h i) _) HRi). rewrite HRR. destruct (Nat.leb_spec (Nat.min i (R h i)) m); [unfold i in *; lia|]. destruct (Nat.leb_spec (Nat.min (R h i) i) i); [reflexivity|lia].
    + rewrite Hd. destruct (Nat.ltb_spec x (2 ^ S h)) as [Hx|Hx]; [|reflexivity]. cbn [andb]. assert (R h x <> i) by (intros Ex; apply Hxj; rewrite <- Ex; symmetry; now apply R_inv).
      destruct (Nat.leb_spec (Nat.min x (R h x)) m), (Nat.leb_spec (Nat.min x (R h x)) i); auto; unfold i in *; lia.
  - cbn [bind]. rewrite R_Z. apply IH; [lia|]. split; [lia|]. intros x. rewrite Hd. destruct (Nat.ltb_spec x (2 ^ S h)) as [Hx|Hx]; [|reflexivity]. cbn [andb].
    destruct (Nat.leb_spec (Nat.min x (R h x)) m), (Nat.leb_spec (Nat.min x (R h x)) i); auto; [unfold i in *; lia|].
    destruct (Nat.eq_dec x i) as [->|Hxi].
    + assert (R h i = i) as -> by (unfold i in *; lia). reflexivity.
    + assert (Ex : R h x = i) by (unfold i in *; lia). assert (x = R h i) by (rewrite <- Ex; symmetry; now apply R_inv). unfold i in *; lia.
Qed.
Lemma bit_reverse k fuel (s : list A) : (k < fuel)%nat -> (2 ^ k <= length s)%nat ->
  exists s', SliceBitReverse fuel s (2 ^ Z.of_nat k) = Ok s' /\ length s' = length s /\
    (forall i j, (i < 2 ^ k)%nat -> (j < 2 ^ k)%nat -> (forall t, 0 <= t < Z.of_nat k -> Z.testbit (Z.of_nat j) t = Z.testbit (Z.of_nat i) (Z.of_nat k - 1 - t)) -> nth_error s' j = nth_error s i) /\
    (forall i, (2 ^ k <= i)%nat -> nth_error s' i = nth_error s i).
Proof.
  intros Hf HL. destruct k as [|h].
  - exists s. split; [reflexivity|]. split; [auto|]. split; [|auto]. intros i j Hi Hj _. cbn in Hi, Hj. f_equal. lia.
  - unfold SliceBitReverse. replace (Z.to_nat (2 ^ Z.of_nat (S h))) with (2 ^ S h)%nat by (rewrite <- (Nat2Z.id (2 ^ S h)), Nat2Z.inj_pow; reflexivity).
    pose proof (Nat.pow_nonzero 2 (S h) ltac:(lia)).
    destruct (rev_loop h fuel s Hf HL (2 ^ S h - 1) 0 s) as (s' & E & Hl & Hd); [lia| |].
    { split; [auto|]. intros x. destruct (Nat.ltb_spec x (2 ^ S h)) as [Hx|]; [|reflexivity]. cbn [andb]. destruct (Nat.leb_spec (Nat.min x (R h x)) 0) as [H0|]; [|reflexivity].
      assert (R0 : R h 0 = 0%nat). { symmetry. apply R_unique; [lia|]. intros t Ht. now rewrite !Z.bits_0. }
      destruct (Nat.eq_dec x 0) as [->|]; [now rewrite R0|]. assert (Ex : R h x = 0%nat) by lia. pose proof (R_inv h x Hx) as I. rewrite Ex, R0 in I. lia. }
    assert (V0 : V (2 ^ Z.of_nat h) (S h) (Z.of_nat 0) = 0). { rewrite <- R_Z. replace (R h 0) with 0%nat; [reflexivity|]. apply R_unique; [lia|]. intros t Ht. now rewrite !Z.bits_0. }
    rewrite V0 in E. change (foldM (revStep fuel (2 ^ Z.of_nat (S h))) (seq 1 (2 ^ S h - 1)) (s, 0) = Ok (s', V (2 ^ Z.of_nat h) (S h) (Z.of_nat (0 + (2 ^ S h - 1))))) in E.
    match goal with |- context [foldM ?f (seq 1 (2 ^ S h - 1)) (s, 0)] => change f with (revStep fuel (2 ^ Z.of_nat (S h))) end. rewrite E. cbn [bind]. exists s'. split; [reflexivity|]. split; [exact Hl|]. split.
    + intros i j Hi Hj Hb. assert (j = R h i) as ->. { apply R_unique; [auto|]. intros t Ht. rewrite Hb by lia. f_equal. lia. }
      rewrite Hd. rewrite (proj2 (Nat.ltb_lt _ _) Hj). rewrite R_inv by auto. cbn [andb]. destruct (Nat.leb_spec (Nat.min (R h i) i) (0 + (2 ^ S h - 1))); [reflexivity|lia].
    + intros i Hi. rewrite Hd. destruct (Nat.ltb_spec i (2 ^ S h)); [lia|reflexivity].
Qed.
Lemma nth_error_all (l l' : list A) : (forall i, nth_error l i = nth_error l' i) -> l = l'.
Proof.
  revert l'. induction l as [|x l IH]; intros [|y l'] H; auto.
  - specialize (H 0%nat). discriminate.
  - specialize (H 0%nat). discriminate.
  - f_equal; [specialize (H 0%nat); cbn in H; congruence|]. apply IH. intros i. exact (H (S i)).
Qed.
Lemma bit_reverse_twice k fuel (s s' s'' : list A) : (k < fuel)%nat -> (2 ^ k <= length s)%nat -> SliceBitReverse fuel s (2 ^ Z.of_nat k) = Ok s' -> SliceBitReverse fuel s' (2 ^ Z.of_nat k) = Ok s'' -> s'' = s.
Proof.
  intros Hf HL E1 E2. destruct (bit_reverse k fuel s Hf HL) as (t1 & F1 & L1 & P1 & Q1). rewrite E1 in F1. injection F1 as <-.
  destruct (bit_reverse k fuel s' Hf ltac:(lia)) as (t2 & F2 & L2 & P2 & Q2). rewrite E2 in F2. injection F2 as <-.
  apply nth_error_all. intros i. destruct (Nat.lt_ge_cases i (2 ^ k)) as [Hi|Hi]; [|now rewrite Q2, Q1].
  destruct k as [|h]. { rewrite (P2 i i Hi Hi), (P1 i i Hi Hi); [reflexivity|intros; lia|intros; lia]. }
  rewrite (P2 (R h i) i); [rewrite (P1 i (R h i)); auto|apply R_lt|auto|].
  - apply R_lt.
  - intros t Ht. rewrite R_bits by lia. f_equal. lia.
  - intros t Ht. rewrite R_bits by lia. f_equal. lia.
Qed.
(** every other N: the loop never ends *)
Lemma over_loop h N fuel (s0 : list A) : Z.of_nat N / 2 ^ Z.of_nat (S h) = 1 -> (2 ^ S h < N)%nat -> (S h < fuel)%nat -> (N <= length s0)%nat ->
  forall n m s, length s = length s0 -> (m + n = 2 ^ S h - 1)%nat -> exists s', length s' = length s0 /\
  foldM (revStep fuel (Z.of_nat N)) (seq (S m) n) (s, V (Z.of_nat N / 2) (S h) (Z.of_nat m)) = Ok (s', V (Z.of_nat N / 2) (S h) (2 ^ Z.of_nat (S h) - 1)).
Proof.
  intros Hd HN Hf HL. assert (HP : 2 ^ Z.of_nat (S h) = 2 * 2 ^ Z.of_nat h) by (rewrite Nat2Z.inj_succ, Z.pow_succ_r by lia; reflexivity).
  assert (HPn : Z.of_nat (2 ^ S h) = 2 ^ Z.of_nat (S h)) by (rewrite Nat2Z.inj_pow; reflexivity). set (b := Z.of_nat N / 2).
  assert (Hb : b / 2 ^ Z.of_nat h = 1) by (unfold b; rewrite Z.div_div by lia; rewrite <- HP; exact Hd).
  assert (Hb1 : 1 <= b). { unfold b. apply Z.div_le_lower_bound; lia. }
  induction n as [|n IH]; intros m s Hs Hm.
  - exists s. split; [auto|]. cbn [seq foldM]. replace (Z.of_nat m) with (2 ^ Z.of_nat (S h) - 1) by lia. reflexivity.
  - cbn [seq foldM]. unfold revStep at 1. fold b. destruct (br_step h fuel b (Z.of_nat m)) as (j' & bit' & E & Ej); [lia|lia|auto|]. rewrite E. cbn [bind]. rewrite Ej. cbv zeta.
    pose proof (V_bound (S h) b (Z.of_nat m + 1) ltac:(lia)) as [B1 B2]. specialize (B2 Hb1). assert (Hbn : 2 * b <= Z.of_nat N) by (unfold b; apply Z.mul_div_le; lia).
    replace (Z.of_nat m + 1) with (Z.of_nat (S m)) in * by lia. destruct (Z.ltb_spec (Z.of_nat (S m)) (V b (S h) (Z.of_nat (S m)))) as [Hlt|Hge].
    + destruct (swap_ok s (S m) (Z.to_nat (V b (S h) (Z.of_nat (S m))))) as (s1 & E1 & L1 & _); [lia|lia|lia|]. rewrite E1. cbn [bind]. apply IH; lia.
    + cbn [bind]. apply IH; lia.
Qed.
Lemma brLoop_mono : forall f f' j b, (f <= f')%nat -> brLoop f j b = None \/ brLoop f j b = brLoop f' j b.
Proof. induction f as [|f IH]; intros [|f'] j b Hf; [now left|now left|lia|]. cbn [brLoop]. destruct (b <=? j); [apply IH; lia|now right]. Qed.
Lemma rev_mono f f' N : (f <= f')%nat -> forall l s, foldM (revStep f N) l s = Panic PDiverge \/ foldM (revStep f N) l s = foldM (revStep f' N) l s.
Proof.
  intros Hf. induction l as [|i l IH]; intros [s j]; [now right|]. cbn [foldM]. unfold revStep at 1 3 5. destruct (brLoop_mono f f' j (N / 2) Hf) as [E|E].
  - left. now rewrite E.
  - rewrite E. destruct (brLoop f' j (N / 2)) as [[j' b']|]; [|now left]. cbv zeta. destruct (Z.of_nat i <? j' + b'); [|cbn [bind]; apply IH].
    destruct (swap s i (Z.to_nat (j' + b'))); cbn [bind]; [apply IH|now right].
Qed.
Lemma bit_reverse_diverges N fuel (s : list A) : (forall k, N <> 2 ^ k)%nat -> (0 < N)%nat -> (N <= length s)%nat -> SliceBitReverse fuel s (Z.of_nat N) = Panic PDiverge.
Proof.
  intros Hk HN HL. assert (N2 : (2 < N)%nat). { destruct N as [|[|[|N]]]; try lia; exfalso; [apply (Hk 0%nat)|apply (Hk 1%nat)]; reflexivity. }
  set (l := Nat.log2 N). pose proof (Nat.log2_spec N HN) as [G1 G2]. fold l in G1, G2. assert (Hl : (1 <= l)%nat) by (unfold l; change 1%nat with (Nat.log2 2); apply Nat.log2_le_mono; lia).
  destruct l as [|h]; [lia|]. assert (G3 : (2 ^ S h < N)%nat) by (specialize (Hk (S h)); lia).
  assert (HPn : Z.of_nat (2 ^ S h) = 2 ^ Z.of_nat (S h)) by (rewrite Nat2Z.inj_pow; reflexivity).
  assert (HPs : (2 ^ S (S h) = 2 * 2 ^ S h)%nat) by reflexivity.
  assert (Hd : Z.of_nat N / 2 ^ Z.of_nat (S h) = 1). { rewrite <- HPn. symmetry. apply (Z.div_unique_pos _ _ _ (Z.of_nat N - Z.of_nat (2 ^ S h))); lia. }
  assert (HX : foldM (revStep (fuel + S (S h)) (Z.of_nat N)) (seq 1 (N - 1)) (s, 0) = Panic PDiverge).
  { assert (V0 : forall h b, V b h 0 = 0). { clear. induction h as [|h IH]; intros b; cbn [V]; [auto|]. change (0 / 2) with 0. rewrite IH. reflexivity. }
    replace (N - 1)%nat with (2 ^ S h - 1 + (N - 2 ^ S h))%nat by lia. rewrite seq_app. rewrite foldM_app.
    destruct (over_loop h N (fuel + S (S h)) s Hd G3 ltac:(lia) HL (2 ^ S h - 1) 0 s eq_refl eq_refl) as (s' & Hs' & E). change (Z.of_nat 0) with 0 in E. rewrite V0 in E. rewrite E. cbn [bind].
    destruct (N - 2 ^ S h)%nat as [|n] eqn:En; [lia|]. cbn [seq foldM]. unfold revStep at 1. rewrite br_over; [reflexivity| |apply Z.div_pos; lia].
    rewrite Z.div_div by lia. replace (2 * 2 ^ Z.of_nat (S h)) with (Z.of_nat (2 ^ S (S h))) by (rewrite HPs, Nat2Z.inj_mul, HPn; reflexivity). apply Z.div_small. lia. }
  unfold SliceBitReverse. rewrite Nat2Z.id. change (bind (foldM (revStep fuel (Z.of_nat N)) (seq 1 (N - 1)) (s, 0)) (fun '(sl, _) => Ok sl) = Panic PDiverge).
  destruct (rev_mono fuel (fuel + S (S h)) (Z.of_nat N) ltac:(lia) (seq 1 (N - 1)) (s, 0)) as [->| ->]; [reflexivity|]. now rewrite HX.
Qed.
End Slice.
