(** The Galois elements 5^k mod 2N and their inverses. *)
From Coq Require Import ZArith Znumtheory List Lia Bool Setoid.
From Verif Require Import Arith NegRing NegRingProofs NTT NTTProofs RingOps RingOpsProofs KeySwitch.
Import ListNotations.
Local Open Scope Z_scope.

Lemma odd_pow2 g k : Z.Odd g -> cong (2 ^ (Z.of_nat k + 1)) (g ^ (2 ^ Z.of_nat k)) 1.
Proof.
  intros Hg. induction k as [|k IH].
  - change (2 ^ Z.of_nat 0) with 1. change (2 ^ (Z.of_nat 0 + 1)) with 2. rewrite Z.pow_1_r. destruct Hg as [h ->]. exists h. ring.
  - rewrite Nat2Z.inj_succ, Z.pow_succ_r by lia. rewrite (Z.mul_comm 2), Z.pow_mul_r by (try apply Z.pow_nonneg; lia).
    set (x := g ^ 2 ^ Z.of_nat k) in *. destruct IH as [t Ht]. replace (Z.succ (Z.of_nat k) + 1) with (Z.succ (Z.of_nat k + 1)) by lia.
    rewrite Z.pow_succ_r by lia. set (m := 2 ^ (Z.of_nat k + 1)) in *. assert (Hm : m = 2 * 2 ^ Z.of_nat k) by (unfold m; rewrite Z.pow_add_r by lia; ring).
    assert (Hx : x = 1 + t * m) by lia. exists (t + t * t * 2 ^ Z.of_nat k). rewrite Hx. rewrite Z.pow_2_r. rewrite Hm. ring.
Qed.
Lemma five_pow2 k : cong (2 ^ (Z.of_nat k + 2)) (5 ^ (2 ^ Z.of_nat k)) 1.
Proof.
  induction k as [|k IH].
  - exists 1. reflexivity.
  - rewrite Nat2Z.inj_succ, Z.pow_succ_r by lia. rewrite (Z.mul_comm 2), Z.pow_mul_r by (try apply Z.pow_nonneg; lia).
    set (x := 5 ^ 2 ^ Z.of_nat k) in *. destruct IH as [t Ht]. replace (Z.succ (Z.of_nat k) + 2) with (Z.succ (Z.of_nat k + 2)) by lia.
    rewrite Z.pow_succ_r by lia. set (m := 2 ^ (Z.of_nat k + 2)) in *. assert (Hm : m = 2 * (2 * 2 ^ Z.of_nat k)) by (unfold m; rewrite Z.pow_add_r by lia; ring).
    assert (Hx : x = 1 + t * m) by lia. exists (t + t * t * (2 * 2 ^ Z.of_nat k)). rewrite Hx. rewrite Z.pow_2_r. rewrite Hm. ring.
Qed.
Lemma odd_powZ g k : Z.Odd g -> 0 <= k -> Z.Odd (g ^ k).
Proof.
  intros Hg. revert k. apply natlike_ind; [exists 0; reflexivity|]. intros x Hx IH. rewrite Z.pow_succ_r by auto.
  rewrite <- Z.odd_spec in *. now rewrite Z.odd_mul, Hg, IH.
Qed.

Section Gal.
Context (logN : nat).
Notation twoN := (2 * Z.of_nat (deg logN)).
Lemma twoN_pow : twoN = 2 ^ (Z.of_nat logN + 1).
Proof. rewrite deg_Z, Z.pow_add_r by lia. lia. Qed.
Lemma twoN_pos : 0 < twoN. Proof. pose proof (deg_pos logN). lia. Qed.
Lemma odd_mod x : Z.Odd x -> Z.Odd (x mod twoN).
Proof.
  intros [h Hh]. pose proof (Z.div_mod x twoN ltac:(pose proof twoN_pos; lia)) as HD. set (d := x / twoN) in *. clearbody d.
  exists (h - Z.of_nat (deg logN) * d). lia.
Qed.
Lemma odd_order g : Z.Odd g -> cong twoN (g ^ twoN) 1.
Proof.
  intros Hg. rewrite twoN_pow. pose proof (odd_pow2 g (logN + 1) Hg) as H. rewrite Nat2Z.inj_add in H. change (Z.of_nat 1) with 1 in H.
  eapply Z.divide_trans; [|exact H]. exists 2. rewrite (Z.pow_add_r 2 (Z.of_nat logN + 1) 1) by lia. ring.
Qed.
Lemma galInverse_ok g : Z.Odd g -> 0 <= galInverse logN g < twoN /\ Z.Odd (galInverse logN g) /\ cong twoN (g * galInverse logN g) 1.
Proof.
  intros Hg. pose proof twoN_pos as H2. unfold galInverse. cbv zeta. split; [apply Z.mod_pos_bound; lia|]. split; [apply odd_mod, odd_powZ; [auto|lia]|].
  rewrite (cong_mod twoN (g ^ (twoN - 1))) by lia. rewrite <- Z.pow_succ_r by lia. replace (Z.succ (twoN - 1)) with twoN by lia. now apply odd_order.
Qed.
Lemma five_odd : Z.Odd 5. Proof. exists 2. reflexivity. Qed.
Lemma galColumn_ok k : 0 <= galColumn logN k < twoN /\ Z.Odd (galColumn logN k).
Proof.
  pose proof twoN_pos as H2. unfold galColumn. cbv zeta. split; [apply Z.mod_pos_bound; lia|]. apply odd_mod, odd_powZ; [apply five_odd|]. apply Z.mod_pos_bound. lia.
Qed.
Lemma galRow_ok : 0 <= galRow logN < twoN /\ Z.Odd (galRow logN) /\ cong twoN (galRow logN * galRow logN) 1.
Proof.
  pose proof (deg_pos logN). unfold galRow. split; [lia|]. split; [exists (Z.of_nat (deg logN) - 1); lia|]. exists (twoN - 2). ring.
Qed.
(** 5 has order dividing N/2 modulo 2N *)
Lemma five_order : (1 <= logN)%nat -> cong twoN (5 ^ (Z.of_nat (deg logN) / 2)) 1.
Proof.
  intros Hl. rewrite twoN_pow, deg_Z. replace (2 ^ Z.of_nat logN / 2) with (2 ^ Z.of_nat (logN - 1)).
  2:{ replace (Z.of_nat logN) with (Z.of_nat (logN - 1) + 1) by lia. now rewrite Z.pow_add_r, Z.pow_1_r, Z.div_mul by lia. }
  pose proof (five_pow2 (logN - 1)) as H. replace (Z.of_nat (logN - 1) + 2) with (Z.of_nat logN + 1) in H by lia. exact H.
Qed.
Lemma half_pos : (1 <= logN)%nat -> 0 < Z.of_nat (deg logN) / 2 /\ twoN = 4 * (Z.of_nat (deg logN) / 2).
Proof.
  intros Hl. replace logN with (S (logN - 1)) by lia. rewrite deg_S, Nat2Z.inj_mul. change (Z.of_nat 2) with 2. rewrite Z.mul_comm, Z.div_mul by lia.
  pose proof (deg_pos (logN - 1)). lia.
Qed.
Lemma five_cong a b : (1 <= logN)%nat -> 0 <= a -> 0 <= b -> cong (Z.of_nat (deg logN) / 2) a b -> cong twoN (5 ^ a) (5 ^ b).
Proof.
  intros Hl. destruct (half_pos Hl) as [Hh _]. set (h := Z.of_nat (deg logN) / 2) in *.
  assert (G : forall a k, 0 <= a -> 0 <= k -> cong twoN (5 ^ (a + k * h)) (5 ^ a)).
  { intros x k Hx Hk. rewrite Z.pow_add_r by nia. rewrite (Z.mul_comm k h), Z.pow_mul_r by lia.
    assert (HH : cong twoN ((5 ^ h) ^ k) (1 ^ k)) by (apply cong_pow; [auto|apply five_order; auto]). rewrite HH, Z.pow_1_l by lia. apply cong_eq. ring. }
  intros Ha Hb [k Hk]. destruct (Z.le_gt_cases 0 k).
  - replace a with (b + k * h) by lia. now apply G.
  - replace b with (a + (- k) * h) by lia. symmetry. apply G; lia.
Qed.
(** the Galois element of every integer k is 5 to any non-negative representative of k modulo N/2 *)
Lemma galColumn_cong k m : (1 <= logN)%nat -> 0 <= m -> cong (Z.of_nat (deg logN) / 2) k m -> cong twoN (galColumn logN k) (5 ^ m).
Proof.
  intros Hl Hm Hk. pose proof twoN_pos as H2. unfold galColumn. cbv zeta. rewrite cong_mod by lia. destruct (half_pos Hl) as [Hh H4].
  apply five_cong; auto; [apply Z.mod_pos_bound; lia|]. eapply cong_trans; [|exact Hk].
  pose proof (Z.div_mod k twoN ltac:(lia)) as HD. exists (- (4 * (k / twoN))). rewrite H4 in HD at 1. lia.
Qed.
Lemma normNeg_ok k : (1 <= logN)%nat -> 0 <= normNeg logN k /\ cong (Z.of_nat (deg logN) / 2) k (normNeg logN k).
Proof.
  intros Hl. destruct (half_pos Hl) as [Hh _]. unfold normNeg. destruct (Z.ltb_spec k 0).
  - split; [apply Z.mod_pos_bound; lia|]. symmetry. apply cong_mod. lia.
  - split; [auto|reflexivity].
Qed.
End Gal.
