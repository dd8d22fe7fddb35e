(** Proofs about StandardDeviation. *)
From Coq Require Import Reals ZArith List Lia Lra.
From Coq.Floats Require Import SpecFloat.
From Flocq Require Import Core BinarySingleNaN.
From Verif Require Import Spec Go F64 F64Proofs SpecEnc SpecLREnc LRData SpecData LREncProofs LREncLR LRDataProofs LRNorm Stats.
Import ListNotations.
Local Open Scope R_scope.


Definition lsum (f : R -> R) (l : list R) : R := fold_right (fun x a => f x + a) 0 l.
Lemma lsum_fold f l : forall a, fold_left (fun a x => a + f x) l a = a + lsum f l.
Proof. induction l as [|x l IH]; intros a; cbn [fold_left lsum fold_right]; [lra|]. rewrite IH. unfold lsum. lra. Qed.
Lemma lsum_rsum f l : lsum f l = rsum (length l) (fun i => f (nth i l 0)).
Proof.
  induction l as [|x l IH] using rev_ind; [reflexivity|]. rewrite app_length. cbn [length]. rewrite Nat.add_1_r. cbn [rsum]. rewrite app_nth2, Nat.sub_diag by lia. cbn [nth].
  rewrite (rsum_ext _ _ (fun i => f (nth i l 0))) by (intros i Hi; now rewrite app_nth1). rewrite <- IH.
  unfold lsum. rewrite fold_right_app. cbn [fold_right].
  assert (G : forall a, fold_right (fun x a => f x + a) a l = fold_right (fun x a => f x + a) 0 l + a). { clear. induction l as [|y l IH]; intros a; cbn [fold_right]; [lra|]. rewrite IH. lra. }
  rewrite G. lra.
Qed.
Lemma rsum_lin n f g a b c : rsum n (fun i => a * f i + b * g i + c) = a * rsum n f + b * rsum n g + INR n * c.
Proof. induction n as [|n IH]; [cbn; ring|]. cbn [rsum]. rewrite IH, S_INR. ring. Qed.
Theorem std_pairs vec scale : vec <> [] -> let x i := nth i vec 0 in let n := length vec in let s := StandardDeviation Rnum Rmult vec scale in
  2 * INR n * INR n * (s * s) = scale * scale * rsum n (fun i => rsum n (fun j => (x i - x j) * (x i - x j))) /\ 0 <= s * scale.
Proof.
  intros Hv x n s. assert (Hn : 0 < INR n). { apply lt_0_INR. destruct vec; [congruence|cbn; lia]. }
  set (S1 := rsum n x). set (S2 := rsum n (fun i => x i * x i)). set (mu := S1 / INR n).
  set (q := rsum n (fun i => (x i - mu) * (x i - mu))).
  assert (Eq : q = S2 - S1 * S1 / INR n).
  { unfold q. rewrite (rsum_ext n _ (fun i => 1 * (x i * x i) + (-2 * mu) * x i + mu * mu)) by (intros; ring). rewrite rsum_lin. fold S1 S2. unfold mu. field. lra. }
  assert (Es : s = sqrt (q / INR n) * scale).
  { unfold s, StandardDeviation. cbn [nofnat ndiv nadd nsq nsub nsqrt n0 Rnum]. fold n.
    assert (E1 : fold_left (fun m c : R => m + c) vec 0 / INR n = mu). { rewrite (lsum_fold (fun c => c)). rewrite lsum_rsum. unfold mu, S1, x, n. rewrite Rplus_0_l. reflexivity. }
    rewrite E1. rewrite (lsum_fold (fun c => (c - mu) * (c - mu))), lsum_rsum, Rplus_0_l. reflexivity. }
  assert (Hq : 0 <= q) by (apply rsum_pos; intros; apply Rle_0_sqr). assert (Hd : 0 <= q / INR n) by (apply Rmult_le_pos; [exact Hq|]; left; now apply Rinv_0_lt_compat).
  split.
  - assert (Ep : rsum n (fun i => rsum n (fun j => (x i - x j) * (x i - x j))) = 2 * INR n * S2 - 2 * S1 * S1).
    { rewrite (rsum_ext n _ (fun i => INR n * (x i * x i) + (-2 * S1) * x i + S2)).
      - rewrite rsum_lin. fold S1 S2. ring.
      - intros i _. rewrite (rsum_ext n _ (fun j => 1 * (x j * x j) + (-2 * x i) * x j + x i * x i)) by (intros; ring). rewrite rsum_lin. fold S1 S2. ring. }
    rewrite Ep, Es. replace (sqrt (q / INR n) * scale * (sqrt (q / INR n) * scale)) with (scale * scale * (sqrt (q / INR n) * sqrt (q / INR n))) by ring. rewrite sqrt_sqrt by exact Hd. rewrite Eq. field. lra.
  - rewrite Es. rewrite Rmult_assoc. apply Rmult_le_pos; [apply sqrt_pos|apply Rle_0_sqr].
Qed.
Lemma std_empty scale : StandardDeviationF [] scale = S754_nan.
Proof. reflexivity. Qed.
Lemma std_overflow : exists c, finite c /\ StandardDeviationF [c; c] (f_of_Z 1) = S754_infinity false.
Proof. exists (S754_finite false 4503599627370496 971). split; [reflexivity|]. vm_compute. reflexivity. Qed.

(** ** float64: constant vectors *)
Lemma fval0 x : fval x 0 -> is0 x.
Proof. intros (b & -> & Fb & Eb). destruct b as [s|s| |s mm e Hb]; try discriminate; [eexists; reflexivity|]. exfalso. cbn [B2R] in Eb. apply eq_0_F2R in Eb. destruct s; discriminate. Qed.
Lemma big_small z : (Z.abs z <= 2 ^ 53)%Z -> Rabs (rnd (IZR z)) < bpow radix2 1024.
Proof. intros Hz. rewrite rnd_IZR by exact Hz. apply Rle_lt_trans with (bpow radix2 53); [|apply bpow_lt; lia]. rewrite <- IZR_pow2_pos by lia. rewrite <- abs_IZR. now apply IZR_le. Qed.
Lemma sum_const k : forall vec a c, fval a (IZR c) -> (forall x, In x vec -> fval x (IZR k)) -> (Z.abs c + Z.abs k * Z.of_nat (length vec) <= 2 ^ 53)%Z ->
  fval (fold_left (fun m x => fadd m x) vec a) (IZR (c + k * Z.of_nat (length vec))).
Proof.
  induction vec as [|x vec IH]; intros a c Ha Hv B. { cbn [fold_left length]. rewrite Z.mul_0_r, Z.add_0_r. exact Ha. }
  cbn [fold_left]. cbn [length] in B |- *. replace (c + k * Z.of_nat (S (length vec)))%Z with ((c + k) + k * Z.of_nat (length vec))%Z by lia.
  apply IH; [|intros; apply Hv; now right|nia].
  replace (IZR (c + k)) with (rnd (IZR c + IZR k)) by (rewrite <- plus_IZR; apply rnd_IZR; nia).
  apply fval_add; [exact Ha|apply Hv; now left|]. rewrite <- plus_IZR. apply big_small. nia.
Qed.
Theorem std_constant vec k scale : vec <> [] -> (Z.of_nat (length vec) <= 2 ^ 53)%Z -> (Z.abs k * Z.of_nat (length vec) <= 2 ^ 53)%Z ->
  (forall x, In x vec -> finite x /\ fR x = IZR k) -> finite scale -> exists s, StandardDeviationF vec scale = S754_zero s.
Proof.
  intros Hv Hn Hk Hc Hs. set (n := Z.of_nat (length vec)) in *. assert (Hn0 : (0 < n)%Z) by (unfold n; destruct vec; [congruence|cbn; lia]).
  assert (F : forall x, In x vec -> fval x (IZR k)). { intros x Hx. destruct (Hc x Hx) as [H1 H2]. rewrite <- H2. now apply finite_R. }
  pose proof (sum_const k vec f0 0 fval_f0 F ltac:(cbn; lia)) as S. rewrite Z.add_0_l in S. fold n in S.
  assert (Hk1 : (Z.abs k <= 2 ^ 53)%Z) by nia.
  assert (M : fval (fdiv (fold_left (fun m x => fadd m x) vec f0) (f_of_Z n)) (IZR k)).
  { assert (E : (IZR (k * n) / IZR n)%R = IZR k) by (rewrite mult_IZR; field; apply not_0_IZR; lia).
    replace (IZR k) with (rnd (IZR (k * n) / IZR n)) by (rewrite E; now apply rnd_IZR).
    apply fval_div; [exact S|apply fval_small; lia|apply not_0_IZR; lia|]. rewrite E. now apply big_small. }
  unfold StandardDeviationF, StandardDeviation. cbn [nofnat ndiv nadd nsq nsub nsqrt n0 f64num]. fold n. set (mu := fdiv _ _) in *.
  assert (Z1 : forall l a, is0 a -> (forall x, In x l -> In x vec) -> is0 (fold_left (fun e c => fadd e (fmul (fsub c mu) (fsub c mu))) l a)).
  { induction l as [|x l IH]; intros a Ha Hl; [exact Ha|]. cbn [fold_left]. apply IH; [|intros; apply Hl; now right]. assert (D : is0 (fsub x mu)) by (eapply fsub_same; [apply F, Hl; now left|exact M]). apply is0_add; [exact Ha|now apply is0_mul]. }
  destruct (Z1 vec f0 ltac:(eexists; reflexivity) ltac:(auto)) as [s0 ->].
  assert (Fn : fval (f_of_Z n) (IZR n)) by (apply fval_small; lia).
  assert (Z2 : is0 (fdiv (S754_zero s0) (f_of_Z n))).
  { destruct Fn as (b & -> & Fb & Eb). destruct b as [s|s| |s m e Hb]; try discriminate; [|eexists; reflexivity]. exfalso. cbn [B2R] in Eb. apply (eq_IZR 0) in Eb. lia. }
  destruct Z2 as [s2 ->]. cbn [SFsqrt]. destruct scale; try contradiction; eexists; reflexivity.
Qed.
Lemma std_case : let vec := repeat (f_of_Z 7) 3 in vec <> [] /\ (Z.abs 7 * Z.of_nat (length vec) <= 2 ^ 53)%Z /\ forall x, In x vec -> finite x /\ fR x = 7%R.
Proof.
  cbv zeta. split; [discriminate|]. split; [cbn; lia|]. intros x Hx. apply repeat_spec in Hx. subst x.
  assert (F : fval (f_of_Z 7) 7) by (apply fval_small; lia). split; [apply finite_fval; eauto|now apply fR_fval].
Qed.
