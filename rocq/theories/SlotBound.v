(** The coefficients of a polynomial are bounded by its slots: the slot map is inverted from the other side. *)
From Coq Require Import Reals ZArith List Lia Lra Ring.
From Verif Require Import Spec SpecProofs Arith NegRing NegRingProofs NTT NTTProofs SpecKeys SpecSlots Galois SlotThms SlotRing SpecLREnc SlotErr SlotInv.
Local Open Scope R_scope.

(** 5^(2^k) = 1 + 2^(k+2) * odd *)
Lemma five_half k : exists u, Z.Odd u /\ (5 ^ (2 ^ Z.of_nat k) = 1 + 2 ^ (Z.of_nat k + 2) * u)%Z.
Proof.
  destruct (five_pow2 k) as [u Hu]. exists u. split; [|lia]. destruct (Z.Even_or_Odd u) as [[v Hv]|H]; [|exact H]. exfalso.
  assert (D : (2 ^ (Z.of_nat (S k) + 2) | 5 ^ (2 ^ Z.of_nat k) - 1)%Z). { exists v. rewrite Hu, Hv. replace (Z.of_nat (S k) + 2)%Z with (Z.succ (Z.of_nat k + 2)) by lia. rewrite Z.pow_succ_r by lia. ring. }
  apply five_order_div in D; [|apply Z.pow_nonneg; lia]. apply Z.divide_pos_le in D; [|apply Z.pow_pos_nonneg; lia]. rewrite Nat2Z.inj_succ, Z.pow_succ_r in D by lia. assert (0 < 2 ^ Z.of_nat k)%Z by (apply Z.pow_pos_nonneg; lia). lia.
Qed.
Section Add.
Add Ring C2_ring2 : C_ring.
Lemma sum_shift1 n f : (forall j, f (j + n)%nat = f j) -> sum n (fun j => f (S j)) = sum n f.
Proof.
  intros H. assert (G : forall m, cadd (sum m (fun j => f (S j))) (f O) = cadd (sum m f) (f m)). { induction m as [|m IH]; cbn [rsum]; [ring|]. transitivity (cadd (cadd (sum m (fun j => f (S j))) (f O)) (f (S m))); [ring|]. rewrite IH. ring. }
  pose proof (G n) as E. specialize (H O). cbn [Nat.add] in H. rewrite H in E. transitivity (csub (cadd (sum n (fun j => f (S j))) (f O)) (f O)); [ring|]. rewrite E. ring.
Qed.
Lemma sum_shift n t : forall f, (forall j, f (j + n)%nat = f j) -> sum n (fun j => f (j + t)%nat) = sum n f.
Proof.
  induction t as [|t IH]; intros f H. { apply ssum_ext. intros. f_equal. lia. }
  rewrite <- (sum_shift1 n f H). rewrite <- (IH (fun j => f (S j))). { apply ssum_ext. intros. f_equal. lia. } intros j. apply (H (S j)).
Qed.
Lemma c_double x : x = copp x -> x = c0.
Proof. destruct x as [a b]. unfold copp, c0. cbn [fst snd]. intros E. injection E as E1 E2. apply f_equal2; lra. Qed.
Lemma sum_opp n f : sum n (fun i => copp (f i)) = copp (sum n f).
Proof. induction n as [|n IH]; cbn [rsum]; [ring|]. rewrite IH. ring. Qed.

Context (logN : nat) (HL : (1 <= logN)%nat).
Notation N := (deg logN).
Notation hn := (N / 2)%nat.
Let HN : (0 < N)%nat := deg_pos _.
Let NR : INR N <> 0. Proof. apply not_0_INR. lia. Qed.
Lemma degZ : Z.of_nat N = (2 ^ Z.of_nat logN)%Z. Proof. unfold deg. now rewrite Nat2Z.inj_pow. Qed.
Lemma croot_shift e u : croot N (e + 2 * Z.of_nat N * u) = croot N e.
Proof. rewrite croot_add, croot_per by exact HL. ring. Qed.
Lemma croot_half e u : Z.Odd u -> croot N (e + Z.of_nat N * u) = copp (croot N e).
Proof. intros [v Hv]. replace (e + Z.of_nat N * u)%Z with ((e + Z.of_nat N) + 2 * Z.of_nat N * v)%Z by (subst; ring). rewrite croot_shift, croot_add, croot_N by exact HN. ring. Qed.
Definition T (d : Z) : C2 := sum hn (fun j => cadd (croot N (5 ^ Z.of_nat j * d)) (croot N (- (5 ^ Z.of_nat j * d)))).
Lemma T_0 : T 0 = creal (INR N).
Proof.
  unfold T. rewrite (ssum_ext hn _ (fun _ => creal 2)). 2: { intros j _. rewrite Z.mul_0_r. cbn [Z.opp]. rewrite croot_0. unfold c1, cadd, creal. cbn [fst snd]. apply f_equal2; lra. }
  assert (G : forall n, sum n (fun _ => creal 2) = creal (INR n * 2)). { induction n as [|n IH]; [cbn [rsum INR]; unfold creal, c0; apply f_equal2; ring|]. cbn [rsum]. rewrite IH, S_INR, <- creal_add. f_equal. ring. }
  rewrite G. f_equal. assert (E : (N = hn * 2)%nat). { unfold deg. destruct logN as [|l]; [lia|]. cbn [Nat.pow]. rewrite Nat.mul_comm, Nat.div_mul by lia. lia. } rewrite E at 2. now rewrite mult_INR.
Qed.
Lemma factor2 d : (d <> 0)%Z -> exists a o, Z.Odd o /\ (d = 2 ^ Z.of_nat a * o)%Z.
Proof.
  intros Hd. assert (G : forall n d, (Z.abs d < 2 ^ Z.of_nat n)%Z -> (d <> 0)%Z -> exists a o, Z.Odd o /\ (d = 2 ^ Z.of_nat a * o)%Z).
  { clear. induction n as [|n IH]; intros d H Hd; [cbn in H; lia|]. destruct (Z.Even_or_Odd d) as [[e He]|Ho].
    - destruct (IH e) as (a & o & Ho & E); [rewrite Nat2Z.inj_succ, Z.pow_succ_r in H by lia; lia|lia|]. exists (S a), o. split; [exact Ho|]. rewrite Nat2Z.inj_succ, Z.pow_succ_r by lia. lia.
    - exists O, d. split; [exact Ho|]. change (2 ^ Z.of_nat 0)%Z with 1%Z. ring. }
  apply (G (Z.to_nat (Z.abs d))); [|exact Hd]. pose proof (Z.pow_gt_lin_r 2 (Z.of_nat (Z.to_nat (Z.abs d))) ltac:(lia) ltac:(lia)). lia.
Qed.
Lemma T_ne d : (d <> 0)%Z -> (Z.abs d < Z.of_nat N)%Z -> T d = c0.
Proof.
  intros Hd Hb. destruct (factor2 d Hd) as (a & o & Ho & E). assert (Ha : (a < logN)%nat).
  { destruct (Nat.lt_ge_cases a logN) as [|Hge]; [assumption|]. exfalso. rewrite degZ in Hb. assert (2 ^ Z.of_nat logN <= 2 ^ Z.of_nat a)%Z by (apply Z.pow_le_mono_r; lia). assert (1 <= Z.abs o)%Z by (destruct Ho; lia). rewrite E, Z.abs_mul in Hb. rewrite (Z.abs_eq (2 ^ _)) in Hb by (apply Z.pow_nonneg; lia). nia. }
  unfold T. destruct (Nat.eq_dec (a + 1) logN) as [El|Hl].
  - (* d = N/2 * odd *)
    assert (EN : Z.of_nat N = (2 * 2 ^ Z.of_nat a)%Z) by (rewrite degZ, <- El, Nat2Z.inj_add, Z.pow_add_r by lia; change (2 ^ Z.of_nat 1)%Z with 2%Z; ring).
    rewrite (ssum_ext hn _ (fun _ => c0)). { apply (sum_zero c0 c1 cadd cmul csub copp C_ring). }
    intros j _. assert (F : croot N (5 ^ Z.of_nat j * d) = copp (croot N (- (5 ^ Z.of_nat j * d)))).
    { rewrite <- (croot_half _ (5 ^ Z.of_nat j * o)). - f_equal. rewrite EN, E. ring. - pose proof (five_odd (Z.of_nat j) ltac:(lia)) as [x Hx]. destruct Ho as [y Hy]. exists (2 * x * y + x + y)%Z. rewrite Hx, Hy. ring. }
    rewrite F. ring.
  - (* shifting j by 2^k negates every term *)
    set (k := (logN - 2 - a)%nat). destruct (five_half k) as (u & Hu & E5).
    assert (EN : Z.of_nat N = (2 ^ Z.of_nat a * 2 ^ (Z.of_nat k + 2))%Z) by (rewrite degZ, <- Z.pow_add_r by lia; f_equal; unfold k; lia).
    set (f := fun j : nat => cadd (croot N (5 ^ Z.of_nat j * d)) (croot N (- (5 ^ Z.of_nat j * d)))).
    assert (Per : forall j, f (j + hn)%nat = f j).
    { intros j. unfold f. destruct (five_order logN HL) as [v Hv]. assert (Eh : (Z.of_nat N / 2 = Z.of_nat hn)%Z) by now rewrite Nat2Z.inj_div.
      rewrite Nat2Z.inj_add, Z.pow_add_r by lia. rewrite <- Eh. assert (X : (5 ^ (Z.of_nat N / 2) = 1 + 2 * Z.of_nat N * v)%Z) by lia. rewrite X. f_equal.
      - replace (5 ^ Z.of_nat j * (1 + 2 * Z.of_nat N * v) * d)%Z with (5 ^ Z.of_nat j * d + 2 * Z.of_nat N * (v * 5 ^ Z.of_nat j * d))%Z by ring. apply croot_shift.
      - replace (- (5 ^ Z.of_nat j * (1 + 2 * Z.of_nat N * v) * d))%Z with (- (5 ^ Z.of_nat j * d) + 2 * Z.of_nat N * (- v * 5 ^ Z.of_nat j * d))%Z by ring. apply croot_shift. }
    apply c_double. rewrite <- sum_opp. rewrite <- (sum_shift hn (2 ^ k) f Per) at 1. apply ssum_ext. intros j _. unfold f.
    rewrite Nat2Z.inj_add, Nat2Z.inj_pow, Z.pow_add_r by lia. change (Z.of_nat 2) with 2%Z. rewrite E5.
    assert (X : Z.Odd (5 ^ Z.of_nat j * u * o)). { pose proof (five_odd (Z.of_nat j) ltac:(lia)) as [x Hx]. destruct Ho as [y Hy]. destruct Hu as [w Hw]. exists (4 * x * w * y + 2 * x * w + 2 * x * y + 2 * w * y + x + w + y)%Z. rewrite Hx, Hy, Hw. ring. }
    assert (X' : Z.Odd (- (5 ^ Z.of_nat j * u * o))). { destruct X as [x Hx]. exists (- x - 1)%Z. lia. }
    replace (5 ^ Z.of_nat j * (1 + 2 ^ (Z.of_nat k + 2) * u) * d)%Z with (5 ^ Z.of_nat j * d + Z.of_nat N * (5 ^ Z.of_nat j * u * o))%Z by (rewrite EN, E; ring).
    replace (- (5 ^ Z.of_nat j * d + Z.of_nat N * (5 ^ Z.of_nat j * u * o)))%Z with (- (5 ^ Z.of_nat j * d) + Z.of_nat N * - (5 ^ Z.of_nat j * u * o))%Z by ring.
    rewrite !croot_half by assumption. ring.
Qed.

(** coefficient k from the slots *)
Theorem coeff_of_slots (M : zpoly) k : (k < N)%nat -> IZR (M k) = inv_coeff logN (fun j => slot N M (Z.of_nat j)) k.
Proof.
  intros Hk. unfold inv_coeff. set (S0 := sum hn _).
  assert (H : cadd S0 (cconj S0) = creal (INR N * IZR (M k))).
  { unfold S0. rewrite conj_sum, <- (sum_add c0 c1 cadd cmul csub copp C_ring).
    transitivity (sum hn (fun j => sum N (fun k' => cmul (creal (IZR (M k'))) (cadd (croot N (5 ^ Z.of_nat j * (Z.of_nat k' - Z.of_nat k))) (croot N (- (5 ^ Z.of_nat j * (Z.of_nat k' - Z.of_nat k)))))))).
    - apply ssum_ext. intros j _. rewrite cconj_mul, (conj_root logN). unfold slot. rewrite cconj_eval, (conj_root logN). unfold reval.
      transitivity (cadd (cmul (croot N (- 5 ^ Z.of_nat j * Z.of_nat k)) (sum N (fun i => cmul (rofZ c0 c1 cadd cmul copp (M i)) (pow (croot N (5 ^ Z.of_nat j)) i)))) (cmul (croot N (- (- 5 ^ Z.of_nat j * Z.of_nat k))) (sum N (fun i => cmul (rofZ c0 c1 cadd cmul copp (M i)) (pow (croot N (- 5 ^ Z.of_nat j)) i))))). { ring. }
      rewrite <- !(sum_mul_l c0 c1 cadd cmul csub copp C_ring), <- (sum_add c0 c1 cadd cmul csub copp C_ring). apply ssum_ext. intros i _. rewrite !croot_pow, rofZ_C. fold (creal (IZR (M i))).
      replace (5 ^ Z.of_nat j * (Z.of_nat i - Z.of_nat k))%Z with (- 5 ^ Z.of_nat j * Z.of_nat k + 5 ^ Z.of_nat j * Z.of_nat i)%Z by ring.
      replace (- (- 5 ^ Z.of_nat j * Z.of_nat k + 5 ^ Z.of_nat j * Z.of_nat i))%Z with (- (- 5 ^ Z.of_nat j * Z.of_nat k) + - 5 ^ Z.of_nat j * Z.of_nat i)%Z by ring.
      rewrite !croot_add. ring.
    - rewrite (sum_swap c0 c1 cadd cmul csub copp C_ring). rewrite (sum_pick N k (cmul (creal (IZR (M k))) (creal (INR N)))); [|exact Hk|].
      + rewrite <- creal_mul. f_equal. ring.
      + intros k' Hk'. rewrite (sum_mul_l c0 c1 cadd cmul csub copp C_ring). fold (T (Z.of_nat k' - Z.of_nat k)). destruct (Nat.eqb_spec k' k) as [->|Hne].
        * rewrite Z.sub_diag, T_0. reflexivity.
        * rewrite T_ne by lia. ring. }
  rewrite <- fst_real in H. apply (f_equal fst) in H. unfold creal in H. cbn [fst] in H. apply Rmult_eq_reg_l with (INR N); [|exact NR]. rewrite <- H. field. exact NR.
Qed.
Theorem coeff_bound (M : zpoly) b k : (forall i, (0 <= i < Z.of_nat N / 2)%Z -> cnorm (slot N M i) <= b) -> (k < N)%nat -> Rabs (IZR (M k)) <= 2 * b.
Proof.
  intros Hb Hk. rewrite (coeff_of_slots M k Hk). unfold inv_coeff. set (S0 := sum hn _).
  assert (HS : cnorm S0 <= INR hn * (b * 2)).
  { apply (sum_norm logN HL). intros j Hj. eapply Rle_trans; [apply cnorm_mul|]. assert (Hj' : (0 <= Z.of_nat j < Z.of_nat N / 2)%Z) by (rewrite <- hn_h; lia). pose proof (Hb _ Hj'). pose proof (cnorm_root N (- 5 ^ Z.of_nat j * Z.of_nat k)). pose proof (cnorm_pos (slot N M (Z.of_nat j))). pose proof (cnorm_pos (croot N (- 5 ^ Z.of_nat j * Z.of_nat k))). apply Rmult_le_compat; assumption. }
  assert (Hn : INR N = INR hn * 2). { assert (E : (N = hn * 2)%nat). { unfold deg. destruct logN as [|l]; [lia|]. cbn [Nat.pow]. rewrite Nat.mul_comm, Nat.div_mul by lia. lia. } rewrite E at 1. now rewrite mult_INR. }
  assert (HP : 0 < INR N) by (apply lt_0_INR; lia). rewrite Rabs_mult. unfold Rdiv at 1. rewrite Rabs_mult, (Rabs_pos_eq 2) by lra. rewrite Rabs_pos_eq by (left; now apply Rinv_0_lt_compat).
  assert (H1 : Rabs (fst S0) <= cnorm S0) by (unfold cnorm; pose proof (Rabs_pos (snd S0)); lra).
  apply Rle_trans with (2 * / INR N * (INR N * b)). { apply Rmult_le_compat_l; [apply Rmult_le_pos; [lra|left; now apply Rinv_0_lt_compat]|]. rewrite Hn. lra. }
  right. field. exact NR.
Qed.
End Add.
