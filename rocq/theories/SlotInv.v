(** Every complex slot vector is approximated by the slots of an integer polynomial: the inverse of the slot map, rounded. *)
From Coq Require Import Reals ZArith List Lia Lra Ring.
From Verif Require Import Spec SpecProofs Arith NegRing NegRingProofs NTT NTTProofs SpecKeys SpecSlots Galois SlotThms SlotRing SpecLREnc SlotErr.
Local Open Scope R_scope.

(** * the order of 5 *)
Lemma five_mod4 d : (0 <= d)%Z -> (5 ^ d mod 4 = 1)%Z.
Proof. intros H. rewrite <- (Z2Nat.id d) by lia. induction (Z.to_nat d) as [|n IH]; [reflexivity|]. rewrite Nat2Z.inj_succ, Z.pow_succ_r, Z.mul_mod, IH by lia. reflexivity. Qed.
Lemma five_order_div k : forall d, (0 <= d)%Z -> (2 ^ (Z.of_nat k + 2) | 5 ^ d - 1)%Z -> (2 ^ Z.of_nat k | d)%Z.
Proof.
  induction k as [|k IH]; intros d Hd H. { cbn. apply Z.divide_1_l. }
  destruct (Z.Even_or_Odd d) as [[e He]|[e He]].
  - subst d. assert (He : (0 <= e)%Z) by lia. replace (5 ^ (2 * e) - 1)%Z with ((5 ^ e - 1) * (5 ^ e + 1))%Z in H by (replace (2 * e)%Z with (e + e)%Z by lia; rewrite Z.pow_add_r by lia; ring).
    pose proof (five_mod4 e He) as H4. set (x := (5 ^ e)%Z) in *. assert (X : (x + 1 = 2 * (2 * (x / 4) + 1))%Z) by (pose proof (Z_div_mod_eq_full x 4); lia). rewrite X in H.
    replace (2 ^ (Z.of_nat (S k) + 2))%Z with (2 * 2 ^ (Z.of_nat k + 2))%Z in H by (rewrite <- Z.pow_succ_r by lia; f_equal; lia).
    replace ((x - 1) * (2 * (2 * (x / 4) + 1)))%Z with (2 * ((2 * (x / 4) + 1) * (x - 1)))%Z in H by ring. apply Z.mul_divide_cancel_l in H; [|lia].
    apply Znumtheory.Gauss in H. { apply IH in H; [|exact He]. rewrite Nat2Z.inj_succ, Z.pow_succ_r by lia. now apply Z.mul_divide_mono_l. }
    apply Znumtheory.rel_prime_sym, Zpow_facts.rel_prime_Zpower_r; [lia|]. apply Znumtheory.bezout_rel_prime. apply (Znumtheory.Bezout_intro _ _ _ 1 (- (x / 4))). ring.
  - exfalso. subst d. assert (He : (0 <= e)%Z) by lia. assert (D8 : (8 | 5 ^ (2 * e + 1) - 1)%Z). { eapply Z.divide_trans; [|exact H]. exists (2 ^ Z.of_nat k)%Z. replace (Z.of_nat (S k) + 2)%Z with (Z.of_nat k + 3)%Z by lia. rewrite Z.pow_add_r by lia. reflexivity. }
    rewrite Z.pow_add_r, Z.pow_1_r in D8 by lia. pose proof (five_mod4 (2 * e) ltac:(lia)) as H4. destruct D8 as [u Hu]. rewrite Z.pow_mul_r in * by lia. change (5 ^ 2)%Z with 25%Z in *.
    assert (M8 : (25 ^ e mod 8 = 1)%Z). { clear - He. rewrite <- (Z2Nat.id e) by lia. induction (Z.to_nat e) as [|n IH]; [reflexivity|]. rewrite Nat2Z.inj_succ, Z.pow_succ_r, Z.mul_mod, IH by lia. reflexivity. }
    pose proof (Z_div_mod_eq_full (25 ^ e) 8). lia.
Qed.
Lemma five_inj logN i j : (1 <= logN)%nat -> (0 <= i < Z.of_nat (deg logN) / 2)%Z -> (0 <= j < Z.of_nat (deg logN) / 2)%Z -> cong (2 * Z.of_nat (deg logN)) (5 ^ i) (5 ^ j) -> i = j.
Proof.
  intros HL. assert (G : forall i j, (0 <= j <= i)%Z -> (i < Z.of_nat (deg logN) / 2)%Z -> cong (2 * Z.of_nat (deg logN)) (5 ^ i) (5 ^ j) -> i = j).
  { clear i j. intros i j Hj Hi H. assert (Hd : Z.of_nat (deg logN) = (2 * 2 ^ (Z.of_nat logN - 1))%Z). { unfold deg. rewrite Nat2Z.inj_pow, <- Z.pow_succ_r by lia. f_equal. lia. }
    rewrite Hd in *. rewrite Z.mul_comm, Z.div_mul in Hi by lia. unfold cong in H.
    replace (5 ^ i - 5 ^ j)%Z with (5 ^ j * (5 ^ (i - j) - 1))%Z in H by (rewrite Z.mul_sub_distr_l, <- Z.pow_add_r by lia; rewrite Z.mul_1_r; f_equal; f_equal; lia).
    replace (2 * (2 * 2 ^ (Z.of_nat logN - 1)))%Z with (2 ^ (Z.of_nat (logN - 1) + 2))%Z in H by (rewrite Z.pow_add_r by lia; rewrite Nat2Z.inj_sub by lia; change (2 ^ 2)%Z with 4%Z; change (Z.of_nat 1) with 1%Z; ring).
    apply Znumtheory.Gauss in H. { apply five_order_div in H; [|lia]. destruct H as [u Hu]. rewrite Nat2Z.inj_sub in Hu by lia. change (Z.of_nat 1) with 1%Z in Hu. assert (0 < 2 ^ (Z.of_nat logN - 1))%Z by (apply Z.pow_pos_nonneg; lia). assert (u = 0)%Z by nia. lia. }
    apply Znumtheory.rel_prime_sym, Zpow_facts.rel_prime_Zpower; try lia. apply Znumtheory.bezout_rel_prime. apply (Znumtheory.Bezout_intro _ _ _ 1 (-2)). reflexivity. }
  intros Hi Hj H. destruct (Z.le_ge_cases j i); [now apply G; try lia|]. symmetry. apply G; try lia. now symmetry.
Qed.

(** * sums of roots of unity *)
Add Ring C2_ring : C_ring.
Notation sum := (rsum c0 cadd).
Notation pow := (rpow c1 cmul).
Notation ssum_ext := (sum_ext c0 cadd).
Lemma c2_eq (x y : C2) : fst x = fst y -> snd x = snd y -> x = y.
Proof. destruct x, y. cbn. now intros -> ->. Qed.
Lemma c_domain x y : cmul x y = c0 -> x <> c0 -> y = c0.
Proof.
  destruct x as [a b], y as [c d]. unfold cmul, c0. cbn [fst snd]. intros H Hx. injection H as H1 H2.
  assert (P : 0 < a * a + b * b).
  { pose proof (Rle_0_sqr a) as A1. pose proof (Rle_0_sqr b) as B1. unfold Rsqr in A1, B1. destruct (Req_dec a 0) as [Ha|Ha].
    - destruct (Req_dec b 0) as [Hb|Hb]; [subst; now destruct Hx|]. pose proof (Rsqr_pos_lt b Hb) as B2. unfold Rsqr in B2. lra.
    - pose proof (Rsqr_pos_lt a Ha) as A2. unfold Rsqr in A2. lra. }
  assert (E1 : (a * a + b * b) * c = 0) by (transitivity (a * (a * c - b * d) + b * (a * d + b * c)); [ring|rewrite H1, H2; ring]).
  assert (E2 : (a * a + b * b) * d = 0) by (transitivity (a * (a * d + b * c) - b * (a * c - b * d)); [ring|rewrite H1, H2; ring]).
  apply Rmult_integral in E1 as [?|?]; [lra|]. apply Rmult_integral in E2 as [?|?]; [lra|]. now subst.
Qed.
Lemma geometric w n : cmul (csub w c1) (sum n (fun k => pow w k)) = csub (pow w n) c1.
Proof. induction n as [|n IH]; cbn [rsum rpow]; [ring|]. replace (cmul (csub w c1) (cadd (sum n (fun k => pow w k)) (pow w n))) with (cadd (cmul (csub w c1) (sum n (fun k => pow w k))) (cmul (csub w c1) (pow w n))) by ring. rewrite IH. ring. Qed.

Section N.
Context (logN : nat) (HL : (1 <= logN)%nat).
Notation N := (deg logN).
Notation h := (Z.of_nat N / 2)%Z.
Let HN : (0 < N)%nat := deg_pos _.
Let NR : INR N <> 0. Proof. apply not_0_INR. lia. Qed.
Lemma croot_per u : croot N (2 * Z.of_nat N * u) = c1.
Proof.
  destruct (Z.le_ge_cases 0 u) as [H|H]. { rewrite <- (Z2Nat.id u) by lia. now apply croot_2N. }
  pose proof (croot_add N (2 * Z.of_nat N * u) (2 * Z.of_nat N * (- u))) as E. replace (2 * Z.of_nat N * u + 2 * Z.of_nat N * - u)%Z with 0%Z in E by ring.
  rewrite croot_0 in E. rewrite <- (Z2Nat.id (- u)) in E by lia. rewrite croot_2N in E by auto. rewrite E. ring.
Qed.
Lemma croot_one d : croot N d = c1 -> (2 * Z.of_nat N | d)%Z.
Proof.
  intros E. assert (S0 : sin (PI * IZR d / INR N) = 0) by (apply (f_equal snd) in E; exact E). apply sin_eq_0_0 in S0 as [k Hk].
  assert (Ed : d = (k * Z.of_nat N)%Z). { apply eq_IZR. rewrite mult_IZR, <- INR_IZR_INZ. pose proof PI_RGT_0 as HP. apply Rmult_eq_reg_l with PI; [|lra]. apply Rmult_eq_reg_r with (/ INR N); [|now apply Rinv_neq_0_compat]. unfold Rdiv in Hk. rewrite Hk. field. exact NR. }
  destruct (Z.Even_or_Odd k) as [[u Hu]|[u Hu]]. { exists u. subst. ring. }
  exfalso. subst. replace ((2 * u + 1) * Z.of_nat N)%Z with (2 * Z.of_nat N * u + Z.of_nat N)%Z in E by ring. rewrite croot_add, croot_per, croot_N in E by auto. apply (f_equal fst) in E. unfold cmul, copp, c1 in E. cbn [fst snd] in E. lra.
Qed.
Lemma root_sum d : Z.Even d -> sum N (fun k => croot N (d * Z.of_nat k)) = if Z.eqb (d mod (2 * Z.of_nat N)) 0 then creal (INR N) else c0.
Proof.
  intros [e He]. rewrite (ssum_ext N _ (fun k => pow (croot N d) k)) by (intros; now rewrite croot_pow). destruct (Z.eqb_spec (d mod (2 * Z.of_nat N)) 0) as [H|H].
  - apply Z.mod_divide in H; [|lia]. destruct H as [u Hu]. rewrite Hu, Z.mul_comm, croot_per.
    assert (G : forall n, sum n (fun k => pow c1 k) = creal (INR n)). { induction n as [|n IH]; [reflexivity|]. cbn [rsum]. rewrite IH, S_INR, creal_add, (pow_1 c0 c1 cadd cmul csub copp C_ring). reflexivity. } apply G.
  - apply (c_domain (csub (croot N d) c1)).
    + rewrite geometric, croot_pow. replace (d * Z.of_nat N)%Z with (2 * Z.of_nat N * e)%Z by (subst; ring). rewrite croot_per. ring.
    + intros E. assert (E1 : croot N d = c1) by (transitivity (cadd (csub (croot N d) c1) c1); [ring|rewrite E; ring]). apply croot_one in E1. apply H. apply Z.mod_divide in E1; [exact E1|lia].
Qed.
Lemma five_even a b : (0 <= a)%Z -> (0 <= b)%Z -> Z.Even (5 ^ a + 5 ^ b) /\ Z.Even (5 ^ a - 5 ^ b) /\ ((5 ^ a + 5 ^ b) mod (2 * Z.of_nat N) <> 0)%Z.
Proof.
  intros Ha Hb. pose proof (five_mod4 a Ha) as A4. pose proof (five_mod4 b Hb) as B4. set (x := (5 ^ a)%Z) in *. set (y := (5 ^ b)%Z) in *. pose proof (Z_div_mod_eq_full x 4). pose proof (Z_div_mod_eq_full y 4).
  split; [exists (2 * (x / 4) + 2 * (y / 4) + 1)%Z; lia|]. split; [exists (2 * (x / 4) - 2 * (y / 4))%Z; lia|]. intros E. apply Z.mod_divide in E; [|lia].
  destruct E as [u Hu]. assert (Hd : Z.of_nat N = (2 * 2 ^ (Z.of_nat logN - 1))%Z). { unfold deg. rewrite Nat2Z.inj_pow, <- Z.pow_succ_r by lia. f_equal. lia. } rewrite Hd in Hu. nia.
Qed.

(** * the inverse of the slot map *)
Notation hn := (N / 2)%nat.
Lemma hn_h : Z.of_nat hn = h. Proof. now rewrite Nat2Z.inj_div. Qed.
Context (x : nat -> C2).
Definition inv_coeff (k : nat) : R := 2 / INR N * fst (sum hn (fun j => cmul (x j) (croot N (- 5 ^ Z.of_nat j * Z.of_nat k)))).
Lemma fst_real (z : C2) : creal (2 * fst z) = cadd z (cconj z).
Proof. destruct z. unfold creal, cadd, cconj. cbn [fst snd]. apply f_equal2; ring. Qed.
Lemma conj_sum n f : cconj (sum n f) = sum n (fun i => cconj (f i)).
Proof. induction n as [|n IH]; cbn [rsum]; [unfold cconj, c0; cbn; apply f_equal2; ring|]. now rewrite cconj_add, IH. Qed.
Lemma conj_root e : cconj (croot N e) = croot N (- e).
Proof. unfold cconj, croot. cbn [fst snd]. rewrite opp_IZR. replace (PI * - IZR e / INR N) with (- (PI * IZR e / INR N)) by (unfold Rdiv; ring). now rewrite cos_neg, sin_neg. Qed.
Lemma sum_pick n i (v : C2) f : (i < n)%nat -> (forall j, (j < n)%nat -> f j = if Nat.eqb j i then v else c0) -> sum n f = v.
Proof. intros Hi H. rewrite (ssum_ext n _ _ H). apply (sum_one c0 c1 cadd cmul csub copp C_ring n i v Hi). Qed.
Lemma inverse_exact i : (i < hn)%nat -> sum N (fun k => cmul (creal (inv_coeff k)) (pow (croot N (5 ^ Z.of_nat i)) k)) = x i.
Proof.
  intros Hi. set (fi := (5 ^ Z.of_nat i)%Z). set (f := fun j : nat => (5 ^ Z.of_nat j)%Z).
  transitivity (cmul (creal (/ INR N)) (sum N (fun k => sum hn (fun j => cadd (cmul (x j) (croot N ((fi - f j) * Z.of_nat k))) (cmul (cconj (x j)) (croot N ((fi + f j) * Z.of_nat k))))))).
  { rewrite <- (sum_mul_l c0 c1 cadd cmul csub copp C_ring). apply ssum_ext. intros k Hk. unfold inv_coeff.
    replace (2 / INR N * fst (sum hn (fun j => cmul (x j) (croot N (- 5 ^ Z.of_nat j * Z.of_nat k))))) with (/ INR N * (2 * fst (sum hn (fun j => cmul (x j) (croot N (- f j * Z.of_nat k)))))) by (unfold f, Rdiv; ring).
    rewrite creal_mul, fst_real, conj_sum, croot_pow.
    rewrite <- (sum_add c0 c1 cadd cmul csub copp C_ring). set (rt := croot N (fi * Z.of_nat k)).
    replace (cmul (cmul (creal (/ INR N)) (sum hn (fun i0 => cadd (cmul (x i0) (croot N (- f i0 * Z.of_nat k))) (cconj (cmul (x i0) (croot N (- f i0 * Z.of_nat k))))))) rt)
      with (cmul (creal (/ INR N)) (cmul rt (sum hn (fun i0 => cadd (cmul (x i0) (croot N (- f i0 * Z.of_nat k))) (cconj (cmul (x i0) (croot N (- f i0 * Z.of_nat k)))))))) by ring.
    f_equal. rewrite <- (sum_mul_l c0 c1 cadd cmul csub copp C_ring). apply ssum_ext. intros j Hj. rewrite cconj_mul, conj_root.
    replace ((fi - f j) * Z.of_nat k)%Z with (fi * Z.of_nat k + - f j * Z.of_nat k)%Z by ring. replace ((fi + f j) * Z.of_nat k)%Z with (fi * Z.of_nat k + - (- f j * Z.of_nat k))%Z by ring.
    rewrite !croot_add. fold rt. ring. }
  rewrite (sum_swap c0 c1 cadd cmul csub copp C_ring). rewrite (sum_pick hn i (cmul (creal (INR N)) (x i))); [|exact Hi|].
  - replace (cmul (creal (/ INR N)) (cmul (creal (INR N)) (x i))) with (cmul (cmul (creal (/ INR N)) (creal (INR N))) (x i)) by ring. rewrite <- creal_mul, Rinv_l by exact NR. change (creal 1) with c1. ring.
  - intros j Hj. rewrite (sum_add c0 c1 cadd cmul csub copp C_ring), !(sum_mul_l c0 c1 cadd cmul csub copp C_ring).
    destruct (five_even (Z.of_nat i) (Z.of_nat j)) as (E1 & E2 & E3); [lia|lia|]. fold fi (f j) in E1, E2, E3. rewrite (root_sum _ E1), (root_sum _ E2).
    destruct (Z.eqb_spec ((fi + f j) mod (2 * Z.of_nat N)) 0) as [?|_]; [contradiction|].
    destruct (Nat.eqb_spec j i) as [->|Hne].
    + unfold fi, f. rewrite Z.sub_diag, Z.mod_0_l by lia. cbn [Z.eqb]. ring.
    + destruct (Z.eqb_spec ((fi - f j) mod (2 * Z.of_nat N)) 0) as [E|_]; [|ring]. exfalso. apply Hne. apply Z.mod_divide in E; [|lia]. apply Nat2Z.inj. symmetry.
      apply (five_inj logN); [exact HL| | |exact E]; rewrite <- hn_h; lia.
Qed.

(** rounded up, every coefficient is off by at most 1 *)
Definition encode_round (k : nat) : Z := up (inv_coeff k).
Lemma sum_norm n (f : nat -> C2) b : (forall k, (k < n)%nat -> cnorm (f k) <= b) -> cnorm (sum n f) <= INR n * b.
Proof.
  induction n as [|n IH]; intros H; cbn [rsum]; [unfold cnorm, c0; cbn; rewrite Rabs_R0; lra|]. rewrite S_INR. eapply Rle_trans; [apply cnorm_add|]. pose proof (IH ltac:(intros; apply H; lia)). pose proof (H n ltac:(lia)). lra.
Qed.
Theorem encode_slots i : (i < hn)%nat -> cnorm (csub (slot N encode_round (Z.of_nat i)) (x i)) <= 2 * INR N.
Proof.
  intros Hi. rewrite <- (inverse_exact i Hi). unfold slot, reval. set (w := croot N (5 ^ Z.of_nat i)).
  replace (csub (sum N (fun i0 => cmul (rofZ c0 c1 cadd cmul copp (encode_round i0)) (pow w i0))) (sum N (fun k => cmul (creal (inv_coeff k)) (pow w k))))
    with (sum N (fun k => cmul (creal (IZR (encode_round k) - inv_coeff k)) (pow w k))).
  - replace (2 * INR N) with (INR N * 2) by ring. apply sum_norm. intros k Hk. unfold w. rewrite cnorm_scale, croot_pow. pose proof (cnorm_root N (5 ^ Z.of_nat i * Z.of_nat k)) as H2. destruct (archimed (inv_coeff k)) as [A1 A2]. fold (encode_round k) in A1, A2.
    assert (Rabs (IZR (encode_round k) - inv_coeff k) <= 1) by (apply Rabs_le; lra). pose proof (cnorm_pos (croot N (5 ^ Z.of_nat i * Z.of_nat k))). pose proof (Rabs_pos (IZR (encode_round k) - inv_coeff k)). nra.
  - set (P := fun k => cmul (creal (inv_coeff k)) (pow w k)).
    rewrite (ssum_ext N _ (fun k => cadd (cmul (rofZ c0 c1 cadd cmul copp (encode_round k)) (pow w k)) (cmul (copp c1) (P k)))).
    + rewrite (sum_add c0 c1 cadd cmul csub copp C_ring), (sum_mul_l c0 c1 cadd cmul csub copp C_ring). ring.
    + intros k Hk. unfold P. rewrite rofZ_C. change (IZR (encode_round k), 0) with (creal (IZR (encode_round k))). replace (IZR (encode_round k) - inv_coeff k) with (IZR (encode_round k) + - inv_coeff k) by ring. rewrite creal_add, creal_opp. ring.
Qed.
End N.
