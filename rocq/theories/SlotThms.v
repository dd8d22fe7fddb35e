(** Automorphisms permute the values at the roots of X^N + 1. *)
From Coq Require Import ZArith Lia List Reals Lra Ring_theory InitialRing Setoid Ring.
From Verif Require Import Spec SpecProofs Arith NegRing NegRingProofs NTT NTTProofs SpecKeys SpecSlots Galois.
Local Open Scope Z_scope.

Section Ring.
Context {R : Type} (rO rI : R) (radd rmul rsub : R -> R -> R) (ropp : R -> R).
Context (RT : ring_theory rO rI radd rmul rsub ropp (@eq R)).
Add Ring R_ring : RT.
Notation "x +' y" := (radd x y) (at level 50, left associativity).
Notation "x *' y" := (rmul x y) (at level 40, left associativity).
Notation pow := (rpow rI rmul).
Notation sum := (rsum rO radd).
Notation ofZ := (rofZ rO rI radd rmul ropp).
Let M : ring_morph rO rI radd rmul rsub ropp (@eq R) 0 1 Z.add Z.mul Z.sub Z.opp Zeq_bool ofZ.
Proof. apply gen_phiZ_morph; [apply Eqsth|apply Eq_ext|exact RT]. Qed.
Lemma ofZ0 : ofZ 0 = rO. Proof. apply (morph0 M). Qed.
Lemma ofZ1 : ofZ 1 = rI. Proof. apply (morph1 M). Qed.
Lemma ofZadd a b : ofZ (a + b) = ofZ a +' ofZ b. Proof. apply (morph_add M). Qed.
Lemma ofZmul a b : ofZ (a * b) = ofZ a *' ofZ b. Proof. apply (morph_mul M). Qed.
Lemma ofZopp a : ofZ (- a) = ropp (ofZ a). Proof. apply (morph_opp M). Qed.

Lemma pow_add x n m : pow x (n + m) = pow x n *' pow x m.
Proof. induction n as [|n IH]; cbn [Nat.add rpow]; [ring|]. rewrite IH. ring. Qed.
Lemma pow_mul x n m : pow x (n * m) = pow (pow x n) m.
Proof. induction m as [|m IH]; [now rewrite Nat.mul_0_r|]. rewrite Nat.mul_succ_r, Nat.add_comm, pow_add, IH. reflexivity. Qed.
Lemma pow_dist x y n : pow (x *' y) n = pow x n *' pow y n.
Proof. induction n as [|n IH]; cbn [rpow]; [ring|]. rewrite IH. ring. Qed.
Lemma pow_1 n : pow rI n = rI. Proof. induction n as [|n IH]; cbn [rpow]; [auto|]. rewrite IH. ring. Qed.
Lemma pow_m1 n : pow (ropp rI) n = if Nat.even n then rI else ropp rI.
Proof.
  induction n as [|n IH]; [reflexivity|]. cbn [rpow]. rewrite IH, Nat.even_succ, <- Nat.negb_even. destruct (Nat.even n); cbn; ring.
Qed.
Lemma sum_ext n f g : (forall i, (i < n)%nat -> f i = g i) -> sum n f = sum n g.
Proof. induction n as [|n IH]; intros H; cbn [rsum]; [auto|]. rewrite IH, H by (intros; auto; apply H; lia). reflexivity. Qed.
Lemma sum_mul_l n c f : sum n (fun i => c *' f i) = c *' sum n f.
Proof. induction n as [|n IH]; cbn [rsum]; [ring|]. rewrite IH. ring. Qed.
Lemma sum_add n f g : sum n (fun i => f i +' g i) = sum n f +' sum n g.
Proof. induction n as [|n IH]; cbn [rsum]; [ring|]. rewrite IH. ring. Qed.
Lemma sum_zero n : sum n (fun _ => rO) = rO.
Proof. induction n as [|n IH]; cbn [rsum]; [auto|]. rewrite IH. ring. Qed.
Lemma sum_swap n m f : sum n (fun i => sum m (fun j => f i j)) = sum m (fun j => sum n (fun i => f i j)).
Proof. induction n as [|n IH]; cbn [rsum]; [now rewrite sum_zero|]. rewrite IH, <- sum_add. reflexivity. Qed.
Lemma sum_one n k v : (k < n)%nat -> sum n (fun i => if Nat.eqb i k then v else rO) = v.
Proof.
  induction n as [|n IH]; intros H; [lia|]. cbn [rsum]. destruct (Nat.eqb_spec n k) as [->|Hne].
  - assert (E : sum k (fun i => if Nat.eqb i k then v else rO) = rO). { rewrite (sum_ext k _ (fun _ => rO)); [apply sum_zero|]. intros i Hi. destruct (Nat.eqb_spec i k); [lia|auto]. } rewrite E. ring.
  - rewrite IH by lia. ring.
Qed.
Lemma ofZ_sumn n f : ofZ (sumn n f) = sum n (fun i => ofZ (f i)).
Proof. induction n as [|n IH]; [apply ofZ0|]. cbn [sumn rsum]. rewrite ofZadd, IH. reflexivity. Qed.

Context (N : nat) (HN : (0 < N)%nat).
Context (z : R) (Hz : pow z N = ropp rI).
(** X^m reduced modulo X^N + 1 *)
Lemma ext_one_val w : 0 <= w < Z.of_nat N \/ - Z.of_nat N < w < 0 -> w <> 0 -> ext N pone w = 0.
Proof.
  intros H Hw. unfold ext. assert (Hm : w mod Z.of_nat N <> 0).
  { intros E. apply Z.mod_divide in E; [|lia]. destruct E as [u Hu]. assert (u = 0) by nia. subst u. lia. }
  pose proof (Z.mod_pos_bound w (Z.of_nat N) ltac:(lia)). unfold pone, pconst. destruct (Z.to_nat (w mod Z.of_nat N)) eqn:E; [lia|]. now destruct (Z.even _).
Qed.
Lemma ext_one_mul u : ext N pone (Z.of_nat N * u) = if Z.even u then 1 else -1.
Proof.
  unfold ext. rewrite Z.mul_comm, Z.mod_mul, Z.div_mul by lia. cbn. now destruct (Z.even u).
Qed.
Lemma ext_one_shift w u : ext N pone (w + Z.of_nat N * u) = if Z.even u then ext N pone w else - ext N pone w.
Proof.
  unfold ext. rewrite (Z.mul_comm _ u), Z.mod_add, Z.div_add by lia. rewrite Z.even_add. destruct (Z.even (w / Z.of_nat N)), (Z.even u); cbn; ring.
Qed.
Lemma monomial m : sum N (fun k => ofZ (ext N pone (Z.of_nat k - Z.of_nat m)) *' pow z k) = pow z m.
Proof.
  assert (Hd := Nat.div_mod m N ltac:(lia)). pose proof (Nat.mod_upper_bound m N ltac:(lia)) as Hb. set (r := (m mod N)%nat) in *. set (t := (m / N)%nat) in *.
  rewrite (sum_ext N _ (fun k => if Nat.eqb k r then pow z m else rO)). { now apply sum_one. }
  intros k Hk. replace (Z.of_nat k - Z.of_nat m) with ((Z.of_nat k - Z.of_nat r) + Z.of_nat N * (- Z.of_nat t)) by (rewrite Hd, Nat2Z.inj_add, Nat2Z.inj_mul; ring).
  rewrite ext_one_shift, Z.even_opp. destruct (Nat.eqb_spec k r) as [->|Hne].
  - rewrite Z.sub_diag. assert (E0 : ext N pone 0 = 1) by (replace 0 with (Z.of_nat N * 0) by ring; apply ext_one_mul). rewrite E0.
    rewrite Hd, pow_add, pow_mul, Hz, pow_m1. 
    assert (EE : Z.even (Z.of_nat t) = Nat.even t). { destruct (Nat.even t) eqn:E. - apply Nat.even_spec in E as [u ->]. rewrite Nat2Z.inj_mul. now rewrite Z.even_mul. - rewrite <- Nat.negb_odd in E. apply Bool.negb_false_iff in E. apply Nat.odd_spec in E as [u ->]. rewrite Nat2Z.inj_add, Nat2Z.inj_mul, Z.even_add, Z.even_mul. reflexivity. }
    rewrite EE. destruct (Nat.even t); [rewrite ofZ1; ring|]. change (-1) with (- (1)). rewrite ofZopp, ofZ1. ring.
  - rewrite ext_one_val by lia. destruct (Z.even (Z.of_nat t)); cbn [Z.opp]; rewrite ofZ0; ring.
Qed.
Notation eval := (reval rO rI radd rmul ropp N).
Lemma eval_sigma e a : 0 <= e -> eval (psigma N e a) z = eval a (pow z (Z.to_nat e)).
Proof.
  intros He. unfold reval, psigma.
  rewrite (sum_ext N _ (fun k => sum N (fun i => ofZ (a i) *' (ofZ (ext N pone (Z.of_nat k - Z.of_nat (Z.to_nat e * i))) *' pow z k)))).
  2:{ intros k Hk. rewrite ofZ_sumn. transitivity (pow z k *' sum N (fun i => ofZ (a i * ext N pone (Z.of_nat k - e * Z.of_nat i)))); [ring|]. rewrite <- sum_mul_l. apply sum_ext. intros i Hi.
      rewrite ofZmul. rewrite Nat2Z.inj_mul, Z2Nat.id by auto. ring. }
  rewrite sum_swap. apply sum_ext. intros i Hi. rewrite sum_mul_l, monomial, pow_mul. reflexivity.
Qed.
Lemma eval_conj a zi : z *' zi = rI -> eval (psigma N (-1) a) z = eval a zi.
Proof.
  intros Hi. unfold reval, psigma.
  rewrite (sum_ext N _ (fun k => sum N (fun i => ofZ (a i) *' (ofZ (ext N pone (Z.of_nat k + Z.of_nat i)) *' pow z k)))).
  2:{ intros k Hk. rewrite ofZ_sumn. transitivity (pow z k *' sum N (fun i => ofZ (a i * ext N pone (Z.of_nat k - -1 * Z.of_nat i)))); [ring|]. rewrite <- sum_mul_l. apply sum_ext. intros i Hi'.
      rewrite ofZmul. replace (Z.of_nat k - -1 * Z.of_nat i) with (Z.of_nat k + Z.of_nat i) by ring. ring. }
  rewrite sum_swap. apply sum_ext. intros i Hi'. rewrite sum_mul_l. f_equal.
  (* X^-i = - X^(N-i) for i > 0; multiply by z^i *)
  assert (E : sum N (fun k => ofZ (ext N pone (Z.of_nat k + Z.of_nat i)) *' pow z k) = ropp (sum N (fun k => ofZ (ext N pone (Z.of_nat k - Z.of_nat (N - i))) *' pow z k))).
  { transitivity (ropp rI *' sum N (fun k => ofZ (ext N pone (Z.of_nat k - Z.of_nat (N - i))) *' pow z k)); [|ring]. rewrite <- sum_mul_l. apply sum_ext. intros k Hk.
    replace (Z.of_nat k + Z.of_nat i) with ((Z.of_nat k - Z.of_nat (N - i)) + Z.of_nat N * 1) by lia. rewrite ext_one_shift. cbn [Z.even]. rewrite ofZopp. ring. }
  rewrite E, monomial. transitivity (ropp (pow z (N - i)) *' pow (z *' zi) i); [rewrite Hi, pow_1; ring|]. rewrite pow_dist.
  transitivity (ropp (pow z (N - i) *' pow z i) *' pow zi i); [ring|]. rewrite <- pow_add. replace (N - i + i)%nat with N by lia. rewrite Hz. ring.
Qed.
End Ring.
Section Ring2.
Context {R : Type} (rO rI : R) (radd rmul rsub : R -> R -> R) (ropp : R -> R).
Context (RT : ring_theory rO rI radd rmul rsub ropp (@eq R)).
Add Ring R_ring2 : RT.
Notation pow := (rpow rI rmul).
Lemma root_odd N z e : pow z N = ropp rI -> 0 <= e -> Z.Odd e -> pow (pow z (Z.to_nat e)) N = ropp rI.
Proof.
  intros Hz He [u Hu]. rewrite <- (pow_mul rO rI radd rmul rsub ropp RT), Nat.mul_comm, (pow_mul rO rI radd rmul rsub ropp RT), Hz, (pow_m1 rO rI radd rmul rsub ropp RT).
  replace (Z.to_nat e) with (1 + 2 * Z.to_nat u)%nat by lia. now rewrite Nat.even_add, Nat.even_mul.
Qed.
Lemma root_period N z e f : (0 < N)%nat -> pow z N = ropp rI -> 0 <= e -> 0 <= f -> cong (2 * Z.of_nat N) e f -> pow z (Z.to_nat e) = pow z (Z.to_nat f).
Proof.
  intros HN Hz. assert (H2 : pow z (2 * N) = rI). { rewrite Nat.mul_comm, (pow_mul rO rI radd rmul rsub ropp RT), Hz. cbn [rpow]. ring. }
  assert (H : forall a b, 0 <= a -> 0 <= b -> pow z (Z.to_nat (a + 2 * Z.of_nat N * b)) = pow z (Z.to_nat a)).
  { intros a b Ha Hb. replace (Z.to_nat (a + 2 * Z.of_nat N * b)) with (Z.to_nat a + 2 * N * Z.to_nat b)%nat by (rewrite Z2Nat.inj_add, !Z2Nat.inj_mul, Nat2Z.id by lia; reflexivity).
    rewrite (pow_add rO rI radd rmul rsub ropp RT), (pow_mul rO rI radd rmul rsub ropp RT), H2, (pow_1 rO rI radd rmul rsub ropp RT). ring. }
  intros He Hf [u Hu]. destruct (Z_le_gt_dec 0 u).
  - replace e with (f + 2 * Z.of_nat N * u) by lia. now apply H.
  - replace f with (e + 2 * Z.of_nat N * (- u)) by lia. symmetry. apply H; lia.
Qed.
Lemma ring_slots logN z a j k m : (1 <= logN)%nat -> pow z (deg logN) = ropp rI -> 0 <= j -> 0 <= k -> 0 <= m -> cong (Z.of_nat (deg logN) / 2) (j + k) m ->
  reval rO rI radd rmul ropp (deg logN) (psigma (deg logN) (5 ^ k) a) (pow z (Z.to_nat (5 ^ j))) = reval rO rI radd rmul ropp (deg logN) a (pow z (Z.to_nat (5 ^ m))).
Proof.
  intros Hl Hz Hj Hk Hm Hc. pose proof (deg_pos logN) as HN. assert (H5 : forall x, 0 <= 5 ^ x) by (intros; apply Z.pow_nonneg; lia).
  rewrite (eval_sigma rO rI radd rmul rsub ropp RT); auto.
  - f_equal. rewrite <- (pow_mul rO rI radd rmul rsub ropp RT), <- Z2Nat.inj_mul, <- Z.pow_add_r by auto. apply (root_period (deg logN)); auto. apply five_cong; auto. lia.
  - apply root_odd; auto. now apply odd_powZ; [exists 2|].
Qed.
Lemma ring_conj N z zi a : (0 < N)%nat -> pow z N = ropp rI -> rmul z zi = rI -> reval rO rI radd rmul ropp N (psigma N (-1) a) z = reval rO rI radd rmul ropp N a zi.
Proof. intros HN Hz Hi. now apply (eval_conj rO rI radd rmul rsub ropp RT). Qed.
End Ring2.

(** * complex slots *)
Lemma C_ring : ring_theory c0 c1 cadd cmul csub copp (@eq C2).
Proof.
  constructor; intros; unfold c0, c1, cadd, cmul, csub, cadd, copp; cbn [fst snd]; repeat match goal with x : C2 |- _ => destruct x end; cbn [fst snd]; apply f_equal2; ring.
Qed.
Local Open Scope R_scope.
Lemma croot_add N a b : croot N (a + b) = cmul (croot N a) (croot N b).
Proof.
  unfold croot, cmul. cbn [fst snd]. rewrite plus_IZR. replace (PI * (IZR a + IZR b) / INR N) with (PI * IZR a / INR N + PI * IZR b / INR N) by (unfold Rdiv; ring).
  rewrite cos_plus, sin_plus. apply f_equal2; ring.
Qed.
Lemma croot_0 N : croot N 0 = c1.
Proof. unfold croot, c1. replace (PI * 0 / INR N) with 0 by (unfold Rdiv; ring). now rewrite cos_0, sin_0. Qed.
Lemma croot_pow N a n : rpow c1 cmul (croot N a) n = croot N (a * Z.of_nat n).
Proof.
  induction n as [|n IH]; [cbn [rpow]; now rewrite Z.mul_0_r, croot_0|]. cbn [rpow]. rewrite IH, <- croot_add. f_equal. lia.
Qed.
Lemma croot_N N : (0 < N)%nat -> croot N (Z.of_nat N) = copp c1.
Proof.
  intros H. unfold croot, copp, c1. cbn [fst snd]. rewrite <- INR_IZR_INZ. assert (INR N <> 0) by (apply not_0_INR; lia). replace (PI * INR N / INR N) with PI by (field; auto). rewrite cos_PI, sin_PI. apply f_equal2; ring.
Qed.
Lemma croot_2N N u : (0 < N)%nat -> croot N (2 * Z.of_nat N * Z.of_nat u) = c1.
Proof.
  intros H. replace (2 * Z.of_nat N * Z.of_nat u)%Z with (Z.of_nat N * Z.of_nat (2 * u))%Z by lia. rewrite <- croot_pow, croot_N by auto.
  rewrite (pow_m1 c0 c1 cadd cmul csub copp C_ring). now rewrite Nat.even_mul.
Qed.
Lemma croot_odd N e : (0 < N)%nat -> (0 <= e)%Z -> Z.Odd e -> rpow c1 cmul (croot N e) N = copp c1.
Proof.
  intros H He [k Hk]. rewrite croot_pow. replace (e * Z.of_nat N)%Z with (Z.of_nat N * Z.of_nat (Z.to_nat e))%Z by lia. rewrite <- croot_pow, croot_N by auto.
  rewrite (pow_m1 c0 c1 cadd cmul csub copp C_ring). assert (Nat.even (Z.to_nat e) = false) as ->; [|reflexivity]. replace (Z.to_nat e) with (S (2 * Z.to_nat k)) by lia. rewrite Nat.even_succ, <- Nat.negb_even, Nat.even_mul. reflexivity.
Qed.
Lemma croot_cong N e e' : (0 < N)%nat -> (0 <= e)%Z -> (0 <= e')%Z -> cong (2 * Z.of_nat N) e e' -> croot N e = croot N e'.
Proof.
  intros H. assert (G : forall e e', (e' <= e)%Z -> cong (2 * Z.of_nat N) e e' -> croot N e = croot N e').
  { intros a b Hab [u Hu]. assert (0 <= u)%Z by nia. replace a with (b + 2 * Z.of_nat N * Z.of_nat (Z.to_nat u))%Z by lia. rewrite croot_add, croot_2N by auto. destruct (croot N b) as [x y]. unfold cmul, c1. cbn [fst snd]. apply f_equal2; ring. }
  intros _ _ Hc. destruct (Z.le_ge_cases e' e); [now apply G|]. symmetry. apply G; [auto|]. now symmetry.
Qed.
Lemma five_odd j : (0 <= j)%Z -> Z.Odd (5 ^ j).
Proof. intros Hj. rewrite <- Z.odd_spec. destruct (Z.eq_dec j 0) as [->|]; [reflexivity|]. rewrite Z.odd_pow by lia. reflexivity. Qed.
Lemma slot_shift N a j k : (0 < N)%nat -> (0 <= j)%Z -> (0 <= k)%Z -> slot N (psigma N (5 ^ k) a) j = slot N a (j + k).
Proof.
  intros H Hj Hk. unfold slot. rewrite (eval_sigma c0 c1 cadd cmul csub copp C_ring N H).
  - rewrite croot_pow. rewrite Z2Nat.id by (apply Z.pow_nonneg; lia). now rewrite <- Z.pow_add_r by lia.
  - apply croot_odd; auto; [apply Z.pow_nonneg; lia|now apply five_odd].
  - apply Z.pow_nonneg; lia.
Qed.
Lemma cconj_inv N e : cmul (croot N e) (cconj (croot N e)) = c1.
Proof.
  unfold cmul, cconj, croot, c1. cbn [fst snd]. pose proof (sin2_cos2 (PI * IZR e / INR N)) as S. unfold Rsqr in S. apply f_equal2; lra.
Qed.
Lemma cconj_add x y : cconj (cadd x y) = cadd (cconj x) (cconj y).
Proof. unfold cconj, cadd. cbn [fst snd]. apply f_equal2; ring. Qed.
Lemma cconj_mul x y : cconj (cmul x y) = cmul (cconj x) (cconj y).
Proof. unfold cconj, cmul. cbn [fst snd]. apply f_equal2; ring. Qed.
Lemma rofZ_C v : rofZ c0 c1 cadd cmul copp v = (IZR v, 0).
Proof.
  assert (HP : forall p, rofZ c0 c1 cadd cmul copp (Zpos p) = (IZR (Zpos p), 0)).
  { apply Pos.peano_ind; [now rewrite (ofZ1 c0 c1 cadd cmul csub copp C_ring)|]. intros p IH. rewrite Pos2Z.inj_succ, <- Z.add_1_r. rewrite (ofZadd c0 c1 cadd cmul csub copp C_ring), IH, (ofZ1 c0 c1 cadd cmul csub copp C_ring), plus_IZR. unfold cadd, c1. cbn [fst snd]. apply f_equal2; ring. }
  destruct v as [|p|p]; [now rewrite (ofZ0 c0 c1 cadd cmul csub copp C_ring)|apply HP|]. change (Z.neg p) with (- Z.pos p)%Z. rewrite (ofZopp c0 c1 cadd cmul csub copp C_ring), HP, opp_IZR. unfold copp. cbn [fst snd]. apply f_equal2; ring.
Qed.
Lemma cconj_eval N a x : cconj (reval c0 c1 cadd cmul copp N a x) = reval c0 c1 cadd cmul copp N a (cconj x).
Proof.
  unfold reval. assert (HP : forall n, cconj (rpow c1 cmul x n) = rpow c1 cmul (cconj x) n).
  { induction n as [|n IH]; cbn [rpow]; [unfold cconj, c1; cbn; apply f_equal2; ring|]. now rewrite cconj_mul, IH. }
  assert (G : forall n, cconj (rsum c0 cadd n (fun i => cmul (rofZ c0 c1 cadd cmul copp (a i)) (rpow c1 cmul x i))) = rsum c0 cadd n (fun i => cmul (rofZ c0 c1 cadd cmul copp (a i)) (rpow c1 cmul (cconj x) i))); [|apply G].
  induction n as [|n IH]; cbn [rsum]; [unfold cconj, c0; cbn; apply f_equal2; ring|]. rewrite cconj_add, IH, cconj_mul, HP. do 2 f_equal. rewrite rofZ_C. unfold cconj. cbn. apply f_equal2; ring.
Qed.
Lemma slot_conj N a j : (0 < N)%nat -> (0 <= j)%Z -> slot N (psigma N (-1) a) j = cconj (slot N a j).
Proof.
  intros H Hj. unfold slot. rewrite cconj_eval. apply (eval_conj c0 c1 cadd cmul csub copp C_ring N H).
  - apply croot_odd; auto; [apply Z.pow_nonneg; lia|now apply five_odd].
  - apply cconj_inv.
Qed.
Lemma slot_period logN a j : (1 <= logN)%nat -> (0 <= j)%Z -> slot (deg logN) a (j + Z.of_nat (deg logN) / 2) = slot (deg logN) a j.
Proof.
  intros Hl Hj. pose proof (deg_pos logN). destruct (half_pos logN Hl) as [Hh _]. unfold slot. f_equal. apply croot_cong; auto; try (apply Z.pow_nonneg; lia).
  apply five_cong; auto; try lia. exists 1%Z. ring.
Qed.
Lemma slots logN a j k m : (1 <= logN)%nat -> (0 <= j)%Z -> (0 <= k)%Z -> (0 <= m)%Z -> cong (Z.of_nat (deg logN) / 2) (j + k) m ->
  slot (deg logN) (psigma (deg logN) (5 ^ k) a) j = slot (deg logN) a m.
Proof.
  intros Hl Hj Hk Hm Hc. pose proof (deg_pos logN) as HN. rewrite slot_shift by auto. unfold slot. f_equal. apply croot_cong; auto; try (apply Z.pow_nonneg; lia).
  apply five_cong; auto. lia.
Qed.
