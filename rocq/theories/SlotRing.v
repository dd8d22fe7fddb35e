(** The values at the roots of X^N + 1 are a ring morphism, and their size. *)
From Coq Require Import ZArith Lia List Reals Lra Ring_theory InitialRing Setoid Ring.
From Verif Require Import Spec SpecProofs Arith NegRing NegRingProofs NTT NTTProofs SpecKeys SpecSlots SpecLREnc Galois SlotThms.
Local Open Scope Z_scope.

Section Ring.
Context {R : Type} (rO rI : R) (radd rmul rsub : R -> R -> R) (ropp : R -> R).
Context (RT : ring_theory rO rI radd rmul rsub ropp (@eq R)).
Add Ring R_ring : RT.
Notation "x *' y" := (rmul x y) (at level 40, left associativity).
Notation pow := (rpow rI rmul).
Notation sum := (rsum rO radd).
Notation ofZ := (rofZ rO rI radd rmul ropp).
Context (N : nat) (HN : (0 < N)%nat) (z : R) (Hz : pow z N = ropp rI).
Notation eval := (reval rO rI radd rmul ropp N).
Lemma sumn_one n k f : (k < n)%nat -> (forall i, (i < n)%nat -> i <> k -> f i = 0) -> sumn n f = f k.
Proof.
  induction n as [|n IH]; intros H Hf; [lia|]. cbn [sumn]. destruct (Nat.eq_dec k n) as [->|Hne].
  - assert (E : sumn n f = 0). { assert (G : forall m, (m <= n)%nat -> sumn m f = 0). { induction m as [|m IHm]; intros Hm; [reflexivity|]. cbn [sumn]. rewrite IHm, Hf by lia. reflexivity. } apply G; lia. } lia.
  - rewrite IH, (Hf n) by (auto; lia). lia.
Qed.
Lemma ext_mono b w : ext N b w = sumn N (fun m => b m * ext N pone (w - Z.of_nat m)).
Proof.
  pose proof (Z.mod_pos_bound w (Z.of_nat N) ltac:(lia)) as Hb. pose proof (Z.div_mod w (Z.of_nat N) ltac:(lia)) as Hd.
  rewrite (sumn_one N (Z.to_nat (w mod Z.of_nat N))); [|lia|].
  - replace (w - Z.of_nat (Z.to_nat (w mod Z.of_nat N))) with (Z.of_nat N * (w / Z.of_nat N)) by lia. rewrite (ext_one_mul N HN). unfold ext. destruct (Z.even _); ring.
  - intros i Hi Hne. assert (E : ext N pone (w - Z.of_nat i) = 0); [|rewrite E; ring].
    replace (w - Z.of_nat i) with ((w mod Z.of_nat N - Z.of_nat i) + Z.of_nat N * (w / Z.of_nat N)) by lia. rewrite (ext_one_shift N HN), (ext_one_val N HN); [now destruct (Z.even _)|lia|lia].
Qed.
Lemma eval_mul a b : eval (pmul N a b) z = eval a z *' eval b z.
Proof.
  unfold reval, pmul.
  rewrite (sum_ext rO radd N _ (fun k => sum N (fun i => ofZ (a i) *' sum N (fun m => ofZ (b m) *' (ofZ (ext N pone (Z.of_nat k - Z.of_nat (i + m))) *' pow z k))))).
  2:{ intros k Hk. rewrite (ofZ_sumn rO rI radd rmul rsub ropp RT). transitivity (pow z k *' sum N (fun i => ofZ (a i * ext N b (Z.of_nat k - Z.of_nat i)))); [ring|].
      rewrite <- (sum_mul_l rO rI radd rmul rsub ropp RT). apply sum_ext. intros i Hi. rewrite (ofZmul rO rI radd rmul rsub ropp RT), ext_mono, (ofZ_sumn rO rI radd rmul rsub ropp RT).
      transitivity (ofZ (a i) *' (pow z k *' sum N (fun m => ofZ (b m * ext N pone (Z.of_nat k - Z.of_nat i - Z.of_nat m))))); [ring|]. f_equal.
      rewrite <- (sum_mul_l rO rI radd rmul rsub ropp RT). apply sum_ext. intros m Hm. rewrite (ofZmul rO rI radd rmul rsub ropp RT).
      replace (Z.of_nat k - Z.of_nat i - Z.of_nat m) with (Z.of_nat k - Z.of_nat (i + m)) by lia. ring. }
  rewrite (sum_swap rO rI radd rmul rsub ropp RT).
  transitivity (sum N (fun i => eval b z *' (ofZ (a i) *' pow z i))).
  - apply sum_ext. intros i Hi. rewrite (sum_mul_l rO rI radd rmul rsub ropp RT), (sum_swap rO rI radd rmul rsub ropp RT).
    transitivity (ofZ (a i) *' (pow z i *' eval b z)); [|ring]. f_equal. unfold reval. rewrite <- (sum_mul_l rO rI radd rmul rsub ropp RT). apply sum_ext. intros m Hm.
    rewrite (sum_mul_l rO rI radd rmul rsub ropp RT), (monomial rO rI radd rmul rsub ropp RT N HN z Hz), (pow_add rO rI radd rmul rsub ropp RT). ring.
  - rewrite (sum_mul_l rO rI radd rmul rsub ropp RT). unfold reval. ring.
Qed.
Lemma eval_add a b : eval (padd a b) z = radd (eval a z) (eval b z).
Proof.
  unfold reval. rewrite <- (sum_add rO rI radd rmul rsub ropp RT). apply sum_ext. intros i Hi. unfold padd. rewrite (ofZadd rO rI radd rmul rsub ropp RT). ring.
Qed.
Lemma eval_scale k a : eval (pscale k a) z = ofZ k *' eval a z.
Proof.
  unfold reval. rewrite <- (sum_mul_l rO rI radd rmul rsub ropp RT). apply sum_ext. intros i Hi. unfold pscale. rewrite (ofZmul rO rI radd rmul rsub ropp RT). ring.
Qed.
Lemma eval_ext a b : (forall i, (i < N)%nat -> a i = b i) -> eval a z = eval b z.
Proof. intros H. unfold reval. apply sum_ext. intros i Hi. now rewrite H. Qed.
End Ring.

Local Open Scope R_scope.
Section Slots.
Context (N : nat) (HN : (0 < N)%nat).
Lemma root_j j : (0 <= j)%Z -> rpow c1 cmul (croot N (5 ^ j)) N = copp c1.
Proof. intros Hj. apply croot_odd; auto; [apply Z.pow_nonneg; lia|now apply five_odd]. Qed.
Lemma slot_mul a b j : (0 <= j)%Z -> slot N (pmul N a b) j = cmul (slot N a j) (slot N b j).
Proof. intros Hj. apply (eval_mul c0 c1 cadd cmul csub copp C_ring N HN _ (root_j j Hj)). Qed.
Lemma slot_add a b j : slot N (padd a b) j = cadd (slot N a j) (slot N b j).
Proof. apply (eval_add c0 c1 cadd cmul csub copp C_ring). Qed.
Lemma slot_scale k a j : slot N (pscale k a) j = cmul (IZR k, 0) (slot N a j).
Proof. unfold slot. rewrite (eval_scale c0 c1 cadd cmul csub copp C_ring), rofZ_C. reflexivity. Qed.
Lemma slot_ext a b j : (forall i, (i < N)%nat -> a i = b i) -> slot N a j = slot N b j.
Proof. apply eval_ext. Qed.

(** |Re| + |Im| *)
Lemma cnorm_pos z : 0 <= cnorm z.
Proof. unfold cnorm. pose proof (Rabs_pos (fst z)). pose proof (Rabs_pos (snd z)). lra. Qed.
Lemma cnorm_add x y : cnorm (cadd x y) <= cnorm x + cnorm y.
Proof. unfold cnorm, cadd. cbn [fst snd]. pose proof (Rabs_triang (fst x) (fst y)). pose proof (Rabs_triang (snd x) (snd y)). lra. Qed.
Lemma cnorm_opp x : cnorm (copp x) = cnorm x.
Proof. unfold cnorm, copp. cbn [fst snd]. now rewrite !Rabs_Ropp. Qed.
Lemma cnorm_sub x y : cnorm (csub x y) <= cnorm x + cnorm y.
Proof. unfold csub. rewrite <- (cnorm_opp y). apply cnorm_add. Qed.
Lemma cnorm_mul x y : cnorm (cmul x y) <= cnorm x * cnorm y.
Proof.
  unfold cnorm, cmul. cbn [fst snd]. pose proof (Rabs_triang (fst x * fst y) (- (snd x * snd y))) as H1. pose proof (Rabs_triang (fst x * snd y) (snd x * fst y)) as H2.
  rewrite Rabs_Ropp in H1. rewrite !Rabs_mult in *. unfold Rminus. lra.
Qed.
Lemma cnorm_real r : cnorm (creal r) = Rabs r.
Proof. unfold cnorm, creal. cbn [fst snd]. rewrite Rabs_R0. lra. Qed.
Lemma cnorm_root e : cnorm (croot N e) <= 2.
Proof.
  unfold cnorm, croot. cbn [fst snd]. pose proof (COS_bound (PI * IZR e / INR N)). pose proof (SIN_bound (PI * IZR e / INR N)).
  assert (Rabs (cos (PI * IZR e / INR N)) <= 1) by (apply Rabs_le; lra). assert (Rabs (sin (PI * IZR e / INR N)) <= 1) by (apply Rabs_le; lra). lra.
Qed.
Lemma slot_norm a B j : (0 <= j)%Z -> pnorm_le N a B -> cnorm (slot N a j) <= 2 * INR N * IZR B.
Proof.
  intros Hj Ha. unfold slot, reval.
  assert (G : forall n, (n <= N)%nat -> cnorm (rsum c0 cadd n (fun i => cmul (rofZ c0 c1 cadd cmul copp (a i)) (rpow c1 cmul (croot N (5 ^ j)) i))) <= 2 * INR n * IZR B).
  { induction n as [|n IH]; intros Hn; cbn [rsum]; [unfold cnorm, c0; cbn [fst snd]; rewrite Rabs_R0; cbn; lra|].
    eapply Rle_trans; [apply cnorm_add|]. specialize (IH ltac:(lia)). rewrite S_INR. rewrite rofZ_C, croot_pow.
    pose proof (cnorm_mul (IZR (a n), 0) (croot N (5 ^ j * Z.of_nat n))) as HM. change (IZR (a n), 0) with (creal (IZR (a n))) in HM at 2. rewrite cnorm_real in HM.
    pose proof (cnorm_root (5 ^ j * Z.of_nat n)) as HR. pose proof (cnorm_pos (croot N (5 ^ j * Z.of_nat n))) as HP.
    assert (HA : Rabs (IZR (a n)) <= IZR B). { rewrite <- abs_IZR. apply IZR_le. apply Ha. lia. }
    pose proof (Rabs_pos (IZR (a n))). assert (HX : Rabs (IZR (a n)) * cnorm (croot N (5 ^ j * Z.of_nat n)) <= IZR B * 2) by (apply Rmult_le_compat; auto). lra. }
  apply G. lia.
Qed.
End Slots.
