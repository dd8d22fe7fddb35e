(** Z[X]/(X^N+1) modulo M is a commutative ring; evaluation and automorphisms are ring maps. *)
From Coq Require Import ZArith Znumtheory List Lia Setoid Morphisms Permutation Ring.
From Verif Require Import Arith NegRing.
Import ListNotations.
Local Open Scope Z_scope.

(** * Sums of periodic functions over residue systems *)
Definition sumf (f : Z -> Z) (l : list Z) : Z := sumZ (map f l).
Lemma sumf_perm f l l' : Permutation l l' -> sumf f l = sumf f l'.
Proof. unfold sumf. induction 1; cbn [map sumZ]; lia. Qed.
Lemma sumn_sumf n f : sumn n (fun i => f (Z.of_nat i)) = sumf f (map Z.of_nat (seq 0 n)).
Proof.
  induction n as [|n IH]; [reflexivity|].
  rewrite seq_S, map_app. unfold sumf in *. rewrite map_app, sumZ_app. cbn [sumn map sumZ]. rewrite IH. cbn. lia.
Qed.

Section Periodic.
Context (N : nat) (HN : (0 < N)%nat).
Notation n := (Z.of_nat N).
Definition periodic (f : Z -> Z) := forall z, f (z + n) = f z.

Lemma periodic_mul f k z : periodic f -> f (z + k * n) = f z.
Proof.
  intros H. destruct (Z_le_gt_dec 0 k) as [Hk|Hk].
  - revert z. pattern k. apply natlike_ind; auto.
    + intros z. f_equal. ring.
    + intros x Hx IH z. replace (z + Z.succ x * n) with ((z + x * n) + n) by ring. now rewrite H.
  - assert (H1 : forall m z, 0 <= m -> f (z - m * n) = f z).
    { intros m z' Hm. revert z'. pattern m. apply natlike_ind; auto.
      - intros z'. f_equal. ring.
      - intros x Hx IH z'. rewrite <- (IH z'). rewrite <- (H (z' - Z.succ x * n)). f_equal. lia. }
    rewrite <- (H1 (- k) z) by lia. f_equal. ring.
Qed.
Lemma periodic_mod f z : periodic f -> f (z mod n) = f z.
Proof.
  intros H. rewrite (Z.div_mod z n) at 2 by lia.
  rewrite (Z.add_comm (n * _)), (Z.mul_comm n). now rewrite periodic_mul.
Qed.

(** the sum over any complete residue system is the same *)
Lemma sum_residues f (h : Z -> Z) :
  periodic f ->
  (forall i j, 0 <= i < n -> 0 <= j < n -> (n | h i - h j) -> i = j) ->
  sumn N (fun i => f (h (Z.of_nat i))) = sumn N (fun i => f (Z.of_nat i)).
Proof.
  intros Hp Hinj.
  rewrite (sumn_sumf N f), (sumn_sumf N (fun z => f (h z))).
  set (l := map Z.of_nat (seq 0 N)).
  assert (Hl : forall z, In z l <-> 0 <= z < n).
  { intros z. unfold l. rewrite in_map_iff. split.
    - intros (i & <- & Hi). apply in_seq in Hi. lia.
    - intros Hz. exists (Z.to_nat z). split; [lia|]. apply in_seq. lia. }
  assert (Hnd : NoDup l).
  { unfold l. apply FinFun.Injective_map_NoDup; [intros x y; lia|apply seq_NoDup]. }
  assert (E : sumf (fun z => f (h z)) l = sumf f (map (fun z => h z mod n) l)).
  { unfold sumf. rewrite map_map. f_equal. apply map_ext. intros z. symmetry. now apply periodic_mod. }
  rewrite E. apply sumf_perm. apply NoDup_Permutation_bis.
  - assert (HF : forall z, In z l -> 0 <= z < n) by (intros; now apply Hl).
    clear Hl E. induction Hnd as [|x l' Hx Hnd IH]; cbn [map]; constructor.
    + rewrite in_map_iff. intros (y & Ey & Hy). apply Hx.
      rewrite <- (Hinj y x); auto; try (apply HF; cbn; auto).
      apply cong_eq_mod in Ey; [exact Ey|lia].
    + apply IH. intros; apply HF; now right.
  - rewrite map_length. lia.
  - intros z Hz. apply in_map_iff in Hz as (y & <- & Hy). apply Hl. apply Z.mod_pos_bound. lia.
Qed.

Lemma sum_shift f c : periodic f -> sumn N (fun i => f (Z.of_nat i + c)) = sumn N (fun i => f (Z.of_nat i)).
Proof.
  intros H. apply (sum_residues f (fun z => z + c)); auto.
  intros i j Hi Hj [k Hk]. cbn beta in Hk. assert (k = 0) by nia. subst. lia.
Qed.
Lemma sum_reflect f c : periodic f -> sumn N (fun i => f (c - Z.of_nat i)) = sumn N (fun i => f (Z.of_nat i)).
Proof.
  intros H. apply (sum_residues f (fun z => c - z)); auto.
  intros i j Hi Hj [k Hk]. cbn beta in Hk. assert (k = 0) by nia. subst. lia.
Qed.
Lemma sum_scale f g : periodic f -> rel_prime g n ->
  sumn N (fun i => f (g * Z.of_nat i)) = sumn N (fun i => f (Z.of_nat i)).
Proof.
  intros H Hg. apply (sum_residues f (fun z => g * z)); auto.
  intros i j Hi Hj D. apply (cong_small n); try lia.
  apply (cong_mul_cancel n g); auto.
Qed.

(** * The extension *)
Definition antiperiodic (f : Z -> Z) := forall z, f (z + n) = - f z.
Lemma antiperiodic_periodic f g : antiperiodic f -> antiperiodic g -> periodic (fun z => f z * g z).
Proof. intros Hf Hg z. rewrite Hf, Hg. ring. Qed.
Lemma ext_anti a : antiperiodic (ext N a).
Proof.
  intros z. unfold ext. replace (z + n) with (z + 1 * n) by ring.
  rewrite Z.mod_add, Z.div_add by lia. rewrite Z.add_1_r, Z.even_succ, <- Z.negb_even.
  destruct (Z.even (z / n)); cbn [negb]; ring.
Qed.
Lemma ext_small a k : (k < N)%nat -> ext N a (Z.of_nat k) = a k.
Proof.
  intros H. unfold ext. rewrite Z.mod_small, Z.div_small, Nat2Z.id by lia. reflexivity.
Qed.
Lemma anti_ext_eq f g : antiperiodic f -> antiperiodic g ->
  (forall k, (k < N)%nat -> f (Z.of_nat k) = g (Z.of_nat k)) -> forall z, f z = g z.
Proof.
  intros Hf Hg H z.
  assert (Hb : forall f, antiperiodic f -> forall z, f z = (if Z.even (z / n) then f (z mod n) else - f (z mod n))).
  { clear -HN. intros f Hf z. 
    assert (H2 : forall w, f (w + 2 * n) = f w) by (intros w; replace (w + 2 * n) with ((w + n) + n) by ring; rewrite !Hf; ring).
    assert (Hp : forall k w, f (w + k * (2 * n)) = f w).
    { intros k w.
      destruct (Z_le_gt_dec 0 k) as [Hk|Hk].
      - revert w. pattern k. apply natlike_ind; auto.
        + intros w. f_equal. ring.
        + intros x Hx IH w. replace (w + Z.succ x * (2 * n)) with ((w + x * (2*n)) + 2*n) by ring. now rewrite H2.
      - assert (H1 : forall m w, 0 <= m -> f (w - m * (2*n)) = f w).
        { intros m w' Hm. revert w'. pattern m. apply natlike_ind; auto.
          - intros w'. f_equal. ring.
          - intros x Hx IH w'. rewrite <- (IH w'). rewrite <- (H2 (w' - Z.succ x * (2*n))). f_equal. lia. }
        rewrite <- (H1 (- k) w) by lia. f_equal. ring. }
    rewrite (Z.div_mod z n) at 1 by lia. destruct (Z.even (z / n)) eqn:E.
    - apply Z.even_spec in E as [m E]. rewrite E.
      replace (n * (2 * m) + z mod n) with (z mod n + m * (2 * n)) by ring. apply Hp.
    - assert (Z.odd (z / n) = true) as O by (rewrite <- Z.negb_even, E; reflexivity).
      apply Z.odd_spec in O as [m O]. rewrite O.
      replace (n * (2 * m + 1) + z mod n) with ((z mod n + n) + m * (2 * n)) by ring. rewrite Hp. apply Hf. }
  rewrite (Hb f Hf z), (Hb g Hg z).
  assert (E : f (z mod n) = g (z mod n)).
  { pose proof (Z.mod_pos_bound z n ltac:(lia)).
    rewrite <- (Z2Nat.id (z mod n)) by lia. apply H. lia. }
  now rewrite E.
Qed.
Lemma ext_peq M a b : peq N M a b -> forall z, cong M (ext N a z) (ext N b z).
Proof.
  intros H z. unfold ext. pose proof (Z.mod_pos_bound z n ltac:(lia)).
  pose proof (H (Z.to_nat (z mod n)) ltac:(lia)) as E.
  destruct (Z.even (z / n)); [exact E|]. now rewrite E.
Qed.
Lemma ext_pmul a b z : ext N (pmul N a b) z = sumn N (fun i => ext N a (Z.of_nat i) * ext N b (z - Z.of_nat i)).
Proof.
  revert z. apply anti_ext_eq.
  - apply ext_anti.
  - intros z. rewrite <- sumn_opp. apply sumn_ext. intros i Hi.
    replace (z + n - Z.of_nat i) with ((z - Z.of_nat i) + n) by ring. rewrite ext_anti. ring.
  - intros k Hk. rewrite ext_small by auto. unfold pmul. apply sumn_ext. intros i Hi.
    now rewrite ext_small.
Qed.
Lemma ext_add a b z : ext N (padd a b) z = ext N a z + ext N b z.
Proof. unfold ext, padd. destruct (Z.even (z / n)); ring. Qed.
Lemma ext_opp a z : ext N (popp a) z = - ext N a z.
Proof. unfold ext, popp. destruct (Z.even (z / n)); ring. Qed.
Lemma ext_scale c a z : ext N (pscale c a) z = c * ext N a z.
Proof. unfold ext, pscale. destruct (Z.even (z / n)); ring. Qed.

(** * Ring laws *)
Lemma pmul_comm_ext a b k : pmul N a b k = pmul N b a k \/ ~ (k < N)%nat.
Proof.
  destruct (lt_dec k N) as [Hk|]; [left|now right].
  rewrite <- (ext_small (pmul N a b) k), <- (ext_small (pmul N b a) k) by auto.
  rewrite !ext_pmul.
  set (f := fun z => ext N b z * ext N a (Z.of_nat k - z)).
  rewrite (sumn_ext N (fun i => ext N a (Z.of_nat i) * ext N b (Z.of_nat k - Z.of_nat i)) (fun i => f (Z.of_nat k - Z.of_nat i))).
  - apply (sum_reflect f). intros z. unfold f.
    rewrite (ext_anti b z). replace (Z.of_nat k - z) with ((Z.of_nat k - (z + n)) + n) by ring.
    rewrite (ext_anti a). ring.
  - intros i Hi. unfold f. rewrite Z.mul_comm. f_equal. f_equal. ring.
Qed.
Lemma pmul_comm M a b : peq N M (pmul N a b) (pmul N b a).
Proof. intros k Hk. destruct (pmul_comm_ext a b k); [|lia]. rewrite H. reflexivity. Qed.

Lemma pmul_assoc M a b c : peq N M (pmul N a (pmul N b c)) (pmul N (pmul N a b) c).
Proof.
  intros k Hk. apply cong_eq.
  rewrite <- (ext_small (pmul N a (pmul N b c)) k), <- (ext_small (pmul N (pmul N a b) c) k) by auto.
  rewrite !ext_pmul.
  rewrite (sumn_ext N (fun i => ext N (pmul N a b) (Z.of_nat i) * ext N c (Z.of_nat k - Z.of_nat i))
    (fun i => sumn N (fun j => ext N a (Z.of_nat j) * (ext N b (Z.of_nat i - Z.of_nat j) * ext N c (Z.of_nat k - Z.of_nat i))))).
  2:{ intros i Hi. rewrite ext_pmul, <- sumn_mul_r. apply sumn_ext. intros; ring. }
  rewrite sumn_comm. apply sumn_ext. intros j Hj.
  rewrite sumn_mul_l. f_equal. rewrite ext_pmul.
  set (f := fun z => ext N b z * ext N c (Z.of_nat k - Z.of_nat j - z)).
  rewrite (sumn_ext N (fun i => ext N b (Z.of_nat i - Z.of_nat j) * ext N c (Z.of_nat k - Z.of_nat i)) (fun i => f (Z.of_nat i + - Z.of_nat j))).
  - symmetry. apply (sum_shift f). intros z. unfold f.
    rewrite (ext_anti b z). replace (Z.of_nat k - Z.of_nat j - z) with ((Z.of_nat k - Z.of_nat j - (z + n)) + n) by ring.
    rewrite (ext_anti c). ring.
  - intros i Hi. unfold f. f_equal; f_equal; ring.
Qed.

Lemma pmul_const_l M c a : peq N M (pmul N (pconst c) a) (pscale c a).
Proof.
  intros k Hk. apply cong_eq. unfold pmul, pscale.
  rewrite (sumn_single N 0); [|lia|].
  - cbn [pconst]. rewrite Z.sub_0_r, ext_small by auto. reflexivity.
  - intros [|i] _ Hi; [lia|]. cbn [pconst]. ring.
Qed.
Lemma pmul_distr_l M a b c : peq N M (pmul N (padd a b) c) (padd (pmul N a c) (pmul N b c)).
Proof.
  intros k Hk. apply cong_eq. unfold pmul, padd. rewrite <- sumn_add. apply sumn_ext. intros; ring.
Qed.

(** * Automorphisms *)
Lemma ext_sigma g' a : Z.Odd g' -> forall z, ext N (sigma_inv N g' a) z = ext N a (g' * z).
Proof.
  intros [m Hm]. apply anti_ext_eq.
  - apply ext_anti.
  - intros z. replace (g' * (z + n)) with ((g' * z + n) + m * (2 * n)) by (rewrite Hm; ring).
    pose proof (ext_anti a) as Ha.
    assert (Hp : forall w, ext N a (w + m * (2 * n)) = ext N a w).
    { intros w. unfold ext. replace (w + m * (2 * n)) with (w + (2 * m) * n) by ring.
      rewrite Z.mod_add, Z.div_add by lia. now rewrite Z.even_add_mul_2. }
    rewrite Hp. apply Ha.
  - intros k Hk. rewrite ext_small by auto. reflexivity.
Qed.
Lemma sigma_mul M g' a b : Z.Odd g' -> rel_prime g' n ->
  peq N M (sigma_inv N g' (pmul N a b)) (pmul N (sigma_inv N g' a) (sigma_inv N g' b)).
Proof.
  intros Ho Hr k Hk. apply cong_eq.
  rewrite <- (ext_small (pmul N (sigma_inv N g' a) (sigma_inv N g' b)) k) by auto.
  rewrite ext_pmul. unfold sigma_inv at 1. rewrite ext_pmul.
  set (f := fun z => ext N a z * ext N b (g' * Z.of_nat k - z)).
  transitivity (sumn N (fun i => f (g' * Z.of_nat i))).
  - symmetry. apply (sum_scale f g'); auto. intros z. unfold f.
    rewrite (ext_anti a z). replace (g' * Z.of_nat k - z) with ((g' * Z.of_nat k - (z + n)) + n) by ring.
    rewrite (ext_anti b). ring.
  - apply sumn_ext. intros i Hi. unfold f. rewrite !ext_sigma by auto. f_equal. f_equal. ring.
Qed.
Lemma ext_periodic2 a w m : ext N a (w + m * (2 * n)) = ext N a w.
Proof.
  unfold ext. replace (w + m * (2 * n)) with (w + (2 * m) * n) by ring.
  rewrite Z.mod_add, Z.div_add by lia. now rewrite Z.even_add_mul_2.
Qed.
Lemma ext_cong2 a x y : cong (2 * n) x y -> ext N a x = ext N a y.
Proof. intros [m Hm]. replace x with (y + m * (2 * n)) by lia. apply ext_periodic2. Qed.
(** sigma_{g1} after sigma_{g2} *)
Lemma sigma_comp M g1 g2 a : Z.Odd g2 ->
  peq N M (sigma_inv N g1 (sigma_inv N g2 a)) (sigma_inv N (g1 * g2) a).
Proof.
  intros Ho k Hk. apply cong_eq. unfold sigma_inv at 1 3. rewrite ext_sigma by auto. f_equal. ring.
Qed.
Lemma sigma_id M g a : cong (2 * n) g 1 -> peq N M (sigma_inv N g a) a.
Proof.
  intros H k Hk. apply cong_eq. unfold sigma_inv.
  rewrite (ext_cong2 a _ (Z.of_nat k)); [now apply ext_small|]. rewrite H. apply cong_eq. ring.
Qed.

End Periodic.

Lemma sigma_peq N M g a b : peq N M a b -> peq N M (sigma_inv N g a) (sigma_inv N g b).
Proof. intros H k Hk. unfold sigma_inv. now apply ext_peq; [lia|]. Qed.
#[global] Instance sigma_proper N M g : Proper (peq N M ==> peq N M) (sigma_inv N g).
Proof. intros a b H. now apply sigma_peq. Qed.
Lemma sigma_add N M g a b : peq N M (sigma_inv N g (padd a b)) (padd (sigma_inv N g a) (sigma_inv N g b)).
Proof. intros k Hk. unfold sigma_inv, padd at 2. now rewrite ext_add. Qed.
Lemma sigma_scale N M g c a : peq N M (sigma_inv N g (pscale c a)) (pscale c (sigma_inv N g a)).
Proof. intros k Hk. unfold sigma_inv, pscale at 2. now rewrite ext_scale. Qed.
Lemma sigma_opp N M g a : peq N M (sigma_inv N g (popp a)) (popp (sigma_inv N g a)).
Proof. intros k Hk. unfold sigma_inv, popp at 2. now rewrite ext_opp. Qed.

#[global] Instance peq_equiv N M : Equivalence (peq N M).
Proof.
  split; red; unfold peq.
  - intros a i Hi. reflexivity.
  - intros a b H i Hi. symmetry. auto.
  - intros a b c H1 H2 i Hi. rewrite (H1 i Hi). auto.
Qed.
#[global] Instance padd_proper N M : Proper (peq N M ==> peq N M ==> peq N M) padd.
Proof. intros a a' Ha b b' Hb i Hi. unfold padd. now rewrite (Ha i Hi), (Hb i Hi). Qed.
#[global] Instance psub_proper N M : Proper (peq N M ==> peq N M ==> peq N M) psub.
Proof. intros a a' Ha b b' Hb i Hi. unfold psub. now rewrite (Ha i Hi), (Hb i Hi). Qed.
#[global] Instance popp_proper N M : Proper (peq N M ==> peq N M) popp.
Proof. intros a a' Ha i Hi. unfold popp. now rewrite (Ha i Hi). Qed.
#[global] Instance pscale_proper N M c : Proper (peq N M ==> peq N M) (pscale c).
Proof. intros a a' Ha i Hi. unfold pscale. now rewrite (Ha i Hi). Qed.
#[global] Instance pmul_proper N M : Proper (peq N M ==> peq N M ==> peq N M) (pmul N).
Proof.
  intros a a' Ha b b' Hb k Hk. unfold pmul. apply sumn_cong. intros i Hi.
  rewrite (Ha i Hi). rewrite (ext_peq N ltac:(lia) M b b' Hb). reflexivity.
Qed.
Lemma psum_proper N M n f g : (forall t, (t < n)%nat -> peq N M (f t) (g t)) -> peq N M (psum n f) (psum n g).
Proof. intros H i Hi. unfold psum. apply sumn_cong. intros t Ht. now apply H. Qed.

Lemma peq_ring N M : (0 < N)%nat ->
  ring_theory pzero pone padd (pmul N) psub popp (peq N M).
Proof.
  intros HN. constructor.
  - intros a i Hi. reflexivity.
  - intros a b i Hi. unfold padd. apply cong_eq. ring.
  - intros a b c i Hi. unfold padd. apply cong_eq. ring.
  - intros a. unfold pone. rewrite pmul_const_l by auto. intros i Hi. unfold pscale. apply cong_eq. ring.
  - intros a b. now apply pmul_comm.
  - intros a b c. now apply pmul_assoc.
  - intros a b c. now apply pmul_distr_l.
  - intros a b i Hi. unfold psub, padd, popp. apply cong_eq. ring.
  - intros a i Hi. unfold padd, popp, pzero. apply cong_eq. ring.
Qed.
Lemma peq_ext N M : ring_eq_ext padd (pmul N) popp (peq N M).
Proof. constructor; typeclasses eauto. Qed.

(** * More algebra *)
Lemma pscale_mul_l N M c a b : peq N M (pmul N (pscale c a) b) (pscale c (pmul N a b)).
Proof. intros k Hk. apply cong_eq. unfold pmul, pscale. rewrite <- sumn_mul_l. apply sumn_ext. intros; ring. Qed.
Lemma pscale_mul_r N M c a b : peq N M (pmul N a (pscale c b)) (pscale c (pmul N a b)).
Proof. intros k Hk. apply cong_eq. unfold pmul, pscale at 2. rewrite <- sumn_mul_l. apply sumn_ext. intros.
  rewrite ext_scale. ring. Qed.
Lemma pmul_psum_l N M n f b : peq N M (pmul N (psum n f) b) (psum n (fun t => pmul N (f t) b)).
Proof.
  intros k Hk. apply cong_eq. unfold pmul, psum. rewrite sumn_comm. apply sumn_ext. intros i Hi.
  now rewrite <- sumn_mul_r.
Qed.
Lemma ext_psum N n f z : ext N (psum n f) z = sumn n (fun t => ext N (f t) z).
Proof. unfold ext, psum. destruct (Z.even _); [reflexivity|]. now rewrite <- sumn_opp. Qed.
Lemma pmul_psum_r N M n f b : peq N M (pmul N b (psum n f)) (psum n (fun t => pmul N b (f t))).
Proof.
  intros k Hk. apply cong_eq. unfold pmul, psum at 2. rewrite sumn_comm. apply sumn_ext. intros i Hi.
  now rewrite ext_psum, sumn_mul_l.
Qed.
Lemma sigma_psum N M g n f : peq N M (sigma_inv N g (psum n f)) (psum n (fun t => sigma_inv N g (f t))).
Proof. intros k Hk. apply cong_eq. unfold sigma_inv. now rewrite ext_psum. Qed.
Lemma peq_divide N d M a b : (d | M) -> peq N M a b -> peq N d a b.
Proof. intros H E i Hi. eapply cong_divide; eauto. Qed.
Lemma peq_0 N M a b : peq N 0 a b -> peq N M a b.
Proof. intros H. apply (peq_divide N M 0); [|exact H]. apply Z.divide_0_r. Qed.

(** * Norms *)
Lemma ext_abs N a B : (0 < N)%nat -> pnorm_le N a B -> forall z, Z.abs (ext N a z) <= B.
Proof.
  intros HN H z. unfold ext. pose proof (Z.mod_pos_bound z (Z.of_nat N) ltac:(lia)).
  pose proof (H (Z.to_nat (z mod Z.of_nat N)) ltac:(lia)). destruct (Z.even _); lia.
Qed.
Lemma pnorm_nonneg N a B : (0 < N)%nat -> pnorm_le N a B -> 0 <= B.
Proof. intros HN H. specialize (H 0%nat HN). lia. Qed.
Lemma pnorm_add N a b A B : pnorm_le N a A -> pnorm_le N b B -> pnorm_le N (padd a b) (A + B).
Proof. intros Ha Hb i Hi. specialize (Ha i Hi). specialize (Hb i Hi). unfold padd. lia. Qed.
Lemma pnorm_sub N a b A B : pnorm_le N a A -> pnorm_le N b B -> pnorm_le N (psub a b) (A + B).
Proof. intros Ha Hb i Hi. specialize (Ha i Hi). specialize (Hb i Hi). unfold psub. lia. Qed.
Lemma pnorm_opp N a A : pnorm_le N a A -> pnorm_le N (popp a) A.
Proof. intros Ha i Hi. specialize (Ha i Hi). unfold popp. lia. Qed.
Lemma pnorm_le_trans N a A B : A <= B -> pnorm_le N a A -> pnorm_le N a B.
Proof. intros H Ha i Hi. specialize (Ha i Hi). lia. Qed.
Lemma pnorm_scale N c a A : pnorm_le N a A -> pnorm_le N (pscale c a) (Z.abs c * A).
Proof. intros Ha i Hi. specialize (Ha i Hi). unfold pscale. rewrite Z.abs_mul. nia. Qed.
Lemma pnorm_mul N a b A B : pnorm_le N a A -> pnorm_le N b B -> pnorm_le N (pmul N a b) (Z.of_nat N * (A * B)).
Proof.
  intros Ha Hb k Hk. unfold pmul. apply sumn_abs_le. intros i Hi.
  pose proof (ext_abs N b B ltac:(lia) Hb (Z.of_nat k - Z.of_nat i)). specialize (Ha i Hi).
  rewrite Z.abs_mul. nia.
Qed.
Lemma pnorm_psum N n f B : (forall t, (t < n)%nat -> pnorm_le N (f t) B) -> pnorm_le N (psum n f) (Z.of_nat n * B).
Proof. intros H i Hi. unfold psum. apply sumn_abs_le. intros t Ht. now apply H. Qed.
Lemma pnorm_sigma N g a B : pnorm_le N a B -> pnorm_le N (sigma_inv N g a) B.
Proof. intros H k Hk. unfold sigma_inv. apply ext_abs; auto. lia. Qed.

(** * Evaluation modulo q at a root of X^N + 1 *)
Section Eval.
Context (N : nat) (HN : (0 < N)%nat) (q z : Z) (Hq : 0 < q).
Context (Hz : cong q (z ^ Z.of_nat N) (-1)).
Notation n := (Z.of_nat N).
(** integer powers of z *)
Definition zp (m : Z) : Z := z ^ (m mod (2 * n)).
Lemma zp_period : cong q (z ^ (2 * n)) 1.
Proof. rewrite Z.mul_comm, Z.pow_mul_r by lia. rewrite (cong_pow q _ (-1) 2 ltac:(lia) Hz). reflexivity. Qed.
Lemma zp_nonneg m : 0 <= m -> cong q (zp m) (z ^ m).
Proof.
  intros Hm. unfold zp. 
  pose proof (Z.mod_pos_bound m (2 * n) ltac:(lia)) as Hr. pose proof (Z.div_mod m (2 * n) ltac:(lia)) as Hd.
  assert (Hp : 0 <= m / (2 * n)) by (apply Z.div_pos; lia).
  set (r := m mod (2 * n)) in *. set (k := m / (2 * n)) in *. clearbody r k. subst m.
  rewrite Z.pow_add_r, Z.pow_mul_r by nia.
  rewrite (cong_pow q _ 1 k Hp zp_period).
  rewrite Z.pow_1_l by lia. rewrite Z.mul_1_l. reflexivity.
Qed.
Lemma zp_cong2 a b : cong (2 * n) a b -> zp a = zp b.
Proof. intros H. unfold zp. f_equal. apply cong_eq_mod; auto. lia. Qed.
Lemma zp_add a b : cong q (zp (a + b)) (zp a * zp b).
Proof.
  pose proof (Z.mod_pos_bound a (2 * n) ltac:(lia)). pose proof (Z.mod_pos_bound b (2 * n) ltac:(lia)).
  rewrite (zp_cong2 (a + b) (a mod (2*n) + b mod (2*n))).
  - rewrite zp_nonneg by lia. rewrite Z.pow_add_r by lia. reflexivity.
  - apply cong_add; symmetry; apply cong_mod; lia.
Qed.
Lemma zp_n : cong q (zp n) (-1).
Proof. rewrite zp_nonneg by lia. exact Hz. Qed.
Lemma zp_anti a : cong q (zp (a + n)) (- zp a).
Proof. rewrite zp_add, zp_n. apply cong_eq. ring. Qed.

Lemma eval_sum_residues (F : Z -> Z) (h : Z -> Z) :
  (forall w, cong q (F (w + n)) (F w)) ->
  (forall i j, 0 <= i < n -> 0 <= j < n -> (n | h i - h j) -> i = j) ->
  cong q (sumn N (fun i => F (h (Z.of_nat i)))) (sumn N (fun i => F (Z.of_nat i))).
Proof.
  intros HF Hh.
  assert (E : forall k, cong q (sumn N (fun i => F (k i))) (sumn N (fun i => F (k i) mod q))).
  { intros k. apply sumn_cong. intros i Hi. symmetry. apply cong_mod. lia. }
  rewrite (E (fun i => h (Z.of_nat i))), (E Z.of_nat). apply cong_eq.
  apply (sum_residues N HN (fun w => F w mod q) h); auto.
  intros w. apply cong_eq_mod; [lia|apply HF].
Qed.

Lemma peval_ext a : cong q (peval N a z) (sumn N (fun i => ext N a (Z.of_nat i) * zp (Z.of_nat i))).
Proof.
  unfold peval. apply sumn_cong. intros i Hi. rewrite ext_small by auto.
  rewrite zp_nonneg by lia. reflexivity.
Qed.
Lemma peval_mul a b : cong q (peval N (pmul N a b) z) (peval N a z * peval N b z).
Proof.
  rewrite peval_ext.
  rewrite (sumn_cong q N _ (fun k => sumn N (fun i => (ext N a (Z.of_nat i) * zp (Z.of_nat i)) *
     (ext N b (Z.of_nat k - Z.of_nat i) * zp (Z.of_nat k - Z.of_nat i))))).
  2:{ intros k Hk. rewrite ext_pmul by auto. rewrite <- sumn_mul_r. apply sumn_cong. intros i Hi.
      replace (Z.of_nat k) with (Z.of_nat i + (Z.of_nat k - Z.of_nat i)) at 2 by ring.
      rewrite zp_add. apply cong_eq. ring. }
  rewrite sumn_comm.
  rewrite (sumn_cong q N _ (fun i => ext N a (Z.of_nat i) * zp (Z.of_nat i) * peval N b z)).
  - rewrite sumn_mul_r, <- peval_ext. reflexivity.
  - intros i Hi. rewrite sumn_mul_l. apply cong_mul; [reflexivity|].
    rewrite peval_ext.
    apply (eval_sum_residues (fun w => ext N b w * zp w) (fun w => w - Z.of_nat i)).
    + intros w. rewrite (ext_anti N HN b w), zp_anti. apply cong_eq. ring.
    + intros x y Hx Hy [k Hk]. assert (k = 0) by nia. subst. lia.
Qed.
End Eval.

Lemma peval_peq N q a b z : peq N q a b -> cong q (peval N a z) (peval N b z).
Proof. intros H. unfold peval. apply sumn_cong. intros i Hi. now rewrite (H i Hi). Qed.
Lemma peval_add N a b z : peval N (padd a b) z = peval N a z + peval N b z.
Proof. unfold peval, padd. rewrite <- sumn_add. apply sumn_ext. intros; ring. Qed.
Lemma peval_sub N a b z : peval N (psub a b) z = peval N a z - peval N b z.
Proof. unfold peval, psub. rewrite <- Z.add_opp_r, <- sumn_opp, <- sumn_add. apply sumn_ext. intros; ring. Qed.
Lemma peval_opp N a z : peval N (popp a) z = - peval N a z.
Proof. unfold peval, popp. rewrite <- sumn_opp. apply sumn_ext. intros; ring. Qed.
Lemma peval_scale N c a z : peval N (pscale c a) z = c * peval N a z.
Proof. unfold peval, pscale. rewrite <- sumn_mul_l. apply sumn_ext. intros; ring. Qed.
Lemma peval_cong_arg N q a x y : cong q x y -> cong q (peval N a x) (peval N a y).
Proof. intros H. unfold peval. apply sumn_cong. intros i Hi. rewrite (cong_pow q x y (Z.of_nat i) ltac:(lia) H). reflexivity. Qed.
(** a(X^g) evaluated at z is a evaluated at z^g *)
Lemma peval_sigma N q z g g' a : (0 < N)%nat -> 0 < q -> cong q (z ^ Z.of_nat N) (-1) ->
  0 <= g -> Z.Odd g -> cong (2 * Z.of_nat N) (g * g') 1 ->
  cong q (peval N (sigma_inv N g' a) z) (peval N a (z ^ g)).
Proof.
  intros HN Hq Hz Hg Hgo Hinv. 
  assert (Hzg : cong q ((z ^ g) ^ Z.of_nat N) (-1)).
  { rewrite <- Z.pow_mul_r, (Z.mul_comm g), Z.pow_mul_r by lia. rewrite (cong_pow q _ (-1) g ltac:(lia) Hz).
    destruct Hgo as [m ->]. assert (0 <= m) by lia.
    rewrite Z.pow_add_r, Z.pow_mul_r by lia. change ((-1)^2) with 1. rewrite Z.pow_1_l by lia. reflexivity. }
  assert (Hgr : rel_prime g (Z.of_nat N)).
  { destruct Hinv as [m Hm]. apply bezout_rel_prime. exists g' (- 2 * m). lia. }
  assert (Ho : Z.Odd g').
  { destruct Hinv as [m Hm]. apply Z.odd_spec. 
    assert (E : Z.odd (g * g') = true) by (replace (g * g') with (1 + 2 * (m * Z.of_nat N)) by (rewrite <- (Z.sub_add 1 (g * g')), Hm; ring); now rewrite Z.odd_add_mul_2).
    rewrite Z.odd_mul in E. apply andb_prop in E. tauto. }
  set (F := fun w => ext N a (g' * w) * zp N z w).
  rewrite (peval_ext N HN q z Hz).
  rewrite (sumn_cong q N _ (fun i => F (Z.of_nat i))).
  2:{ intros i Hi. rewrite ext_sigma by auto. reflexivity. }
  rewrite <- (eval_sum_residues N HN q z Hq F (fun w => g * w)).
  - unfold peval. apply sumn_cong. intros i Hi. unfold F.
    rewrite (ext_cong2 N HN a _ (Z.of_nat i)).
    2:{ rewrite Z.mul_assoc, (Z.mul_comm g'), Hinv. apply cong_eq. ring. }
    rewrite ext_small by auto. rewrite (zp_nonneg N HN q z Hz) by nia.
    rewrite Z.pow_mul_r by lia. reflexivity.
  - intros w. unfold F. rewrite (zp_anti N HN q z Hz). rewrite Z.mul_add_distr_l.
    destruct Ho as [m Ho]. rewrite Ho at 2.
    replace (g' * w + (2 * m + 1) * Z.of_nat N) with ((g' * w + Z.of_nat N) + m * (2 * Z.of_nat N)) by ring.
    rewrite ext_periodic2 by auto. rewrite (ext_anti N HN a). apply cong_eq. ring.
  - intros i j Hi Hj D. apply (cong_small (Z.of_nat N)); auto. apply (cong_mul_cancel _ g); auto.
Qed.

(** * Sums over lists *)
Section SumL.
Context {T : Type} (N : nat) (M : Z).
Lemma psumL_ext (f g : T -> zpoly) l : (forall a, In a l -> peq N M (f a) (g a)) -> peq N M (psumL f l) (psumL g l).
Proof.
  induction l as [|a l IH]; intros H; cbn [psumL]; [reflexivity|].
  rewrite (H a) by (now left). rewrite IH; [reflexivity|]. intros b Hb. apply H. now right.
Qed.
Lemma psumL_add (f g : T -> zpoly) l : peq N M (psumL (fun a => padd (f a) (g a)) l) (padd (psumL f l) (psumL g l)).
Proof.
  induction l as [|a l IH]; cbn [psumL]; [intros i Hi; reflexivity|]. rewrite IH. intros i Hi. unfold padd. apply cong_eq. ring.
Qed.
Lemma psumL_opp (f : T -> zpoly) l : peq N M (psumL (fun a => popp (f a)) l) (popp (psumL f l)).
Proof.
  induction l as [|a l IH]; cbn [psumL]; [intros i Hi; reflexivity|]. rewrite IH. intros i Hi. unfold padd, popp. apply cong_eq. ring.
Qed.
Lemma psumL_sub (f g : T -> zpoly) l : peq N M (psumL (fun a => psub (f a) (g a)) l) (psub (psumL f l) (psumL g l)).
Proof.
  induction l as [|a l IH]; cbn [psumL]; [intros i Hi; reflexivity|]. rewrite IH. intros i Hi. unfold padd, psub. apply cong_eq. ring.
Qed.
Lemma psumL_scale c (f : T -> zpoly) l : peq N M (psumL (fun a => pscale c (f a)) l) (pscale c (psumL f l)).
Proof.
  induction l as [|a l IH]; cbn [psumL]; [intros i Hi; unfold pscale, pzero; apply cong_eq; ring|].
  rewrite IH. intros i Hi. unfold padd, pscale. apply cong_eq. ring.
Qed.
Lemma psumL_mul_r b (f : T -> zpoly) l : peq N M (psumL (fun a => pmul N (f a) b) l) (pmul N (psumL f l) b).
Proof.
  induction l as [|a l IH]; cbn [psumL].
  - intros i Hi. unfold pmul, pzero. apply cong_eq. rewrite sumn_0; auto.
  - rewrite IH. symmetry. destruct N; [intros i Hi; lia|]. apply pmul_distr_l; lia.
Qed.
Lemma psumL_mul_l b (f : T -> zpoly) l : peq N M (psumL (fun a => pmul N b (f a)) l) (pmul N b (psumL f l)).
Proof.
  destruct N as [|n'] eqn:E; [intros i Hi; lia|].
  rewrite (pmul_comm (S n') ltac:(lia) M b). rewrite <- E in *. clear E.
  rewrite <- psumL_mul_r. apply psumL_ext. intros a _. destruct N; [intros i Hi; lia|]. apply pmul_comm. lia.
Qed.
Lemma psumL_sigma g (f : T -> zpoly) l : peq N M (psumL (fun a => sigma_inv N g (f a)) l) (sigma_inv N g (psumL f l)).
Proof.
  induction l as [|a l IH]; cbn [psumL].
  - intros i Hi. unfold sigma_inv, ext, pzero. destruct (Z.even _); reflexivity.
  - rewrite IH. now rewrite sigma_add.
Qed.
Lemma psumL_perm (f : T -> zpoly) l l' : Permutation l l' -> peq N M (psumL f l) (psumL f l').
Proof.
  induction 1; cbn [psumL]; [reflexivity|now rewrite IHPermutation| |etransitivity; eauto].
  intros i Hi. unfold padd. apply cong_eq. ring.
Qed.
Lemma psumL_zero (f : T -> zpoly) l : (forall a, In a l -> peq N M (f a) pzero) -> peq N M (psumL f l) pzero.
Proof.
  induction l as [|a l IH]; intros H; cbn [psumL]; [reflexivity|].
  rewrite (H a) by (now left). rewrite IH by (intros; apply H; now right). intros i Hi; reflexivity.
Qed.
Lemma psumL_app (f : T -> zpoly) l l' : peq N M (psumL f (l ++ l')) (padd (psumL f l) (psumL f l')).
Proof.
  induction l as [|a l IH]; cbn [psumL app]; [intros i Hi; reflexivity|].
  rewrite IH. intros i Hi. unfold padd. apply cong_eq. ring.
Qed.
Lemma pnorm_psumL (f : T -> zpoly) l B : (forall a, In a l -> pnorm_le N (f a) B) ->
  pnorm_le N (psumL f l) (Z.of_nat (length l) * B).
Proof.
  induction l as [|a l IH]; intros H; cbn [psumL length].
  - intros i Hi. unfold pzero. lia.
  - replace (Z.of_nat (S (length l)) * B) with (B + Z.of_nat (length l) * B) by lia.
    apply pnorm_add; [apply H; now left|]. apply IH. intros; apply H; now right.
Qed.
Lemma psumL_single (f : T -> zpoly) l x : NoDup l -> In x l -> (forall a, In a l -> a <> x -> peq N M (f a) pzero) ->
  peq N M (psumL f l) (f x).
Proof.
  induction l as [|a l IH]; intros Hnd Hin H; [destruct Hin|]. cbn [psumL].
  inversion Hnd as [|? ? Ha Hnd']; subst.
  destruct Hin as [->|Hin].
  - rewrite (psumL_zero f l).
    + intros i Hi. unfold padd, pzero. apply cong_eq. ring.
    + intros b Hb. apply H; [now right|]. intros ->. contradiction.
  - rewrite (H a); [|now left|intros ->; contradiction]. rewrite IH; auto.
    + intros i Hi. unfold padd, pzero. apply cong_eq. ring.
    + intros b Hb. apply H. now right.
Qed.
End SumL.
Lemma psumL_comm {T U} N M (f : T -> U -> zpoly) l l' :
  peq N M (psumL (fun a => psumL (f a) l') l) (psumL (fun b => psumL (fun a => f a b) l) l').
Proof.
  induction l as [|a l IH]; cbn [psumL].
  - symmetry. apply psumL_zero. intros; reflexivity.
  - rewrite IH. now rewrite <- psumL_add.
Qed.
