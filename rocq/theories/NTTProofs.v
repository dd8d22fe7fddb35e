(** NTT and InvNTT are inverse, NTT turns negacyclic products into pointwise products and
    automorphisms into slot permutations. *)
From Coq Require Import ZArith Znumtheory List Lia Setoid Morphisms.
From Verif Require Import Go GoProofs Lattigo LattigoProofs Arith Fermat NegRing NegRingProofs NTT BasisExtProofs.
From Verif Require Export Repr.
Import ListNotations.
Local Open Scope Z_scope.

Lemma deg_pos b : (0 < deg b)%nat.
Proof. unfold deg. pose proof (Nat.pow_nonzero 2 b). lia. Qed.
Lemma deg_Z b : Z.of_nat (deg b) = 2 ^ Z.of_nat b.
Proof. unfold deg. rewrite Nat2Z.inj_pow. reflexivity. Qed.
Lemma deg_S b : deg (S b) = (2 * deg b)%nat.
Proof. unfold deg. cbn. lia. Qed.

(** * bit reversal *)
Lemma brv_range b : forall i, 0 <= brv b i < 2 ^ Z.of_nat b.
Proof.
  induction b as [|b IH]; intros i; [cbn; lia|].
  cbn [brv]. specialize (IH (i / 2)). pose proof (Z.mod_pos_bound i 2 ltac:(lia)).
  rewrite Nat2Z.inj_succ, Z.pow_succ_r by lia. nia.
Qed.
Lemma brv_mod b : forall i k, brv b (i + k * 2 ^ Z.of_nat b) = brv b i.
Proof.
  induction b as [|b IH]; intros i k; [reflexivity|].
  cbn [brv]. rewrite Nat2Z.inj_succ, Z.pow_succ_r by lia.
  replace (i + k * (2 * 2 ^ Z.of_nat b)) with (i + (k * 2 ^ Z.of_nat b) * 2) by ring.
  rewrite Z.mod_add, Z.div_add by lia. now rewrite IH.
Qed.
Lemma brv_snoc b : forall i, brv (S b) i = 2 * brv b i + (i / 2 ^ Z.of_nat b) mod 2.
Proof.
  induction b as [|b IH]; intros i.
  - cbn [brv]. change (2 ^ Z.of_nat 0) with 1. rewrite Z.div_1_r. ring.
  - change (brv (S (S b)) i) with (i mod 2 * 2 ^ Z.of_nat (S b) + brv (S b) (i / 2)).
    rewrite IH. cbn [brv]. rewrite Nat2Z.inj_succ, Z.pow_succ_r by lia.
    rewrite Z.div_div by lia. ring.
Qed.
Lemma brv_invol b : forall i, brv b (brv b i) = i mod 2 ^ Z.of_nat b.
Proof.
  induction b as [|b IH]; intros i; [cbn [brv]; change (2 ^ Z.of_nat 0) with 1; now rewrite Z.mod_1_r|].
  rewrite brv_snoc. cbn [brv]. pose proof (brv_range b (i / 2)) as Hr.
  set (r := brv b (i / 2)) in *.
  pose proof (Z.mod_pos_bound i 2 ltac:(lia)) as H2.
  rewrite Z.add_comm with (m := r). rewrite Z.div_add, Z.div_small by lia. rewrite Z.add_0_l.
  rewrite brv_mod. unfold r. rewrite IH. rewrite Z.mod_mod by lia.
  rewrite Nat2Z.inj_succ, Z.pow_succ_r by lia.
  rewrite (Z.rem_mul_r i 2 (2 ^ Z.of_nat b)) by (try lia; apply Z.pow_nonzero; lia). ring.
Qed.
Lemma brv_small_invol b i : 0 <= i < 2 ^ Z.of_nat b -> brv b (brv b i) = i.
Proof. intros. rewrite brv_invol. now apply Z.mod_small. Qed.

Lemma sumn_double n f : sumn (2 * n) f = sumn n (fun i => f (2 * i)%nat + f (2 * i + 1)%nat).
Proof.
  induction n as [|n IH]; [reflexivity|].
  replace (2 * S n)%nat with (S (S (2 * n))) by lia. cbn [sumn]. rewrite IH.
  replace (2 * n + 1)%nat with (S (2 * n)) by lia. lia.
Qed.
Lemma sum_brv b : forall f, sumn (deg b) (fun i => f (brv b (Z.of_nat i))) = sumn (deg b) (fun i => f (Z.of_nat i)).
Proof.
  induction b as [|b IH]; intros f; [reflexivity|].
  rewrite deg_S. rewrite sumn_double. replace (2 * deg b)%nat with (deg b + deg b)%nat by lia.
  rewrite sumn_split, sumn_add. f_equal.
  - rewrite <- (IH f). apply sumn_ext. intros i Hi. f_equal. cbn [brv].
    replace (Z.of_nat (2 * i)) with (0 + Z.of_nat i * 2) by lia.
    rewrite Z.mod_add, Z.div_add by lia. reflexivity.
  - rewrite (sumn_ext (deg b) (fun i => f (Z.of_nat (deg b + i))) (fun i => f (2 ^ Z.of_nat b + Z.of_nat i))).
    2:{ intros i Hi. f_equal. rewrite Nat2Z.inj_add, deg_Z. reflexivity. }
    rewrite <- (IH (fun z => f (2 ^ Z.of_nat b + z))). apply sumn_ext. intros i Hi. f_equal. cbn [brv].
    replace (Z.of_nat (2 * i + 1)) with (1 + Z.of_nat i * 2) by lia.
    rewrite Z.mod_add, Z.div_add by lia. change (1 mod 2) with 1. change (1 / 2) with 0. rewrite Z.mul_1_l, Z.add_0_l. reflexivity.
Qed.

(** * transform *)
(** limb as polynomial *)
Definition lpoly (l : list Z) : zpoly := fun i => nth i l 0.
Lemma slot_exp_range b i : 1 <= slot_exp b i < 2 * Z.of_nat (deg b).
Proof. unfold slot_exp. pose proof (brv_range b (Z.of_nat i)). rewrite deg_Z. lia. Qed.
Lemma slot_exp_odd b i : Z.Odd (slot_exp b i).
Proof. exists (brv b (Z.of_nat i)). reflexivity. Qed.
Lemma odd_pow_m1 e : 0 <= e -> Z.Odd e -> (-1) ^ e = -1.
Proof. intros He [m ->]. assert (0 <= m) by lia. rewrite Z.pow_add_r, Z.pow_mul_r by lia. change ((-1)^2) with 1. rewrite Z.pow_1_l by lia. reflexivity. Qed.

Section Transform.
Context (logN : nat) (q psi : Z) (H : ntt_mod logN q psi).
Notation N := (deg logN).
Notation n := (Z.of_nat N).
Lemma nm_q1 : 1 < q. Proof. destruct H as [[_ ?] _ _]; lia. Qed.
Notation Hq := nm_q1.
Notation HN := (deg_pos logN).

Lemma point_root i : cong q (point logN psi i ^ n) (-1).
Proof.
  unfold point. pose proof (slot_exp_range logN i).
  rewrite <- Z.pow_mul_r, (Z.mul_comm (slot_exp _ _)), Z.pow_mul_r by lia.
  rewrite (cong_pow q _ (-1) (slot_exp logN i) ltac:(lia) (nm_psi _ _ _ H)).
  rewrite odd_pow_m1; [reflexivity|lia|apply slot_exp_odd].
Qed.
Lemma psi_2n : cong q (psi ^ (2 * n)) 1.
Proof. apply zp_period. exact HN. exact (nm_psi _ _ _ H). Qed.

Lemma nttf_mul A B i : cong q (nttf logN psi (pmul N A B) i) (nttf logN psi A i * nttf logN psi B i).
Proof. pose proof Hq. apply peval_mul; [exact HN|lia|apply point_root]. Qed.
Lemma nttf_peq A B i : peq N q A B -> cong q (nttf logN psi A i) (nttf logN psi B i).
Proof. apply peval_peq. Qed.

Lemma NTT_length l : length (NTT logN q psi l) = N.
Proof. unfold NTT. now rewrite map_length, seq_length. Qed.
Lemma InvNTT_length l : length (InvNTT logN q psi l) = N.
Proof. unfold InvNTT. now rewrite map_length, seq_length. Qed.
Lemma NTT_nth l i : (i < N)%nat -> 0 <= nth i (NTT logN q psi l) 0 < q /\ cong q (nth i (NTT logN q psi l) 0) (nttf logN psi (lpoly l) i).
Proof.
  intros Hi. pose proof Hq. unfold NTT. rewrite nth_map_seq by auto. split; [apply Z.mod_pos_bound; lia|].
  rewrite cong_mod by lia. unfold nttf, peval, lpoly, point. apply sumn_cong. intros k Hk.
  pose proof (slot_exp_range logN i). rewrite Z.pow_mul_r by lia. reflexivity.
Qed.

(** psi has order exactly 2N *)
Lemma psi_order d : 0 < d < n -> ~ cong q (psi ^ (2 * d)) 1.
Proof.
  intros Hd E. 
  assert (HX : forall t m, (t <= logN)%nat -> 0 < m -> Z.Odd m -> ~ cong q (psi ^ (2 ^ Z.of_nat t * m)) 1).
  { intros t m Ht Hm Ho E'.
    assert (E2 : cong q (psi ^ (n * m)) 1).
    { replace (n * m) with ((2 ^ Z.of_nat t * m) * 2 ^ Z.of_nat (logN - t)).
      - assert (0 <= 2 ^ Z.of_nat t) by (apply Z.pow_nonneg; lia). assert (0 <= 2 ^ Z.of_nat (logN - t)) by (apply Z.pow_nonneg; lia).
        rewrite Z.pow_mul_r by nia. rewrite (cong_pow q _ 1 (2 ^ Z.of_nat (logN - t)) ltac:(lia) E'). rewrite Z.pow_1_l by lia. reflexivity.
      - rewrite deg_Z. rewrite <- Z.mul_assoc, (Z.mul_comm m), Z.mul_assoc, <- Z.pow_add_r by lia. f_equal. f_equal. lia. }
    rewrite Z.pow_mul_r in E2 by lia. rewrite (cong_pow q _ (-1) m ltac:(lia) (nm_psi _ _ _ H)) in E2.
    rewrite odd_pow_m1 in E2 by (auto; lia). destruct E2 as [k E2].
    destruct (nm_ok _ _ _ H) as [Hodd ?]. 
    assert (q | 2) by (exists (- k); lia). 
    assert (q = 2) by (apply Z.divide_pos_le in H1; lia). subst q. discriminate. }
  assert (HD : forall t d, (Z.to_nat d <= t)%nat -> 0 < d -> exists u m, d = 2 ^ Z.of_nat u * m /\ 0 < m /\ Z.Odd m).
  { clear. induction t as [|t IH]; intros d Ht Hd; [lia|].
    destruct (Z.Even_or_Odd d) as [[m Hm]|Ho].
    - destruct (IH m) as (u & m' & E & Hm' & Ho); [lia|lia|]. exists (S u), m'. rewrite Nat2Z.inj_succ, Z.pow_succ_r by lia.
      split; [lia|auto].
    - exists 0%nat, d. change (2 ^ Z.of_nat 0) with 1. split; [lia|auto]. }
  destruct (HD (Z.to_nat d) d ltac:(lia) ltac:(lia)) as (u & m & E1 & Hm & Ho).
  apply (HX (S u) m); auto.
  - rewrite deg_Z in Hd. assert (2 ^ Z.of_nat u < 2 ^ Z.of_nat logN) by nia.
    apply Z.pow_lt_mono_r_iff in H0; lia.
  - rewrite Nat2Z.inj_succ, Z.pow_succ_r by lia. rewrite <- Z.mul_assoc, <- E1. exact E.
Qed.

Lemma geom m w : (w - 1) * sumn m (fun i => w ^ Z.of_nat i) = w ^ Z.of_nat m - 1.
Proof.
  induction m as [|m IH]; [cbn [sumn]; change (Z.of_nat 0) with 0; rewrite Z.pow_0_r; ring|]. cbn [sumn]. rewrite Z.mul_add_distr_l, IH.
  rewrite Nat2Z.inj_succ, Z.pow_succ_r by lia. ring.
Qed.
(** sum over the points of point^d *)
Lemma orth d : 0 < d < n -> cong q (sumn N (fun i => psi ^ (slot_exp logN i * d))) 0.
Proof.
  intros Hd. unfold slot_exp.
  rewrite (sum_brv logN (fun z => psi ^ ((2 * z + 1) * d))).
  rewrite (sumn_ext N _ (fun i => psi ^ d * (psi ^ (2 * d)) ^ Z.of_nat i)).
  2:{ intros i Hi. rewrite <- Z.pow_mul_r, <- Z.pow_add_r by lia. f_equal. ring. }
  rewrite sumn_mul_l. set (w := psi ^ (2 * d)). set (S := sumn N _).
  assert (E : cong q ((w - 1) * S) 0).
  { unfold S. rewrite geom. unfold w. rewrite <- Z.pow_mul_r by lia.
    replace (2 * d * n) with ((2 * n) * d) by ring. rewrite Z.pow_mul_r by lia.
    rewrite (cong_pow q _ 1 d ltac:(lia) psi_2n). rewrite Z.pow_1_l by lia. reflexivity. }
  assert (Hw : ~ (q | w - 1)) by (apply psi_order; auto).
  destruct E as [k E]. rewrite Z.sub_0_r in E.
  assert (D : (q | (w - 1) * S)) by (exists k; lia).
  apply prime_mult in D; [|exact (nm_prime _ _ _ H)]. destruct D as [D|D]; [tauto|].
  destruct D as [c ->]. exists (psi ^ d * c). ring.
Qed.
(** orthogonality of the characters *)
Lemma ortho2 k k' : (k < N)%nat -> (k' < N)%nat ->
  cong q (sumn N (fun i => psi ^ ((2 * n - slot_exp logN i) * Z.of_nat k) * psi ^ (slot_exp logN i * Z.of_nat k')))
         (if Nat.eqb k k' then n else 0).
Proof.
  intros Hk Hk'.
  destruct (le_lt_dec k k') as [Hle|Hlt].
  - rewrite (sumn_cong q N _ (fun i => psi ^ (slot_exp logN i * (Z.of_nat k' - Z.of_nat k)))).
    2:{ intros i Hi. pose proof (slot_exp_range logN i). rewrite <- Z.pow_add_r by nia.
        replace ((2 * n - slot_exp logN i) * Z.of_nat k + slot_exp logN i * Z.of_nat k') with
          ((2 * n) * Z.of_nat k + slot_exp logN i * (Z.of_nat k' - Z.of_nat k)) by ring.
        rewrite Z.pow_add_r by nia. rewrite (Z.pow_mul_r psi (2 * n)) by lia.
        rewrite (cong_pow q _ 1 (Z.of_nat k) ltac:(lia) psi_2n). rewrite Z.pow_1_l by lia. rewrite Z.mul_1_l. reflexivity. }
    destruct (Nat.eqb_spec k k') as [->|Hne].
    + rewrite Z.sub_diag. rewrite (sumn_ext N _ (fun _ => 1)) by (intros; now rewrite Z.mul_0_r).
      rewrite sumn_const. apply cong_eq. ring.
    + apply orth. lia.
  - destruct (Nat.eqb_spec k k') as [|Hne]; [lia|].
    rewrite (sumn_cong q N _ (fun i => psi ^ (slot_exp logN i * (n - (Z.of_nat k - Z.of_nat k'))) * (-1))).
    2:{ intros i Hi. pose proof (slot_exp_range logN i) as Hr. rewrite <- Z.pow_add_r by nia.
        assert (E : cong q (psi ^ (slot_exp logN i * n)) (-1)).
        { rewrite Z.pow_mul_r by lia. apply point_root. }
        set (X := psi ^ _).
        assert (E2 : cong q (X * psi ^ (slot_exp logN i * n)) (psi ^ (slot_exp logN i * (n - (Z.of_nat k - Z.of_nat k'))))).
        { unfold X. rewrite <- Z.pow_add_r by nia.
          replace ((2 * n - slot_exp logN i) * Z.of_nat k + slot_exp logN i * Z.of_nat k' + slot_exp logN i * n) with
            ((2 * n) * Z.of_nat k + slot_exp logN i * (n - (Z.of_nat k - Z.of_nat k'))) by ring.
          rewrite Z.pow_add_r by nia. rewrite (Z.pow_mul_r psi (2 * n)) by lia.
          rewrite (cong_pow q _ 1 (Z.of_nat k) ltac:(lia) psi_2n). rewrite Z.pow_1_l by lia. rewrite Z.mul_1_l. reflexivity. }
        rewrite E in E2. rewrite <- E2. apply cong_eq. ring. }
    rewrite sumn_mul_r. rewrite orth by lia. reflexivity.
Qed.

Lemma prime_pow2 p b : prime p -> (p | 2 ^ Z.of_nat b) -> p = 2.
Proof.
  intros Hp. induction b as [|b IH].
  - change (2 ^ Z.of_nat 0) with 1. intros D. apply Z.divide_1_r_nonneg in D; destruct Hp; lia.
  - rewrite Nat2Z.inj_succ, Z.pow_succ_r by lia. intros D. apply prime_mult in D as [D|D]; auto.
    apply prime_div_prime; auto. apply prime_2.
Qed.
Lemma ninv : cong q (ModExp n (q - 2) q * n) 1.
Proof.
  destruct (nm_ok _ _ _ H) as [Hodd Hr]. pose proof (nm_log _ _ _ H) as HL. pose proof (nm_prime _ _ _ H) as Hp.
  assert (Hn : ~ (q | n)).
  { rewrite deg_Z. intros D. apply prime_pow2 in D; auto. rewrite D in Hodd. discriminate. }
  assert (HnW : n < W).
  { rewrite deg_Z, W_val. apply Z.le_lt_trans with (2 ^ 60); [|reflexivity]. apply Z.pow_le_mono_r; lia. }
  assert (q <> 2) by (intros E; rewrite E in Hodd; discriminate).
  pose proof HN.
  rewrite ModExp_spec; [|apply mod61_ok; exact (nm_ok _ _ _ H)|lia|lia].
  rewrite cong_mod by lia. rewrite Z.mul_comm, <- Z.pow_succ_r by lia.
  replace (Z.succ (q - 2)) with (q - 1) by lia. apply fermat_Z; auto. lia.
Qed.

Lemma InvNTT_nth l k : (k < N)%nat -> 0 <= nth k (InvNTT logN q psi l) 0 < q.
Proof. intros Hk. pose proof Hq. unfold InvNTT. rewrite nth_map_seq by auto. apply Z.mod_pos_bound; lia. Qed.

(** InvNTT inverts the transform *)
Theorem InvNTT_spec l A : (forall i, (i < N)%nat -> cong q (nth i l 0) (nttf logN psi A i)) ->
  forall k, (k < N)%nat -> cong q (nth k (InvNTT logN q psi l) 0) (A k).
Proof.
  intros Hl k Hk. pose proof Hq. unfold InvNTT. rewrite nth_map_seq by auto. rewrite cong_mod by lia.
  rewrite (sumn_cong q N _ (fun i => sumn N (fun k' => A k' *
     (psi ^ ((2 * n - slot_exp logN i) * Z.of_nat k) * psi ^ (slot_exp logN i * Z.of_nat k'))))).
  2:{ intros i Hi. rewrite (Hl i Hi). unfold nttf, peval. rewrite <- sumn_mul_r. apply sumn_cong. intros k' Hk'.
      pose proof (slot_exp_range logN i). unfold point. rewrite <- Z.pow_mul_r by lia. apply cong_eq. ring. }
  rewrite sumn_comm.
  rewrite (sumn_cong q N _ (fun k' => if Nat.eqb k k' then A k' * n else 0)).
  2:{ intros k' Hk'. rewrite sumn_mul_l. rewrite ortho2 by auto. destruct (Nat.eqb k k'); [reflexivity|]. apply cong_eq. ring. }
  rewrite (sumn_single N k); auto.
  - rewrite Nat.eqb_refl. replace (ModExp n (q - 2) q * (A k * n)) with (A k * (ModExp n (q - 2) q * n)) by ring.
    rewrite ninv. apply cong_eq. ring.
  - intros i Hi Hne. destruct (Nat.eqb_spec k i); [lia|reflexivity].
Qed.

(** the transform is injective modulo q *)
Lemma nttf_inj A B : (forall i, (i < N)%nat -> cong q (nttf logN psi A i) (nttf logN psi B i)) -> peq N q A B.
Proof.
  intros E k Hk.
  set (l := map (nttf logN psi A) (seq 0 N)).
  assert (L : forall i, (i < N)%nat -> nth i l 0 = nttf logN psi A i) by (intros; unfold l; now rewrite nth_map_seq).
  rewrite <- (InvNTT_spec l A) by (auto; intros i Hi; rewrite L by auto; reflexivity).
  apply (InvNTT_spec l B); auto. intros i Hi. rewrite L by auto. now apply E.
Qed.

Lemma slot_exp_inj i j : (i < N)%nat -> (j < N)%nat -> slot_exp logN i = slot_exp logN j -> i = j.
Proof.
  intros Hi Hj E. unfold slot_exp in E. assert (E' : brv logN (Z.of_nat i) = brv logN (Z.of_nat j)) by lia.
  apply (f_equal (brv logN)) in E'. rewrite !brv_small_invol in E' by (rewrite <- deg_Z; lia). lia.
Qed.
Lemma ortho_dual i j : (i < N)%nat -> (j < N)%nat ->
  cong q (sumn N (fun k => psi ^ ((2 * n - slot_exp logN j) * Z.of_nat k) * psi ^ (slot_exp logN i * Z.of_nat k)))
         (if Nat.eqb i j then n else 0).
Proof.
  intros Hi Hj.
  pose proof (slot_exp_range logN i) as Hri. pose proof (slot_exp_range logN j) as Hrj.
  set (d := n + brv logN (Z.of_nat i) - brv logN (Z.of_nat j)).
  assert (Hd : 2 * n - slot_exp logN j + slot_exp logN i = 2 * d) by (unfold d, slot_exp; ring).
  set (w := psi ^ (2 * d)).
  rewrite (sumn_ext N _ (fun k => w ^ Z.of_nat k)).
  2:{ intros k Hk. unfold w. rewrite <- Hd, <- Z.pow_add_r, <- Z.pow_mul_r by nia. f_equal. ring. }
  destruct (Nat.eqb_spec i j) as [->|Hne].
  - rewrite (sumn_cong q N _ (fun _ => 1)).
    2:{ intros k Hk. unfold w. replace d with n by (unfold d; ring).
        rewrite (cong_pow q _ 1 (Z.of_nat k) ltac:(lia) psi_2n). rewrite Z.pow_1_l by lia. reflexivity. }
    rewrite sumn_const. apply cong_eq. ring.
  - assert (Hdn : d <> n).
    { intros E. apply Hne. apply slot_exp_inj; auto. lia. }
    assert (Hw : ~ (q | w - 1)).
    { unfold w. destruct (Z_lt_le_dec d n) as [Hlt|Hge].
      - apply psi_order. lia.
      - replace (2 * d) with (2 * n + 2 * (d - n)) by ring. rewrite Z.pow_add_r by lia.
        intros D. apply (psi_order (d - n)); [lia|].
        assert (C : cong q (psi ^ (2 * n) * psi ^ (2 * (d - n))) 1) by exact D.
        rewrite psi_2n, Z.mul_1_l in C. exact C. }
    assert (D : (q | (w - 1) * sumn N (fun k => w ^ Z.of_nat k))).
    { rewrite geom. unfold w. rewrite <- Z.pow_mul_r by lia.
      replace (2 * d * n) with ((2 * n) * d) by ring. rewrite Z.pow_mul_r by lia.
      change (cong q ((psi ^ (2 * n)) ^ d) 1).
      rewrite (cong_pow q _ 1 d ltac:(lia) psi_2n). rewrite Z.pow_1_l by lia. reflexivity. }
    apply prime_mult in D; [|exact (nm_prime _ _ _ H)]. destruct D as [D|D]; [tauto|].
    destruct D as [c E]. exists c. lia.
Qed.

(** every vector of slot values is the transform of its InvNTT *)
Lemma nttf_surj l :
  forall i, (i < N)%nat -> cong q (nth i l 0) (nttf logN psi (lpoly (InvNTT logN q psi l)) i).
Proof.
  intros i Hi. pose proof Hq. pose proof (slot_exp_range logN i) as Hri. unfold nttf, peval.
  rewrite (sumn_cong q N _ (fun k => sumn N (fun j => (ModExp n (q - 2) q * nth j l 0) *
      (psi ^ ((2 * n - slot_exp logN j) * Z.of_nat k) * psi ^ (slot_exp logN i * Z.of_nat k))))).
  2:{ intros k Hk. unfold lpoly, InvNTT. rewrite nth_map_seq by auto. rewrite cong_mod by lia.
      rewrite <- sumn_mul_l, <- sumn_mul_r. apply sumn_cong. intros j Hj. unfold point.
      rewrite <- Z.pow_mul_r by lia. apply cong_eq. ring. }
  rewrite sumn_comm.
  rewrite (sumn_cong q N _ (fun j => if Nat.eqb i j then ModExp n (q - 2) q * nth j l 0 * n else 0)).
  2:{ intros j Hj. rewrite sumn_mul_l, ortho_dual by auto. destruct (Nat.eqb i j); [reflexivity|]. apply cong_eq. ring. }
  rewrite (sumn_single N i); auto.
  - rewrite Nat.eqb_refl. rewrite <- Z.mul_assoc, (Z.mul_comm (nth i l 0)), Z.mul_assoc, ninv. apply cong_eq. ring.
  - intros j Hj Hne. destruct (Nat.eqb_spec i j); [lia|reflexivity].
Qed.

(** * slot permutation *)
Lemma PermuteNTTIndex_spec g i : 0 <= g -> Z.Odd g -> (i < N)%nat ->
  exists j, nth i (PermuteNTTIndex logN g) 0 = Z.of_nat j /\ (j < N)%nat /\
    slot_exp logN j = (g * slot_exp logN i) mod (2 * n).
Proof.
  intros Hg Hgo Hi. unfold PermuteNTTIndex. rewrite nth_map_seq by auto. 
  set (e := (g * slot_exp logN i) mod (2 * n)). pose proof HN.
  assert (Hr : 0 <= e < 2 * n) by (apply Z.mod_pos_bound; lia).
  assert (Ho : Z.Odd e).
  { destruct Hgo as [a Ha], (slot_exp_odd logN i) as [b Hb].
    unfold e. rewrite Z.mod_eq by lia. rewrite Hb, Ha.
    exists (a * (2 * b + 1) + b - n * ((2 * a + 1) * (2 * b + 1) / (2 * n))). ring. }
  destruct Ho as [m Hm]. assert (Hmr : 0 <= m < n) by lia.
  replace ((e - 1) / 2) with m by (rewrite Hm; replace (2 * m + 1 - 1) with (m * 2) by ring; now rewrite Z.div_mul).
  pose proof (brv_range logN m) as Hb. rewrite <- deg_Z in Hb.
  exists (Z.to_nat (brv logN m)). rewrite Z2Nat.id by lia. split; [reflexivity|]. split; [lia|].
  unfold slot_exp at 1. rewrite Z2Nat.id by lia. rewrite brv_small_invol by (rewrite <- deg_Z; lia). lia.
Qed.
(** permuting the slots by the index table of g is the automorphism X -> X^g *)
Theorem permute_ntt_spec g g' l A : 0 <= g -> Z.Odd g -> cong (2 * n) (g * g') 1 -> length l = N ->
  (forall i, (i < N)%nat -> cong q (nth i l 0) (nttf logN psi A i)) ->
  exists l', permute_ntt (PermuteNTTIndex logN g) l = Ok l' /\ length l' = N /\
    (forall i, (i < N)%nat -> exists j, (j < N)%nat /\ nth i l' 0 = nth j l 0) /\
    (forall i, (i < N)%nat -> cong q (nth i l' 0) (nttf logN psi (sigma_inv N g' A) i)).
Proof.
  intros Hg Hgo Hinv Hlen Hl. pose proof Hq as Hq1.
  assert (HL : length (PermuteNTTIndex logN g) = N) by (unfold PermuteNTTIndex; now rewrite map_length, seq_length).
  exists (map (fun z => nth (Z.to_nat z) l 0) (PermuteNTTIndex logN g)). split; [|split; [|split]].
  - unfold permute_ntt. apply mapM_ok. intros z Hz. apply In_nth with (d := 0) in Hz as (i & Hi & <-).
    rewrite HL in Hi. destruct (PermuteNTTIndex_spec g i Hg Hgo Hi) as (j & -> & Hj & _).
    rewrite idxZ_nth with (d := 0) by lia. reflexivity.
  - now rewrite map_length.
  - intros i Hi. destruct (PermuteNTTIndex_spec g i Hg Hgo Hi) as (j & Ej & Hj & _). exists j. split; auto.
    rewrite (nth_mapl _ _ _ 0) by lia. rewrite Ej, Nat2Z.id. reflexivity.
  - intros i Hi. destruct (PermuteNTTIndex_spec g i Hg Hgo Hi) as (j & Ej & Hj & Ee).
    rewrite (nth_mapl _ _ _ 0) by lia. rewrite Ej, Nat2Z.id. rewrite (Hl j Hj).
    unfold nttf. rewrite (peval_sigma N q (point logN psi i) g g') by (auto using HN, point_root; lia).
    apply peval_cong_arg. unfold point. rewrite Ee.
    pose proof (slot_exp_range logN i).
    rewrite <- Z.pow_mul_r by lia. rewrite (Z.mul_comm (slot_exp logN i)).
    apply (zp_nonneg N HN q psi (nm_psi _ _ _ H)). nia.
Qed.
End Transform.
