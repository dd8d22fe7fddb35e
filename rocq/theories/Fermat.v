(** Fermat's little theorem over [Z], from the standard library only: multiplication by a
    permutes the nonzero residues. *)
From Coq Require Import ZArith Znumtheory List Lia Permutation.
From Verif Require Import Arith.
Import ListNotations.
Local Open Scope Z_scope.

Lemma prodZ_perm l l' : Permutation l l' -> prodZ l = prodZ l'.
Proof. induction 1; cbn [prodZ]; lia. Qed.

Definition units (p : Z) : list Z := map (fun i => Z.of_nat i) (seq 1 (Z.to_nat p - 1)).

Lemma units_in p x : 1 < p -> In x (units p) <-> 1 <= x < p.
Proof.
  intros Hp. unfold units. rewrite in_map_iff. split.
  - intros (i & <- & Hi). apply in_seq in Hi. lia.
  - intros H. exists (Z.to_nat x). split; [lia|]. apply in_seq. lia.
Qed.
Lemma units_nodup p : NoDup (units p).
Proof.
  unfold units. apply FinFun.Injective_map_NoDup; [intros x y; lia|apply seq_NoDup].
Qed.

Lemma cong_prod_map p a l : cong p (prodZ (map (fun x => (a * x) mod p) l)) (a ^ Z.of_nat (length l) * prodZ l).
Proof.
  destruct (Z.eq_dec p 0) as [->|Hp].
  - induction l as [|x l IH]; cbn [map prodZ length]; [apply cong_refl|].
    apply cong_0 in IH. rewrite IH. rewrite Nat2Z.inj_succ, Z.pow_succ_r by lia.
    rewrite Zmod_0_r. apply cong_eq. ring.
  - induction l as [|x l IH]; cbn [map prodZ length]; [apply cong_refl|].
    rewrite IH. rewrite (cong_mod p (a * x) Hp). rewrite Nat2Z.inj_succ, Z.pow_succ_r by lia.
    apply cong_eq. ring.
Qed.

Theorem fermat_Z p a : prime p -> 0 <= a -> ~ (p | a) -> cong p (a ^ (p - 1)) 1.
Proof.
  intros Hp _ Hna. assert (H1 : 1 < p) by (destruct Hp; lia).
  assert (Hrp : rel_prime p a) by (apply prime_rel_prime; auto).
  assert (Hinj : forall x y, 1 <= x < p -> 1 <= y < p -> (a * x) mod p = (a * y) mod p -> x = y).
  { intros x y Hx Hy E. apply (cong_small p); [lia|lia|].
    apply (cong_mul_cancel p a); [now apply rel_prime_sym|]. apply cong_eq_mod; [lia|exact E]. }
  assert (HP : Permutation (map (fun x => (a * x) mod p) (units p)) (units p)).
  { apply NoDup_Permutation_bis.
    - assert (HF : forall x, In x (units p) -> 1 <= x < p) by (intros x; now apply units_in).
      pose proof (units_nodup p) as Hnd. induction Hnd as [|x l Hx Hnd IH]; cbn [map]; constructor.
      + rewrite in_map_iff. intros (y & E & Hy). apply Hx.
        rewrite <- (Hinj y x); auto; apply HF; cbn; auto.
      + apply IH. intros y Hy. apply HF. now right.
    - rewrite map_length. lia.
    - intros z Hz. apply in_map_iff in Hz as (x & <- & Hx). apply units_in in Hx; auto.
      apply units_in; auto. pose proof (Z.mod_pos_bound (a * x) p ltac:(lia)).
      enough ((a * x) mod p <> 0) by lia. intros E.
      apply Z.mod_divide in E; [|lia]. apply prime_mult in E as [E|E]; auto.
      apply Z.divide_pos_le in E; lia. }
  assert (Hlen : Z.of_nat (length (units p)) = p - 1).
  { unfold units. rewrite map_length, seq_length. lia. }
  pose proof (cong_prod_map p a (units p)) as HC.
  rewrite (prodZ_perm _ _ HP), Hlen in HC.
  apply (cong_mul_cancel p (prodZ (units p))).
  - apply rel_prime_sym, rel_prime_prodZ. apply Forall_forall. intros x Hx. apply units_in in Hx; auto.
    apply prime_rel_prime; auto. intros D. apply Z.divide_pos_le in D; lia.
  - rewrite (Z.mul_comm (prodZ _)). rewrite <- HC. apply cong_eq. ring.
Qed.
