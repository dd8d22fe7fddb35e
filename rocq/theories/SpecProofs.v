(** Facts about the vocabulary of Spec.v. *)
From Coq Require Import String ZArith Znumtheory List Bool Lia.
From Verif Require Import Spec Go Arith GoProofs LattigoProofs BasisExt BasisExtProofs ModDownProofs.
Import ListNotations.
Local Open Scope Z_scope.

Lemma product_prodZ l : product l = prodZ l.
Proof. reflexivity. Qed.
Lemma eqm_cong q a b : q <> 0 -> eqm q a b <-> cong q a b.
Proof.
  intros Hq. unfold eqm, cong. split; intros H.
  - exists (a / q - b / q). rewrite (Z.div_mod a q Hq) at 1. rewrite (Z.div_mod b q Hq) at 1. rewrite H. ring.
  - destruct H as [k H]. replace a with (b + k * q) by lia. apply Z_mod_plus_full.
Qed.
Lemma no_divisor_ok n p : forall d, no_divisor n p d = true -> forall e, d <= e < d + Z.of_nat n -> p mod e <> 0.
Proof.
  induction n as [|n IH]; cbn [no_divisor]; intros d H e He; [lia|]. apply andb_true_iff in H as [H1 H2].
  destruct (Z.eq_dec e d) as [->|]; [now apply Z.eqb_neq, negb_true_iff|]. apply (IH (d + 1) H2). lia.
Qed.
Lemma prime_b_ok p : prime_b p = true -> prime p.
Proof.
  unfold prime_b. rewrite andb_true_iff. intros [H1 H2]. apply Z.ltb_lt in H1.
  destruct (prime_dec p) as [|Hn]; auto. exfalso.
  destruct (not_prime_divide p H1 Hn) as (d & Hd & Hdiv).
  assert (exists e, 2 <= e <= Z.sqrt p /\ (e | p)) as (e & He & Hep).
  { destruct (Z.le_gt_cases d (Z.sqrt p)) as [Hle|Hgt]; [exists d; split; auto; lia|].
    destruct Hdiv as [c Hc]. exists c. split; [|exists d; lia]. split; [destruct (Z.le_gt_cases c 1); [nia|lia]|].
    assert (c * d < Z.succ (Z.sqrt p) * Z.succ (Z.sqrt p)) by (rewrite <- Hc; apply Z.sqrt_spec; lia).
    assert (Z.succ (Z.sqrt p) <= d) by lia. pose proof (Z.sqrt_nonneg p). assert (0 < c) by nia. destruct (Z.le_gt_cases c (Z.sqrt p)); [lia|nia]. }
  pose proof (no_divisor_ok _ _ _ H2 e ltac:(lia)) as H3.
  apply Z.mod_divide in Hep; [|lia]. contradiction.
Qed.
Lemma ntt_mod61 q : prime q /\ 2 < q < 2 ^ 61 -> mod61 q.
Proof.
  intros [Hp Hq]. split; [|lia]. rewrite <- Z.negb_even. destruct (Z.even q) eqn:E; auto. exfalso.
  apply Z.even_spec in E. destruct E as [c E]. assert (2 = q); [|lia].
  apply prime_div_prime; auto; [apply prime_2|exists c; lia].
Qed.
Lemma ntt_good Q P : ntt_primes (Q ++ P) -> good_moduli Q P.
Proof.
  intros [H1 H2]. apply Forall_app in H2 as [H2 H3]. constructor; auto; (eapply Forall_impl; [|eassumption]); cbv beta; intros a H; try apply H; now apply ntt_mod61.
Qed.
Lemma ntt_primes_b l : NoDup l -> forallb (fun q => prime_b q && (2 <? q) && (q <? 2 ^ 61)) l = true -> ntt_primes l.
Proof.
  intros H1 H2. split; auto. apply Forall_forall. intros q Hq. rewrite forallb_forall in H2. specialize (H2 q Hq).
  rewrite !andb_true_iff, !Z.ltb_lt in H2. destruct H2 as [[H2 H3] H4]. split; [now apply prime_b_ok|lia].
Qed.
Lemma rns_words_ok N p : rns_words N p -> Forall Repr.words p /\ Forall (fun l => length l = N) p.
Proof.
  intros H. split; (eapply Forall_impl; [|exact H]); intros l [H1 H2]; auto.
Qed.
