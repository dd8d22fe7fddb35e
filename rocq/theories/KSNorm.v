(** Size of the key-switching noise. *)
From Coq Require Import String ZArith Znumtheory List Lia Setoid Morphisms Bool Permutation Ring.
From Verif Require Import Arith NegRing NegRingProofs KSAlg.
Import ListNotations.
Local Open Scope Z_scope.

Lemma pnorm_peq N a b B : peq N 0 a b -> pnorm_le N a B -> pnorm_le N b B.
Proof. intros H Hb i Hi. specialize (H i Hi). apply cong_0 in H. rewrite <- H. now apply Hb. Qed.
Lemma pnorm_psumL_le {T} N (f : T -> zpoly) l B k : 0 <= B -> Z.of_nat (List.length l) <= k -> (forall a, In a l -> pnorm_le N (f a) B) -> pnorm_le N (psumL f l) (k * B).
Proof. intros H0 Hk H. eapply pnorm_le_trans; [|apply pnorm_psumL; exact H]. nia. Qed.

Section Norm.
Context (N : nat) (HN : (0 < N)%nat).
Notation n := (Z.of_nat N).

(** noise of one key switch with beta digits of size Dm, errors of size Be, secret of size Bs and rounding 2P *)
Definition ks_bound (beta Bs Be Dm P : Z) : Z := beta * (n * (Be * Dm)) + 2 * P + n * (Bs * (2 * P)).
Lemma ks_norm ts (D e : nat -> zpoly) s R Ra Bs Be Dm P :
  pnorm_le N s Bs -> (forall t, In t ts -> pnorm_le N (e t) Be) -> (forall t, In t ts -> pnorm_le N (D t) Dm) ->
  pnorm_le N R (2 * P) -> pnorm_le N Ra (2 * P) ->
  pnorm_le N (psub (psub (psumL (fun t => pmul N (e t) (D t)) ts) R) (pmul N s Ra)) (ks_bound (Z.of_nat (List.length ts)) Bs Be Dm P).
Proof.
  intros Hs He HD HR HRa. unfold ks_bound. apply pnorm_sub; [apply pnorm_sub; [|auto]|now apply pnorm_mul].
  apply pnorm_psumL. intros t Ht. apply pnorm_mul; auto.
Qed.

Definition mul_bound (k0 k1 beta Bs Be Dm P : Z) : Z :=
  k0 * (k1 * (beta * (n * ((n * (Bs * Be) + n * (Bs * Be)) * (n * (Dm * Dm)))))) + k1 * (n * (Bs * (2 * P))) + k0 * (n * (Bs * (2 * P)))
  + k0 * ks_bound beta Bs Be Dm P.
Lemma mul_norm {I : Type} ts (L0 L1 : list I) (s r : I -> zpoly) (eb ed ev D0 D1 DZ : I -> nat -> zpoly) (R1 RZ R2 R3 : I -> zpoly) Bs Be Dm P :
  (forall i, In i L0 \/ In i L1 -> pnorm_le N (s i) Bs /\ pnorm_le N (r i) Bs) ->
  (forall i t, In i L0 \/ In i L1 -> In t ts -> pnorm_le N (eb i t) Be /\ pnorm_le N (ed i t) Be /\ pnorm_le N (ev i t) Be) ->
  (forall i t, In i L0 -> In t ts -> pnorm_le N (D0 i t) Dm) -> (forall i t, In i L1 -> In t ts -> pnorm_le N (D1 i t) Dm) ->
  (forall i t, In i L0 -> In t ts -> pnorm_le N (DZ i t) Dm) ->
  (forall i, In i L1 -> pnorm_le N (R1 i) (2 * P)) -> (forall i, In i L0 -> pnorm_le N (RZ i) (2 * P) /\ pnorm_le N (R2 i) (2 * P) /\ pnorm_le N (R3 i) (2 * P)) ->
  pnorm_le N (padd (noise0 N ts L0 L1 s r eb ed D0 D1 R1 RZ) (noise1 N ts L0 s ev DZ R2 R3))
    (mul_bound (Z.of_nat (List.length L0)) (Z.of_nat (List.length L1)) (Z.of_nat (List.length ts)) Bs Be Dm P).
Proof.
  intros Hs He HD0 HD1 HDZ HR1 HR. unfold mul_bound. apply pnorm_add.
  - unfold noise0. apply pnorm_add; [apply pnorm_sub|].
    + apply pnorm_psumL. intros i Hi. apply pnorm_psumL. intros j Hj. apply pnorm_psumL. intros t Ht.
      apply pnorm_mul; [|apply pnorm_mul; auto]. apply pnorm_sub; apply pnorm_mul; try apply Hs; try apply He; auto.
    + apply pnorm_psumL. intros j Hj. apply pnorm_mul; [apply Hs; auto|auto].
    + apply pnorm_psumL. intros i Hi. apply pnorm_mul; [apply Hs; auto|apply HR; auto].
  - unfold noise1. apply pnorm_psumL. intros i Hi. destruct (HR i Hi) as (A & B & C).
    apply ks_norm; auto; [apply Hs; auto|]. intros t Ht. apply He; auto.
Qed.
End Norm.
