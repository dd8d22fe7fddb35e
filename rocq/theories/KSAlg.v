(** The algebra of multi-key relinearisation and of key switching, over integer polynomials. *)
From Coq Require Import String ZArith Znumtheory List Lia Setoid Morphisms Bool Permutation Ring.
From Verif Require Import Arith NegRing NegRingProofs.
Import ListNotations.
Local Open Scope Z_scope.

Section Alg.
Context (N : nat) (HN : (0 < N)%nat).
Notation "a == b" := (peq N 0 a b) (at level 70).
Notation "a + b" := (padd a b).
Notation "a - b" := (psub a b).
Notation "a * b" := (pmul N a b).
Add Ring pring0 : (peq_ring N 0 HN) (setoid (peq_equiv N 0) (peq_ext N 0)).

Lemma pscale_const c a : pscale c a == pconst c * a.
Proof. symmetry. now apply pmul_const_l. Qed.
Lemma sumL_mul_l {T} b (f : T -> zpoly) l : b * psumL f l == psumL (fun a => b * f a) l.
Proof. symmetry. apply psumL_mul_l. Qed.
Lemma sumL_mul_r {T} b (f : T -> zpoly) l : psumL f l * b == psumL (fun a => f a * b) l.
Proof. symmetry. apply psumL_mul_r. Qed.

(** one gadget product against a key with row t = e_t - s*a_t + P*G_t*m, paired with the row a_t *)
Section KS.
Context (ts : list nat) (P : Z) (G D e a : nat -> zpoly) (s m C Ca R Ra : zpoly).
Hypothesis HC : pscale P C == psumL (fun t => ((e t - s * a t) + pscale P (G t * m)) * D t) ts - R.
Hypothesis HCa : pscale P Ca == psumL (fun t => a t * D t) ts - Ra.
Lemma ks_alg : pscale P ((C + s * Ca) - m * psumL (fun t => G t * D t) ts) ==
  (psumL (fun t => e t * D t) ts - R) - s * Ra.
Proof.
  rewrite !pscale_const in *. set (p := pconst P) in *.
  assert (E : psumL (fun t => ((e t - s * a t) + pscale P (G t * m)) * D t) ts ==
     (psumL (fun t => e t * D t) ts - s * psumL (fun t => a t * D t) ts) + (p * m) * psumL (fun t => G t * D t) ts).
  { rewrite !sumL_mul_l. rewrite <- psumL_sub, <- psumL_add. apply psumL_ext. intros t _. rewrite pscale_const. fold p. ring. }
  rewrite E in HC.
  transitivity (p * C + s * (p * Ca) - (p * m) * psumL (fun t => G t * D t) ts); [ring|]. rewrite HC, HCa. ring.
Qed.
End KS.

(** multiplication: parties L0 of the first and L1 of the second operand *)
Section Mul.
Context {I : Type} (ts : list nat) (P : Z) (L0 L1 : list I) (G a u : nat -> zpoly)
  (s r : I -> zpoly) (eb ed ev D0 D1 DZ : I -> nat -> zpoly) (E1 Zv E2 E3 R1 RZ R2 R3 : I -> zpoly).
Let b (i : I) t := eb i t - s i * a t.
Let d (i : I) t := (ed i t - r i * a t) + pscale P (G t * s i).
Let v (i : I) t := (ev i t - s i * u t) - pscale P (G t * r i).
Hypothesis H1 : forall j, In j L1 -> pscale P (E1 j) == psumL (fun t => psumL (fun i => d i t * D0 i t) L0 * D1 j t) ts - R1 j.
Hypothesis HZ : forall i, In i L0 -> pscale P (Zv i) == psumL (fun t => psumL (fun j => b j t * D1 j t) L1 * D0 i t) ts - RZ i.
Hypothesis H2 : forall i, In i L0 -> pscale P (E2 i) == psumL (fun t => v i t * DZ i t) ts - R2 i.
Hypothesis H3 : forall i, In i L0 -> pscale P (E3 i) == psumL (fun t => u t * DZ i t) ts - R3 i.

Definition Mij (i j : I) : zpoly := psumL (fun t => G t * (D0 i t * D1 j t)) ts.
Definition Hi (i : I) : zpoly := psumL (fun t => G t * DZ i t) ts.
Definition noise0 : zpoly :=
  ((psumL (fun i => psumL (fun j => psumL (fun t => (s j * ed i t - r i * eb j t) * (D0 i t * D1 j t)) ts) L1) L0
   - psumL (fun j => s j * R1 j) L1) + psumL (fun i => r i * RZ i) L0).
Definition noise1 : zpoly := psumL (fun i => (psumL (fun t => ev i t * DZ i t) ts - R2 i) - s i * R3 i) L0.
Definition wnoise : zpoly :=
  ((psumL (fun j => s j * E1 j) L1 + psumL (fun i => E2 i + s i * E3 i) L0)
   - psumL (fun i => psumL (fun j => (s i * s j) * Mij i j) L1) L0)
  + psumL (fun i => r i * (Hi i - Zv i)) L0.

Lemma mul_noise_0 : pscale P ((psumL (fun j => s j * E1 j) L1 - psumL (fun i => r i * Zv i) L0) - psumL (fun i => psumL (fun j => (s i * s j) * Mij i j) L1) L0) == noise0.
Proof.
  rewrite pscale_const. set (p := pconst P).
  assert (A1 : p * psumL (fun j => s j * E1 j) L1 == psumL (fun i => psumL (fun j => psumL (fun t => (s j * (ed i t - r i * a t)) * (D0 i t * D1 j t)) ts) L1) L0
     + p * psumL (fun i => psumL (fun j => (s i * s j) * Mij i j) L1) L0 - psumL (fun j => s j * R1 j) L1).
  { rewrite !sumL_mul_l.
    transitivity (psumL (fun j => psumL (fun i => psumL (fun t => s j * (d i t * D0 i t * D1 j t)) ts) L0 - s j * R1 j) L1).
    - apply psumL_ext. intros j Hj. transitivity (s j * (p * E1 j)); [ring|]. unfold p. rewrite <- pscale_const, (H1 j Hj).
      transitivity (s j * psumL (fun t => psumL (fun i => d i t * D0 i t) L0 * D1 j t) ts - s j * R1 j); [ring|].
      apply psub_proper; [|reflexivity]. rewrite psumL_comm. rewrite sumL_mul_l. apply psumL_ext. intros t _.
      rewrite sumL_mul_r, sumL_mul_l. apply psumL_ext. intros i _. ring.
    - rewrite psumL_sub. apply psub_proper; [|reflexivity]. rewrite psumL_comm. rewrite <- psumL_add. apply psumL_ext. intros i _.
      rewrite sumL_mul_l, <- psumL_add. apply psumL_ext. intros j _. unfold Mij. rewrite !sumL_mul_l, <- psumL_add. apply psumL_ext. intros t _.
      unfold d. rewrite pscale_const. fold p. ring. }
  assert (A2 : p * psumL (fun i => r i * Zv i) L0 == psumL (fun i => psumL (fun j => psumL (fun t => (r i * (eb j t - s j * a t)) * (D0 i t * D1 j t)) ts) L1) L0
     - psumL (fun i => r i * RZ i) L0).
  { rewrite sumL_mul_l, <- psumL_sub. apply psumL_ext. intros i Hi0. transitivity (r i * (p * Zv i)); [ring|]. unfold p. rewrite <- pscale_const, (HZ i Hi0).
    transitivity (r i * psumL (fun t => psumL (fun j => b j t * D1 j t) L1 * D0 i t) ts - r i * RZ i); [ring|].
    apply psub_proper; [|reflexivity]. rewrite (psumL_comm N 0 (fun j t => (r i * (eb j t - s j * a t)) * (D0 i t * D1 j t)) L1 ts).
    rewrite sumL_mul_l. apply psumL_ext. intros t _. rewrite sumL_mul_r, sumL_mul_l. apply psumL_ext. intros j _. unfold b. ring. }
  transitivity (p * psumL (fun j => s j * E1 j) L1 - p * psumL (fun i => r i * Zv i) L0 - p * psumL (fun i => psumL (fun j => (s i * s j) * Mij i j) L1) L0); [ring|].
  rewrite A1, A2. unfold noise0.
  set (S1 := psumL (fun j => s j * R1 j) L1). set (S2 := psumL (fun i => r i * RZ i) L0). set (S3 := p * psumL (fun i => psumL (fun j => (s i * s j) * Mij i j) L1) L0).
  transitivity ((psumL (fun i => psumL (fun j => psumL (fun t => (s j * (ed i t - r i * a t)) * (D0 i t * D1 j t)) ts) L1) L0
     - psumL (fun i => psumL (fun j => psumL (fun t => (r i * (eb j t - s j * a t)) * (D0 i t * D1 j t)) ts) L1) L0) - S1 + S2); [ring|].
  apply padd_proper; [|reflexivity]. apply psub_proper; [|reflexivity].
  rewrite <- psumL_sub. apply psumL_ext. intros i _. rewrite <- psumL_sub. apply psumL_ext. intros j _. rewrite <- psumL_sub. apply psumL_ext. intros t _. ring.
Qed.

Lemma mul_noise_1 : pscale P (psumL (fun i => (E2 i + s i * E3 i) + r i * Hi i) L0) == noise1.
Proof.
  rewrite pscale_const, sumL_mul_l. apply psumL_ext. intros i Hi0.
  pose proof (H2 i Hi0) as A2. pose proof (H3 i Hi0) as A3. rewrite pscale_const in A2, A3. set (p := pconst P) in *.
  transitivity (p * E2 i + s i * (p * E3 i) + (p * r i) * Hi i); [ring|]. rewrite A2, A3.
  assert (E : psumL (fun t => v i t * DZ i t) ts == (psumL (fun t => ev i t * DZ i t) ts - s i * psumL (fun t => u t * DZ i t) ts) - (p * r i) * Hi i).
  { unfold Hi. rewrite !sumL_mul_l, <- !psumL_sub. apply psumL_ext. intros t _. unfold v. rewrite pscale_const. fold p. ring. }
  rewrite E. ring.
Qed.

(** P times the total noise *)
Lemma mul_noise : pscale P wnoise == noise0 + noise1.
Proof.
  rewrite <- mul_noise_0, <- mul_noise_1. rewrite !pscale_const. unfold wnoise.
  rewrite (psumL_add N 0 (fun i => E2 i + s i * E3 i) (fun i => r i * Hi i)).
  assert (E : psumL (fun i => r i * (Hi i - Zv i)) L0 == psumL (fun i => r i * Hi i) L0 - psumL (fun i => r i * Zv i) L0).
  { rewrite <- psumL_sub. apply psumL_ext. intros; ring. }
  rewrite E. ring.
Qed.
End Mul.

(** phase of the product modulo q, when the digits recombine modulo q *)
Section Phase.
Context (q : Z).
Notation "a =q b" := (peq N q a b) (at level 70).
Add Ring pringq : (peq_ring N q HN) (setoid (peq_equiv N q) (peq_ext N q)).
Lemma sumLq_mul_l {T} b (f : T -> zpoly) l : b * psumL f l =q psumL (fun a => b * f a) l.
Proof. symmetry. apply psumL_mul_l. Qed.
Lemma sumLq_mul_r {T} b (f : T -> zpoly) l : psumL f l * b =q psumL (fun a => f a * b) l.
Proof. symmetry. apply psumL_mul_r. Qed.

(** with G_t = 1 for the block of q and 0 for the others, the digits recombine *)
Lemma recombine (ts : list nat) t0 (G D : nat -> zpoly) A : NoDup ts -> In t0 ts ->
  (forall t, In t ts -> G t =q (if Nat.eqb t t0 then pone else pzero)) -> D t0 =q A ->
  psumL (fun t => G t * D t) ts =q A.
Proof.
  intros Hnd Hin HG HD. rewrite (psumL_single N q (fun t => G t * D t) ts t0 Hnd Hin).
  - rewrite (HG t0 Hin), Nat.eqb_refl, HD. ring.
  - intros t Ht Hne. rewrite (HG t Ht). destruct (Nat.eqb_spec t t0); [contradiction|]. ring.
Qed.

Lemma mul_phase {I : Type} (ts : list nat) t0 (L0 L1 : list I) (G : nat -> zpoly) (s r : I -> zpoly) (D0 D1 DZ : I -> nat -> zpoly) (E1 Zv E2 E3 f0 f1 : I -> zpoly) (c0 c1 : zpoly) :
  NoDup ts -> In t0 ts -> (forall t, In t ts -> G t =q (if Nat.eqb t t0 then pone else pzero)) ->
  (forall i, In i L0 -> D0 i t0 =q f0 i) -> (forall j, In j L1 -> D1 j t0 =q f1 j) -> (forall i, In i L0 -> DZ i t0 =q Zv i) ->
  (c0 * c1 + psumL E2 L0) + (psumL (fun i => s i * (f0 i * c1 + E3 i)) L0 + psumL (fun j => s j * (c0 * f1 j + E1 j)) L1)
  =q (c0 + psumL (fun i => s i * f0 i) L0) * (c1 + psumL (fun j => s j * f1 j) L1)
     + wnoise ts L0 L1 G s r D0 D1 DZ E1 Zv E2 E3.
Proof.
  intros Hnd Hin HG HD0 HD1 HDZ. unfold wnoise.
  assert (A1 : psumL (fun i => r i * (Hi ts G DZ i - Zv i)) L0 =q pzero).
  { apply psumL_zero. intros i Hi0. unfold Hi. rewrite (recombine ts t0 G (DZ i) (Zv i)) by auto. ring. }
  assert (A2 : psumL (fun i => psumL (fun j => (s i * s j) * Mij ts G D0 D1 i j) L1) L0 =q psumL (fun i => s i * f0 i) L0 * psumL (fun j => s j * f1 j) L1).
  { rewrite sumLq_mul_r. apply psumL_ext. intros i Hi0. rewrite sumLq_mul_l. apply psumL_ext. intros j Hj. unfold Mij.
    rewrite (recombine ts t0 G (fun t => D0 i t * D1 j t) (f0 i * f1 j)) by (auto; rewrite (HD0 i Hi0), (HD1 j Hj); reflexivity). ring. }
  rewrite A1, A2.
  assert (A3 : psumL (fun i => s i * (f0 i * c1 + E3 i)) L0 =q psumL (fun i => s i * f0 i) L0 * c1 + psumL (fun i => s i * E3 i) L0).
  { rewrite sumLq_mul_r, <- psumL_add. apply psumL_ext. intros; ring. }
  assert (A4 : psumL (fun j => s j * (c0 * f1 j + E1 j)) L1 =q c0 * psumL (fun j => s j * f1 j) L1 + psumL (fun j => s j * E1 j) L1).
  { rewrite sumLq_mul_l, <- psumL_add. apply psumL_ext. intros; ring. }
  rewrite A3, A4. rewrite (psumL_add N q E2 (fun i => s i * E3 i)). ring.
Qed.
End Phase.
End Alg.
