(** The vocabulary of the ring-level specifications: which integer polynomial of Z[X]/(X^N+1) a
    stored polynomial represents, what well-formed parameters, keys and scratch space are.
    Definitions only. *)
From Coq Require Import ZArith Znumtheory List.
From Verif Require Import Go Lattigo Arith NegRing NTT F64 BasisExt RingOps Maps Params Elements KeySwitch KeySets KeyGen Spec.
Import ListNotations.
Local Open Scope Z_scope.

(** * moduli and parameters *)
(** an odd modulus below 2^61 *)
Definition mod61 (q : Z) : Prop := Z.odd q = true /\ 1 < q < 2 ^ 61.
(** distinct odd primes below 2^61 *)
Record good_moduli (Q P : list Z) : Prop := {
  gm_Q : Forall mod61 Q; gm_P : Forall mod61 P;
  gm_prQ : Forall prime Q; gm_prP : Forall prime P;
  gm_nd : NoDup (Q ++ P) }.
(** psi is a primitive 2N-th root of unity modulo the prime q *)
Record ntt_mod (logN : nat) (q psi : Z) : Prop := {
  nm_ok : mod61 q; nm_prime : prime q; nm_psi : cong q (psi ^ Z.of_nat (deg logN)) (-1);
  nm_pos : 0 <= psi; nm_log : (logN < 60)%nat }.
Notation qj r j := (nth j (r_mods r) 0).
Notation psij r j := (nth j (r_psi r) 0).
Record ring_ok (r : ringd) : Prop := {
  ro_len : length (r_psi r) = length (r_mods r);
  ro_log : (1 <= r_logN r <= 30)%nat;
  ro_nm : forall j, (j < length (r_mods r))%nat -> ntt_mod (r_logN r) (nth j (r_mods r) 0) (nth j (r_psi r) 0) }.
(** what NewParameters accepts and the decomposer supports *)
Record params_ok (pp : params) : Prop := {
  po_good : good_moduli (pa_Q pp) (pa_P pp);
  po_rQ : ring_ok (ringQ pp);
  po_rP : ring_ok (ringP pp);
  po_gamma : (0 < pa_gamma pp)%nat;
  po_alpha : (1 <= Alpha pp <= 32)%nat;
  po_div : (Alpha pp = 1 \/ pa_gamma pp * Alpha pp = PCount pp)%nat;
  po_P : (1 <= PCount pp <= 32)%nat;
  po_Q : (1 <= QCount pp)%nat;
  po_Q52 : Z.of_nat (QCount pp) < 2 ^ 52 }.
(** the tables a KeySwitcher holds are those of its parameters *)
Record env_ok (env : kenv) : Prop := {
  eo_pp : params_ok (e_pp env);
  eo_ext : e_ext env = NewFastBasisExtender (pa_Q (e_pp env)) (pa_P (e_pp env));
  eo_dec : e_dec env = NewDecomposer (pa_Q (e_pp env)) (pa_P (e_pp env)) (Gamma (e_pp env)) }.
(** the product of all special primes *)
Definition bigP (pp : params) : Z := prodZ (pa_P pp).

(** * shapes: the number of limbs, N words per limb *)
Definition words (l : list Z) : Prop := Forall (fun x => 0 <= x < W) l.
Definition shp (N : nat) (co : list (list Z)) : Prop := Forall (fun l => length l = N /\ words l) co.
Definition pshp (pp : params) (p : poly) : Prop := plen p = QCount pp /\ shp (pa_N pp) (p_co p).
Definition qshp (pp : params) (x : qp) : Prop :=
  (plen (qQ x) = QCount pp /\ shp (pa_N pp) (p_co (qQ x))) /\ (plen (qP x) = PCount pp /\ shp (pa_N pp) (p_co (qP x))).
Definition swk_ok (pp : params) (v : swk) : Prop := length v = Beta pp (maxLevel pp) /\ Forall (qshp pp) v.
(** scratch space of a KeySwitcher: only shapes and NTT flags are constrained *)
Record pool_ok (pp : params) (k : kpool) : Prop := {
  kp_c0 : qshp pp (k_c0 k); kp_c1 : qshp pp (k_c1 k); kp_inv : pshp pp (k_inv k);
  kp_q0 : pshp pp (k_q0 k); kp_q1 : pshp pp (k_q1 k); kp_q2 : pshp pp (k_q2 k);
  kp_f0 : p_ntt (k_q0 k) = false; kp_f1 : p_ntt (k_q1 k) = false; kp_f2 : p_ntt (k_q2 k) = false;
  kp_s1 : swk_ok pp (k_s1 k); kp_s2 : swk_ok pp (k_s2 k); kp_s3 : swk_ok pp (k_s3 k) }.

(** * representation *)
(** the evaluation point of NTT slot i, and the vector of the evaluations of A *)
Definition point (logN : nat) (psi : Z) (i : nat) : Z := psi ^ slot_exp logN i.
Definition nttf (logN : nat) (psi : Z) (A : zpoly) : zpoly := fun i => peval (deg logN) A (point logN psi i).
(** limb [l] represents A modulo q with words in [0,b) *)
Definition lrep (N : nat) (q b : Z) (l : list Z) (A : zpoly) : Prop :=
  length l = N /\ forall i, (i < N)%nat -> 0 <= nth i l 0 < b /\ cong q (nth i l 0) (A i).
(** the first n limbs represent A in the coefficient domain, words below b(q) *)
Definition prep (r : ringd) (b : Z -> Z) (n : nat) (co : list (list Z)) (A : zpoly) : Prop :=
  (n <= length (r_mods r))%nat /\ (n <= length co)%nat /\
  forall j, (j < n)%nat -> lrep (r_N r) (qj r j) (b (qj r j)) (nth j co []) A.
(** the first n limbs represent A in the NTT domain, reduced *)
Definition nrep (r : ringd) (n : nat) (co : list (list Z)) (A : zpoly) : Prop :=
  (n <= length (r_mods r))%nat /\ (n <= length co)%nat /\
  forall j, (j < n)%nat -> lrep (r_N r) (qj r j) (qj r j) (nth j co []) (nttf (r_logN r) (psij r j) A).
(** the same with words up to q (NegLvl does not reduce) *)
Definition nrepb (r : ringd) (n : nat) (co : list (list Z)) (A : zpoly) : Prop :=
  (n <= length (r_mods r))%nat /\ (n <= length co)%nat /\
  forall j, (j < n)%nat -> lrep (r_N r) (qj r j) (qj r j + 1) (nth j co []) (nttf (r_logN r) (psij r j) A).
(** x represents the integer polynomial A over q_0..q_l and all of P (NTT form) *)
Definition qrep (pp : params) (l : nat) (x : qp) (A : zpoly) : Prop :=
  nrep (ringQ pp) (l + 1) (p_co (qQ x)) A /\ nrep (ringP pp) (PCount pp) (p_co (qP x)) A.
Definition qrepb (pp : params) (l : nat) (x : qp) (A : zpoly) : Prop :=
  nrepb (ringQ pp) (l + 1) (p_co (qQ x)) A /\ nrepb (ringP pp) (PCount pp) (p_co (qP x)) A.

(** * randomness *)
(** the integer polynomial of a draw *)
Definition smallpoly (e : small) : zpoly := fun i => let '(s, c) := nth i e (true, 0) in if s : bool then c else - c.
(** N coefficients of magnitude at most B *)
Definition small_ok (N : nat) (B : Z) (e : small) : Prop := length e = N /\ Forall (fun x => 0 <= snd x <= B) e.
(** B is small with respect to every modulus *)
Definition bound_ok (pp : params) (B : Z) : Prop := 0 <= B /\ Forall (fun q => 2 * B < q) (pa_Q pp ++ pa_P pp).
(** one admissible draw per row of a switching key *)
Definition errs_ok (pp : params) (B : Z) (es : nat -> small) : Prop :=
  forall t, (t < Beta pp (maxLevel pp))%nat -> small_ok (pa_N pp) B (es t).

(** * keys.  Stored words are 2^64 times the value ("Montgomery form") in the NTT domain. *)
Definition dqp : qp := mkQP (mkPoly false []) (mkPoly false []).
(** row t of the switching key is B_t *)
Definition krows (pp : params) (v : swk) (B : nat -> zpoly) : Prop :=
  swk_ok pp v /\ forall t, (t < Beta pp (maxLevel pp))%nat -> qrep pp (maxLevel pp) (nth t v dqp) (pscale W (B t)).
Definition krowsb (pp : params) (v : swk) (B : nat -> zpoly) : Prop :=
  swk_ok pp v /\ forall t, (t < Beta pp (maxLevel pp))%nat -> qrepb pp (maxLevel pp) (nth t v dqp) (pscale W (B t)).
(** row t of CRS[ix] is A_t *)
Definition crs_is (pp : params) (ix : Z) (A : nat -> zpoly) : Prop :=
  exists v, getCRS pp ix = Ok v /\ swk_ok pp v /\
    forall t, (t < Beta pp (maxLevel pp))%nat -> qrep pp (maxLevel pp) (nth t v dqp) (pscale W (A t)).
(** s is the secret of sk *)
Definition sk_is (pp : params) (sk : seckey) (s : zpoly) : Prop :=
  qrep pp (maxLevel pp) (sk_val sk) (pscale W s) /\ qshp pp (sk_val sk).
(** g is the gadget of the parameters: g_t = 1 modulo the primes of block t, 0 modulo the other q_j *)
Definition gadget (pp : params) (g : nat -> Z) : Prop :=
  is_gadget (pa_Q pp) (Alpha pp) (maxLevel pp) (Beta pp (maxLevel pp)) 1 g.
(** the message P * g_t * m of row t *)
Definition gmsg (pp : params) (g : nat -> Z) (t : nat) (m : zpoly) : zpoly :=
  pscale (bigP pp) (pmul (pa_N pp) (pconst (g t)) m).
