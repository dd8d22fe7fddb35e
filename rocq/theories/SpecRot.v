(** Specification vocabulary for rotations and conjugation.  Definitions only. *)
From Coq Require Import String ZArith List.
From Verif Require Import Spec Go Arith NegRing BasisExt NTT RingOps Maps Params Elements KeySwitch KeySets KeyGen Repr SpecKeys SpecCt SpecEv.
Import ListNotations.
Local Open Scope Z_scope.

(** every party of ct has in rks a rotation key of index k, made for its secret with the common reference string of k; g' is the
    inverse of 5^k modulo 2N, so the key switches from s to s(X^g') *)
Definition rot_keys (pp : params) (g : nat -> Z) (Be : Z) (s : string -> zpoly) (ct : ciphertext) (k : Z) (rks : rotset) : Prop :=
  exists A g', crs_is pp k A /\ Z.Odd g' /\ cong (2 * Z.of_nat (pa_N pp)) (5 ^ k * g') 1 /\
    forall id, party ct id -> exists m rk, sget rks id = Some m /\ zget m k = Some rk /\
      swkey_valid pp g A Be (psigma (pa_N pp) g' (s id)) (s id) (rk_val rk).
(** every party of ct has a conjugation key: it switches from s(X^-1) to s *)
Definition conj_keys (pp : params) (g : nat -> Z) (Be : Z) (s : string -> zpoly) (ct : ciphertext) (cks : conjset) : Prop :=
  exists A, crs_is pp (-2) A /\ forall id, party ct id -> exists ck, sget cks id = Some ck /\
      swkey_valid pp g A Be (s id) (psigma (pa_N pp) (-1) (s id)) (cj_val ck).
(** out encrypts the image of ct under X -> X^e, up to an error w with P*w bounded by B; same parties, level l *)
Definition auto_result (pp : params) (s : string -> zpoly) (l : nat) (ct : ciphertext) (e B : Z) (out : ciphertext) : Prop :=
  ct_ok pp l out /\ same_keys out ct /\ exists w, pnorm_le (pa_N pp) (pscale (bigP pp) w) B /\
    forall j, (j <= l)%nat -> peq (pa_N pp) (modulus (pa_Q pp) j) (phase (pa_N pp) s out j) (padd (psigma (pa_N pp) e (phase (pa_N pp) s ct j)) w).
(** a ciphertext with its secrets: level l, secrets of size Bs *)
Record rot_setting (pp : params) (g : nat -> Z) (s : string -> zpoly) (Bs Dm : Z) (ct : ciphertext) (l : nat) : Prop := {
  rs_ct : ct_ok pp l ct; rs_l : (l < QCount pp)%nat; rs_g : gadget pp g; rs_s : secrets_le pp s Bs ct; rs_D : digit_bound pp Dm }.
(** P times the error of one rotation or conjugation of ct *)
Definition step_noise (pp : params) (l : nat) (ct : ciphertext) (Bs Be Dm : Z) : Z :=
  nparties ct * ks_noise (pa_N pp) (Z.of_nat (Beta pp l)) Bs Be Dm (bigP pp).
(** the keys RotateNew needs for the residue r of the index modulo N/2 and the number of rotations it does: none for 0, the key of
    r if r has a common reference string, otherwise the keys of the powers of two of r *)
Fixpoint ones (p : positive) : Z := match p with xH => 1 | xO p => ones p | xI p => ones p + 1 end.
Definition has_crs (pp : params) (k : Z) : Prop := exists v, zget (pa_CRS pp) k = Some v.
Inductive rot_ready (pp : params) (g : nat -> Z) (Be : Z) (s : string -> zpoly) (ct : ciphertext) (rks : rotset) : Z -> Z -> Prop :=
  | rr_zero : rot_ready pp g Be s ct rks 0 0
  | rr_key r : 0 < r -> rot_keys pp g Be s ct r rks -> rot_ready pp g Be s ct rks r 1
  | rr_bits p : ~ has_crs pp (Zpos p) -> (forall i, 0 <= i -> Z.testbit (Zpos p) i = true -> rot_keys pp g Be s ct (2 ^ i) rks) ->
      rot_ready pp g Be s ct rks (Zpos p) (ones p).

(** GenDefaultRotationKeys called for each party in turn, filling one key set *)
Definition genDefaultAll (pp : params) (parties : list (seckey * (Z -> nat -> small))) (rks : rotset) (poolQ : poly) : res (rotset * poly) :=
  foldM (fun '(rks, poolQ) '(sk, es) => GenDefaultRotationKeys pp sk es rks poolQ) parties (rks, poolQ).
(** the generators the keys are made from: secrets s, error polynomials of coefficients bounded by B *)
Definition generators_ok (pp : params) (s : string -> zpoly) (B : Z) (parties : list (seckey * (Z -> nat -> small))) : Prop :=
  forall sk es, In (sk, es) parties -> sk_is pp sk (s (sk_ID sk)) /\ forall ix, errs_ok pp B (es ix).
(** every party of ct is one of the generators *)
Definition covered (parties : list (seckey * (Z -> nat -> small))) (ct : ciphertext) : Prop :=
  forall id, party ct id -> exists sk es, In (sk, es) parties /\ sk_ID sk = id.
(** the common reference strings of the powers of two below N/2 exist *)
Definition powers_crs (pp : params) : Prop := forall i, 0 <= i < Z.of_nat (pa_logN pp) - 1 -> exists A, crs_is pp (2 ^ i) A.
