(** Specification vocabulary for multi-key ciphertexts: what a ciphertext encrypts under given secrets.  Definitions only. *)
From Coq Require Import String ZArith List.
From Verif Require Import Spec Go Arith NegRing BasisExt NTT RingOps Maps Params Elements KeySwitch Repr.
Import ListNotations.
Local Open Scope Z_scope.

(** limb j of the component of [id], as an integer polynomial *)
Definition limb (ct : ciphertext) (id : string) (j : nat) : zpoly :=
  fun x => match sget ct id with Some p => nth x (nth j (p_co p) []) 0 | None => 0 end.
(** the secret that multiplies a component: 1 for the component "0" *)
Definition secret (s : string -> zpoly) (id : string) : zpoly := if String.eqb id "0" then pone else s id.
(** c_0 + sum over the parties of s_id * c_id, limb j: what Decrypt computes modulo q_j *)
Definition phase (N : nat) (s : string -> zpoly) (ct : ciphertext) (j : nat) : zpoly :=
  psumL (fun id => pmul N (secret s id) (limb ct id j)) (mkeys ct).
Definition party (ct : ciphertext) (id : string) : Prop := In id (mkeys ct) /\ id <> "0"%string.

(** a well-formed ciphertext of level l in coefficient form: a component "0", every component with l+1 limbs of N words in
    [0,q_j] (q_j itself included: some operations return it) *)
Record ct_ok (pp : params) (l : nat) (ct : ciphertext) : Prop := {
  ck_nd : NoDup (mkeys ct); ck_0 : In "0"%string (mkeys ct);
  ck_comp : forall id p, sget ct id = Some p -> p_ntt p = false /\ plen p = (l + 1)%nat /\
    forall j, (j <= l)%nat -> List.length (nth j (p_co p) []) = pa_N pp /\
      forall x, (x < pa_N pp)%nat -> 0 <= nth x (nth j (p_co p) []) 0 <= nth j (pa_Q pp) 0 }.

(** relinearization key of a party with secret s and second secret r: the defining equations with some errors of size Be *)
Definition rlk_valid (pp : params) (g : nat -> Z) (A U : nat -> zpoly) (Be : Z) (s r : zpoly) (rl : rlkey) : Prop :=
  exists eb ed ev : nat -> zpoly,
    (forall t, (t < Beta pp (maxLevel pp))%nat -> pnorm_le (pa_N pp) (eb t) Be /\ pnorm_le (pa_N pp) (ed t) Be /\ pnorm_le (pa_N pp) (ev t) Be) /\
    krows pp (rl_b rl) (fun t => psub (eb t) (pmul (pa_N pp) s (A t))) /\
    krows pp (rl_d rl) (fun t => psub (padd (ed t) (gmsg pp g t s)) (pmul (pa_N pp) r (A t))) /\
    krowsb pp (rl_v rl) (fun t => popp (padd (padd (ev t) (gmsg pp g t r)) (pmul (pa_N pp) s (U t)))).
(** rotation key for k (g' the inverse of 5^k modulo 2N, s' = s(X^g')) and conjugation key *)
Definition swkey_valid (pp : params) (g : nat -> Z) (A : nat -> zpoly) (Be : Z) (sout sin : zpoly) (v : swk) : Prop :=
  exists e : nat -> zpoly, (forall t, (t < Beta pp (maxLevel pp))%nat -> pnorm_le (pa_N pp) (e t) Be) /\
    krows pp v (fun t => psub (padd (e t) (gmsg pp g t sin)) (pmul (pa_N pp) sout (A t))).

(** the largest digit: twice the product of the primes of one gadget block *)
Definition digit_bound (pp : params) (Dm : Z) : Prop :=
  forall t, (t < Beta pp (maxLevel pp))%nat -> 2 * product (digit_block (pa_Q pp) (Alpha pp) t (maxLevel pp)) <= Dm.
(** bound on P times the noise of one key switch with beta digits of size Dm, key errors of size Be, secret of size Bs *)
Definition ks_noise (N : nat) (beta Bs Be Dm P : Z) : Z :=
  let n := Z.of_nat N in beta * (n * (Be * Dm)) + 2 * P + n * (Bs * (2 * P)).
(** bound on P times the noise of a multiplication with k0 and k1 parties *)
Definition mul_noise_bound (N : nat) (k0 k1 beta Bs Be Dm P : Z) : Z :=
  let n := Z.of_nat N in
  k0 * (k1 * (beta * (n * ((n * (Bs * Be) + n * (Bs * Be)) * (n * (Dm * Dm)))))) + k1 * (n * (Bs * (2 * P))) + k0 * (n * (Bs * (2 * P)))
  + k0 * ks_noise N beta Bs Be Dm P.

(** number of parties of a ciphertext *)
Definition nparties (ct : ciphertext) : Z := Z.of_nat (List.length (mkeys ct)) - 1.
(** h holds, for every party of op, what Decompose at level l writes for its component (into whatever it is given) *)
Definition hoisted_at (env : kenv) (l : nat) (op : ciphertext) (h : hoisted) : Prop :=
  forall id, party op id -> exists p s0 s k k', sget op id = Some p /\ sget h id = Some s /\
    swk_ok (e_pp env) s0 /\ pool_ok (e_pp env) k /\ Decompose env l p s0 k = Ok (s, k').
Definition maybe_hoisted_at (env : kenv) (l : nat) (op : ciphertext) (h : option hoisted) : Prop :=
  match h with None => True | Some h => hoisted_at env l op h end.
(** operands, keys and bounds of a multiplication: Bs bounds the secrets, Be the key errors, Dm the digits *)
Record mul_setting (pp : params) (g : nat -> Z) (A U : nat -> zpoly) (s r : string -> zpoly) (Bs Be Dm : Z)
    (op0 op1 : ciphertext) (l0 l1 : nat) (rlks : rlkset) : Prop := {
  ms_op0 : ct_ok pp l0 op0; ms_op1 : ct_ok pp l1 op1; ms_l0 : (l0 < QCount pp)%nat; ms_l1 : (l1 < QCount pp)%nat;
  ms_g : gadget pp g; ms_U : crs_is pp (-1) U;
  ms_s : forall id, party op0 id \/ party op1 id -> pnorm_le (pa_N pp) (s id) Bs /\ pnorm_le (pa_N pp) (r id) Bs;
  ms_rlk : forall id, party op0 id \/ party op1 id -> exists rl, sget rlks id = Some rl /\ rlk_valid pp g A U Be (s id) (r id) rl;
  ms_D : digit_bound pp Dm }.
(** an output ciphertext of level l for the union of the parties *)
Definition mul_receiver (pp : params) (op0 op1 : ciphertext) (l0 l1 l : nat) (ctOut : ciphertext) : Prop :=
  ct_ok pp l ctOut /\ (l <= l0)%nat /\ (l <= l1)%nat /\ forall id, In id (mkeys ctOut) <-> In id (mkeys op0) \/ In id (mkeys op1).
(** every word of the first l+1 limbs is reduced *)
Definition reduced (pp : params) (l : nat) (ct : ciphertext) : Prop :=
  forall id p, sget ct id = Some p -> forall j x, (j <= l)%nat -> (x < pa_N pp)%nat -> nth x (nth j (p_co p) []) 0 < nth j (pa_Q pp) 0.
