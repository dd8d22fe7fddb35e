(** Specification vocabulary for encryption and decryption.  Definitions only. *)
From Coq Require Import String ZArith List.
From Verif Require Import Spec Go Arith NegRing BasisExt NTT RingOps Maps Params Elements KeySwitch KeySets KeyGen F64 EncDec Repr SpecCt.
Import ListNotations.
Local Open Scope Z_scope.

(** the limbs 0..l of p hold the integer polynomial A: evaluations (reduced) when [ntt], coefficients in [0, b(q)) otherwise *)
Definition held (pp : params) (ntt : bool) (b : Z -> Z) (l : nat) (p : poly) (A : zpoly) : Prop :=
  if ntt then nrep (ringQ pp) (l + 1) (p_co p) A else prep (ringQ pp) b (l + 1) (p_co p) A.
(** a plaintext polynomial of level l holding M in the domain its flag says *)
Definition plaintext_is (pp : params) (l : nat) (p : poly) (M : zpoly) : Prop :=
  (l < QCount pp)%nat /\ plen p = (l + 1)%nat /\ held pp (p_ntt p) (fun q => q + 1) l p M.
(** the public key (e - s*a, a) *)
Definition pk_is (pp : params) (pk : pubkey) (s e a : zpoly) : Prop :=
  qrep pp (maxLevel pp) (pk_1 pk) a /\ qrep pp (maxLevel pp) (pk_0 pk) (psub e (pmul (pa_N pp) s a)).
(** a ciphertext whose component "0" has level l and whose components hold the polynomials F, all in the same domain *)
Record ct_rep (pp : params) (ntt : bool) (l : nat) (ct : ciphertext) (F : string -> zpoly) : Prop := {
  cr_nd : NoDup (mkeys ct); cr_l : (l < QCount pp)%nat;
  cr_0 : exists p, sget ct "0"%string = Some p /\ plen p = (l + 1)%nat;
  cr_c : forall id p, sget ct id = Some p -> p_ntt p = ntt /\ held pp ntt (fun q => q + 1) l p (F id) }.
(** F_0 + sum over the parties of s_id * F_id *)
Definition decryption (pp : params) (s F : string -> zpoly) (ct : ciphertext) : zpoly :=
  psumL (fun id => pmul (pa_N pp) (secret s id) (F id)) (mkeys ct).
(** a set of secret keys as AddSecretKey builds it, holding the secrets s for the parties of ct it knows *)
Definition sks_ok (pp : params) (s : string -> zpoly) (ct : ciphertext) (sks : skset) : Prop :=
  NoDup (mkeys sks) /\ forall id sk, sget sks id = Some sk -> sk_ID sk = id /\ (party ct id -> sk_is pp sk (s id)).
Definition has_key (sks : skset) (id : string) : Prop := In id (mkeys sks).

(** the noise of a fresh encryption *)
Definition fresh_noise (N : nat) (s e u e0 e1 : zpoly) : zpoly := padd (padd e0 (pmul N u e)) (pmul N s e1).
(** product of the moduli of level l *)
Definition Ql (pp : params) (l : nat) : Z := product (firstn (l + 1) (pa_Q pp)).
(** the limbs 0..l hold v, whose coefficients are in (-Q_l/2, Q_l/2), and no other such polynomial *)
Definition centred_value (pp : params) (l : nat) (ntt : bool) (p : poly) (v : zpoly) : Prop :=
  (forall i, (i < pa_N pp)%nat -> 2 * Z.abs (v i) < Ql pp l) /\ (exists b, held pp ntt b l p v) /\
  forall v', (forall i, (i < pa_N pp)%nat -> 2 * Z.abs (v' i) < Ql pp l) -> (exists b, held pp ntt b l p v') ->
    forall i, (i < pa_N pp)%nat -> v' i = v i.

(** the parties of ct other than id *)
Definition foreign (ct : ciphertext) (id : string) : list string :=
  filter (fun x => negb (String.eqb x "0") && negb (String.eqb x id))%bool (mkeys ct).
(** what Encrypt is given: a plaintext M of level pl, the public key of the secret s, draws bounded by Bu and B, and a container
    of level cl in the domain [ntt] whose components of other parties hold F; the rest of its contents is arbitrary *)
Record enc_setting (pp : params) (pt : poly) (pl : nat) (M : zpoly) (pk : pubkey) (s e a : zpoly) (u e0 e1 : small) (Bu B : Z)
    (ct : ciphertext) (cl : nat) (ntt : bool) (F : string -> zpoly) : Prop := {
  es_pt : plaintext_is pp pl pt M; es_pk : pk_is pp pk s e a; es_id : pk_ID pk <> "0"%string;
  es_Bu : bound_ok pp Bu; es_B : bound_ok pp B; es_u : small_ok (pa_N pp) Bu u; es_e0 : small_ok (pa_N pp) B e0; es_e1 : small_ok (pa_N pp) B e1;
  es_nd : NoDup (mkeys ct); es_cl : (cl < QCount pp)%nat;
  es_0 : exists p, sget ct "0"%string = Some p /\ plen p = (cl + 1)%nat /\ p_ntt p = ntt;
  es_1 : exists p, sget ct (pk_ID pk) = Some p /\ (cl < plen p)%nat;
  es_f : forall x p, In x (foreign ct (pk_ID pk)) -> sget ct x = Some p -> p_ntt p = ntt /\ held pp ntt (fun q => q + 1) (Nat.min pl cl) p (F x) }.

(** * mkckks *)
(** an encryptor as NewEncryptor and every later call leave it *)
Definition encst_ok (cp : ckparams) (st : encst) : Prop := plen (en_pt st) = QCount (cp_pp cp) /\ plen (en_pool st) = QCount (cp_pp cp).
(** one call of Decrypt: iteration order, ciphertext and its level, key set *)
Definition decjob : Type := order * ckct * skset * nat.
Definition jlevel (j : decjob) : nat := snd j.
(** a coefficient-form ciphertext whose parties' keys are all given *)
Definition job_ok (pp : params) (j : decjob) : Prop :=
  let '(o, ct, sks, l) := j in order_ok o /\ exists s F, ct_rep pp false l (c_ct ct) F /\ sks_ok pp s (c_ct ct) sks /\ forall id, party (c_ct ct) id -> has_key sks id.
(** the pool plaintext of a Decryptor after a history of calls *)
Definition dec_run {M} (cp : ckparams) (decode : poly -> f64 -> M) (jobs : list decjob) (pool : poly) : res poly :=
  foldM (fun p (j : decjob) => let '(o, ct, sks, _) := j in let* (_, p') := ckDecrypt cp decode o ct sks p in Ok p') jobs pool.
