(** Properties C04, C36 - C40: key sets and generated keys.  Vocabulary: Spec.v, SpecKeys.v (automorphisms, histories),
    Repr.v (what it means that limbs, keys and samples stand for integer polynomials). *)
From Coq Require Import String ZArith List Bool Lia.
From Verif Require Import Spec Go Arith NegRing BasisExt RingOps Maps Params Elements KeySwitch KeySets KeyGen Repr ParamsSpec SpecKeys Shipped KeySetSpec KeyGenProofs KeySpec KeyWitness KeyThms.
Import ListNotations.
Local Open Scope Z_scope.

(** C04: after every history of Add and Del, Get returns the key added last for that id and not deleted since, and
    panics exactly when there is none *)
Theorem C04_secret_key_set : keyset_correct sk_ID AddSecretKey DelSecretKey GetSecretKey [] "cannot GetPublicKey: there is no public key with given id".
Proof. exact skset_map. Qed.
Print Assumptions C04_secret_key_set.
Theorem C04_public_key_set : keyset_correct pk_ID AddPublicKey DelPublicKey GetPublicKey [] "cannot GetPublicKey: there is no public key with given id".
Proof. exact pkset_map. Qed.
Print Assumptions C04_public_key_set.
Theorem C04_conjugation_key_set : keyset_correct cj_ID AddConjugationKey DelConjugationKey GetConjugationKey [] "cannot GetConjugationKey: there is no conjugation key with given id".
Proof. exact cjkset_map. Qed.
Print Assumptions C04_conjugation_key_set.
Theorem C04_relinearization_key_set : forall pp, keyset_correct rl_ID (AddRelinearizationKey pp) DelRelinearizationKey GetRelinearizationKey NewRelinearizationKeyKeySet
  "cannot GetRelinearizationKey: there is no relinearization key with given id".
Proof. exact rlkset_map. Qed.
Print Assumptions C04_relinearization_key_set.
(** a rotation key is identified by its owner and its rotation index *)
Theorem C04_rotation_key_set : keyset_correct (fun rk => (rk_ID rk, rk_idx rk)) AddRotationKey (fun s i => DelRotationKey s (fst i) (snd i))
  (fun s i => GetRotationKey s (fst i) (snd i)) [] "cannot GetRotationKeys: there is no rotation key with given id".
Proof. exact rotset_map. Qed.
Print Assumptions C04_rotation_key_set.
Example C04_case : last_added sk_ID [KAdd (mkSk dqp "a"); KAdd (mkSk dqp "b"); KDel "b"%string] "a"%string (mkSk dqp "a").
Proof. exists [], [KAdd (mkSk dqp "b"); KDel "b"%string]. repeat split. repeat constructor; discriminate. Qed.

(** C36: defining equations.  s, r are the secrets, A_t, U_t the rows of the common reference strings, e's the sampled
    errors; all equalities hold modulo every prime of Q and P (qrep/krows).  Stored rows are 2^64 times the value. *)
Theorem C36_secret_key : forall pp, params_ok pp -> forall e B id, bound_ok pp B -> small_ok (pa_N pp) B e ->
  exists sk, genSecretKey pp e id = Ok sk /\ sk_ID sk = id /\ sk_is pp sk (smallpoly e).
Proof. exact genSecretKey_ok. Qed.
Print Assumptions C36_secret_key.
Theorem C36_public_key : forall pp, params_ok pp -> forall sk s A e B, sk_is pp sk s -> crs_is pp 0 A -> bound_ok pp B -> small_ok (pa_N pp) B e ->
  exists pk, GenPublicKey pp sk e = Ok pk /\ pk_ID pk = sk_ID sk /\
    qrep pp (maxLevel pp) (pk_1 pk) (pscale W (A O)) /\ qshp pp (pk_1 pk) /\
    qrep pp (maxLevel pp) (pk_0 pk) (psub (smallpoly e) (pmul (pa_N pp) s (pscale W (A O)))) /\ qshp pp (pk_0 pk).
Proof. exact GenPublicKey_ok. Qed.
Print Assumptions C36_public_key.
(** row t of a switching key for m is e_t + P g_t m *)
Theorem C36_switching_key : forall pp, params_ok pp -> forall sk m es B g v pool,
  bound_ok pp B -> errs_ok pp B es -> gadget pp g -> qrep pp (maxLevel pp) sk (pscale W m) -> swk_ok pp v -> pshp pp pool ->
  exists v' pool', GenSwitchingKey pp sk es v pool = Ok (v', pool') /\ pshp pp pool' /\ krows pp v' (fun t => padd (smallpoly (es t)) (gmsg pp g t m)).
Proof. exact GenSwitchingKey_ok. Qed.
Print Assumptions C36_switching_key.
Theorem C36_relinearization_key : forall pp, params_ok pp -> forall sk r s r0 A U eb ed ev B g poolQ poolQP,
  sk_is pp sk s -> sk_is pp r r0 -> crs_is pp 0 A -> crs_is pp (-1) U -> bound_ok pp B -> errs_ok pp B eb -> errs_ok pp B ed -> errs_ok pp B ev -> gadget pp g ->
  pshp pp poolQ -> qshp pp poolQP ->
  exists rlk poolQ' poolQP', GenRelinearizationKey pp sk r eb ed ev poolQ poolQP = Ok (rlk, (poolQ', poolQP')) /\ rl_ID rlk = sk_ID sk /\
    pshp pp poolQ' /\ qshp pp poolQP' /\
    krows pp (rl_b rlk) (fun t => psub (smallpoly (eb t)) (pmul (pa_N pp) s (A t))) /\
    krows pp (rl_d rlk) (fun t => psub (padd (smallpoly (ed t)) (gmsg pp g t s)) (pmul (pa_N pp) r0 (A t))) /\
    krowsb pp (rl_v rlk) (fun t => popp (padd (padd (smallpoly (ev t)) (gmsg pp g t r0)) (pmul (pa_N pp) s (U t)))).
Proof. exact GenRelinearizationKey_ok. Qed.
Print Assumptions C36_relinearization_key.
(** g' is the inverse of 5^k modulo 2N: the automorphism X -> X^g' undoes the rotation by k *)
Theorem C36_rotation_key : forall pp, params_ok pp -> forall rotidx k g' sk s A es B g poolQ,
  k = (if rotidx <? 0 then rotidx mod (Z.of_nat (pa_N pp) / 2) else rotidx) -> mhas Z.eqb (pa_CRS pp) rotidx = true ->
  sk_is pp sk s -> crs_is pp k A -> bound_ok pp B -> errs_ok pp B es -> gadget pp g -> pshp pp poolQ ->
  Z.Odd g' -> cong (2 * Z.of_nat (pa_N pp)) (5 ^ k * g') 1 ->
  exists rk poolQ', GenRotationKey pp rotidx sk es poolQ = Ok (rk, poolQ') /\ rk_ID rk = sk_ID sk /\ rk_idx rk = k /\ pshp pp poolQ' /\
    krows pp (rk_val rk) (fun t => psub (padd (smallpoly (es t)) (gmsg pp g t s)) (pmul (pa_N pp) (psigma (pa_N pp) g' s) (A t))).
Proof. exact rot_key_lemma. Qed.
Print Assumptions C36_rotation_key.
Theorem C36_conjugation_key : forall pp, params_ok pp -> forall sk s A es B g poolQ,
  sk_is pp sk s -> crs_is pp (-2) A -> bound_ok pp B -> errs_ok pp B es -> gadget pp g -> pshp pp poolQ ->
  exists ck poolQ', GenConjugationKey pp sk es poolQ = Ok (ck, poolQ') /\ cj_ID ck = sk_ID sk /\ pshp pp poolQ' /\
    krows pp (cj_val ck) (fun t => psub (padd (smallpoly (es t)) (gmsg pp g t (psigma (pa_N pp) (-1) s))) (pmul (pa_N pp) s (A t))).
Proof. exact conj_key_lemma. Qed.
Print Assumptions C36_conjugation_key.
(** all hypotheses above hold together for the shipped moduli (with a generated secret key) *)
Example C36_shipped : exists pp sk, params_ok pp /\ pa_Q pp = shippedQ /\ pa_P pp = shippedP /\ pa_logN pp = 15%nat /\ pa_gamma pp = 2%nat /\
    bound_ok pp 19 /\ sk_is pp sk (smallpoly (ones (pa_N pp))) /\ errs_ok pp 19 (fun _ => ones (pa_N pp)) /\
    (forall ix, In ix (crsIndices (pa_logN pp)) -> crs_is pp ix (fun _ => pone)) /\
    (forall ix, mhas Z.eqb (pa_CRS pp) ix = true <-> In ix (crsIndices (pa_logN pp))) /\
    (exists g, gadget pp g) /\ pshp pp (qQ (newQP pp)) /\ qshp pp (newQP pp).
Proof. exact shipped_key_witness. Qed.
(** rotation by 1 for N = 2^15: 5 * 52429 = 4 * 65536 + 1 *)
Example C36_galois : Z.Odd 52429 /\ cong (2 * 32768) (5 ^ 1 * 52429) 1.
Proof. split; [exists 26214; reflexivity|exists 4; reflexivity]. Qed.

(** C37 *)
Theorem C37_rotation_key_index : forall pp rotidx sk s es B poolQ, let k := if rotidx <? 0 then rotidx mod (Z.of_nat (pa_N pp) / 2) else rotidx in
  params_ok pp -> (forall ix, mhas Z.eqb (pa_CRS pp) ix = true -> exists A, crs_is pp ix A) -> sk_is pp sk s -> bound_ok pp B -> errs_ok pp B es -> pshp pp poolQ ->
  (mhas Z.eqb (pa_CRS pp) rotidx = false -> GenRotationKey pp rotidx sk es poolQ = Panic (PMsg "Cannot GenRotationKey: CRS for given rot idx is not generated")) /\
  (mhas Z.eqb (pa_CRS pp) rotidx = true -> mhas Z.eqb (pa_CRS pp) k = true -> exists rk pool', GenRotationKey pp rotidx sk es poolQ = Ok (rk, pool') /\ rk_idx rk = k) /\
  (mhas Z.eqb (pa_CRS pp) rotidx = true -> mhas Z.eqb (pa_CRS pp) k = false -> GenRotationKey pp rotidx sk es poolQ = Panic PNil).
Proof. exact rotidx_thm. Qed.
Print Assumptions C37_rotation_key_index.
(** with the default CRS, index -1 is present but N/2 - 1 is not (N = 2^15), index 3 is absent, index -16384 is absent *)
Example C37_case : In (-1) (crsIndices 15) /\ ~ In (-1 mod (32768 / 2)) (crsIndices 15) /\ ~ In 3 (crsIndices 15) /\ ~ In (-16384) (crsIndices 15).
Proof. vm_compute. intuition discriminate. Qed.
Theorem C37_sparse_key_pair_panics : forall pp es e, GenKeyPairSparse pp es e = Panic PNil.
Proof. exact (fun _ _ _ => eq_refl). Qed.
Print Assumptions C37_sparse_key_pair_panics.

(** C38: from the published pk_0 = X and the published row b_0 = Y of the relinearization key, the two formulas on the
    right compute both errors; hence 2^64 s a_0 is computed exactly *)
Theorem C38_published_keys_reveal_errors : forall pp, params_ok pp -> forall sk r s r0 A U e eb ed ev B poolQ poolQP pk rlk pools X Y,
  sk_is pp sk s -> sk_is pp r r0 -> crs_is pp 0 A -> crs_is pp (-1) U -> bound_ok pp B -> small_ok (pa_N pp) B e ->
  errs_ok pp B eb -> errs_ok pp B ed -> errs_ok pp B ev -> pshp pp poolQ -> qshp pp poolQP ->
  GenPublicKey pp sk e = Ok pk -> GenRelinearizationKey pp sk r eb ed ev poolQ poolQP = Ok (rlk, pools) ->
  2 * B < W -> 2 * ((W + 1) * B) < prodZ (pa_Q pp ++ pa_P pp) ->
  qrep pp (maxLevel pp) (pk_0 pk) X -> qrep pp (maxLevel pp) (nth 0 (rl_b rlk) dqp) Y ->
  (forall i, (i < pa_N pp)%nat -> let D := centred (prodZ (pa_Q pp ++ pa_P pp)) (Y i - X i) in
     smallpoly e i = - centred W D /\ smallpoly (eb O) i = (D - centred W D) / W) /\
  peq (pa_N pp) (prodZ (pa_Q pp ++ pa_P pp)) (pscale W (pmul (pa_N pp) s (A O))) (psub (pscale W (smallpoly (eb O))) Y).
Proof. exact leak_lemma. Qed.
Print Assumptions C38_published_keys_reveal_errors.
(** the sampler bound floor(6 * 3.2) = 19 and the shipped moduli meet the size conditions (the other hypotheses: C36_shipped) *)
Example C38_shipped : 2 * 19 < 2 ^ 64 /\ 2 * ((2 ^ 64 + 1) * 19) < prodZ (shippedQ ++ shippedP).
Proof. split; vm_compute; reflexivity. Qed.

(** C39: rotation key for index 0 minus the published vector b; and the recovery of a ternary secret from one limb *)
Theorem C39_rotation_key_zero_reveals_secret : forall pp, params_ok pp -> forall sk s A es eb B g t V X Y,
  crs_is pp 0 A -> sk_is pp sk s -> bound_ok pp B -> errs_ok pp B es -> errs_ok pp B eb -> gadget pp g ->
  (t < Beta pp (maxLevel pp))%nat -> forall poolQ rk pool' b, pshp pp poolQ -> GenRotationKey pp 0 sk es poolQ = Ok (rk, pool') ->
  krows pp b (fun t => psub (smallpoly (eb t)) (pmul (pa_N pp) s (A t))) ->
  qrep pp (maxLevel pp) (nth t (rk_val rk) dqp) X -> qrep pp (maxLevel pp) (nth t b dqp) Y ->
  peq (pa_N pp) (prodZ (pa_Q pp ++ pa_P pp)) (psub X Y) (pscale W (padd (gmsg pp g t s) (psub (smallpoly (es t)) (smallpoly (eb t))))) /\
  forall j, (j < QCount pp)%nat -> (j / Alpha pp = t)%nat -> let q := nth j (pa_Q pp) 0 in
    eqm q (V * W) 1 ->
    (forall c, c = 1 \/ c = 2 -> 4 * B < Z.abs (centred q (bigP pp * c))) -> 2 * (4 * B) < q ->
    forall i c, (i < pa_N pp)%nat -> Z.abs (s i) <= 1 -> Z.abs c <= 1 ->
      (Z.abs (centred q (V * (X i - Y i) - bigP pp * c)) <= 2 * B <-> c = s i).
Proof. exact rot0_lemma. Qed.
Print Assumptions C39_rotation_key_zero_reveals_secret.
(** the first shipped modulus and the product of the special primes meet the conditions with B = 19 *)
Example C39_shipped : let q := nth 0 shippedQ 0 in
  (forall c, c = 1 \/ c = 2 -> 4 * 19 < Z.abs (centred q (prodZ shippedP * c))) /\ 2 * (4 * 19) < q.
Proof. split; [intros c [-> | ->]; vm_compute; reflexivity|vm_compute; reflexivity]. Qed.

(** C40, second part: after AddCRS(k), a rotation key generated before satisfies its defining equation with the new CRS
    A' exactly for the errors e_t + sigma(s) (A'_t - A_t); so for no error within the sampler's bound as soon as one
    coefficient of sigma(s) (A'_t - A_t) exceeds twice the bound *)
Theorem C40_old_keys_invalid : forall pp k g' smp pp' sk s A A' es B g poolQ rk poolQ',
  params_ok pp -> 0 <= k -> crs_is pp k A -> sk_is pp sk s -> bound_ok pp B -> errs_ok pp B es -> gadget pp g -> pshp pp poolQ ->
  Z.Odd g' -> eqm (2 * Z.of_nat (pa_N pp)) (5 ^ k * g') 1 ->
  GenRotationKey pp k sk es poolQ = Ok (rk, poolQ') ->
  (forall i, uniform_sample pp (smp k i)) -> (forall i, qrep pp (maxLevel pp) (smp k i) (A' i)) -> AddCRS pp k smp = Ok pp' ->
  crs_is pp' k A' /\
  (forall E, krows pp' (rk_val rk) (fun t => psub (padd (E t) (gmsg pp' g t s)) (pmul (pa_N pp) (psigma (pa_N pp) g' s) (A' t))) <->
    forall t, (t < Beta pp (maxLevel pp))%nat ->
      peq (pa_N pp) (prodZ (pa_Q pp ++ pa_P pp)) (E t) (padd (smallpoly (es t)) (pmul (pa_N pp) (psigma (pa_N pp) g' s) (psub (A' t) (A t))))) /\
  (forall t i, (t < Beta pp (maxLevel pp))%nat -> (i < pa_N pp)%nat ->
     2 * B < Z.abs (centred (prodZ (pa_Q pp ++ pa_P pp)) (pmul (pa_N pp) (psigma (pa_N pp) g' s) (psub (A' t) (A t)) i)) ->
     ~ exists E : nat -> zpoly, Z.abs (E t i) <= B /\
         krows pp' (rk_val rk) (fun t => psub (padd (E t) (gmsg pp' g t s)) (pmul (pa_N pp) (psigma (pa_N pp) g' s) (A' t)))).
Proof. exact stale_thm. Qed.
Print Assumptions C40_old_keys_invalid.
(** satisfiable, threshold included: ring degree 8, old CRS rows 1, new ones 5 *)
Example C40_case : exists pp sk s A A' g' smp g, params_ok pp /\ crs_is pp 1 A /\ sk_is pp sk s /\ bound_ok pp 1 /\ errs_ok pp 1 (fun _ => ones (pa_N pp)) /\
  gadget pp g /\ pshp pp (qQ (newQP pp)) /\ Z.Odd g' /\ eqm (2 * Z.of_nat (pa_N pp)) (5 ^ 1 * g') 1 /\
  (forall i, uniform_sample pp (smp 1 i)) /\ (forall i, qrep pp (maxLevel pp) (smp 1 i) (A' i)) /\
  2 * 1 < Z.abs (centred (prodZ (pa_Q pp ++ pa_P pp)) (pmul (pa_N pp) (psigma (pa_N pp) g' s) (psub (A' O) (A O)) O)).
Proof. exact stale_witness. Qed.
