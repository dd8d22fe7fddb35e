(** Keys and key sets as objects (property C74). *)
From Coq Require Import String ZArith List.
From Verif Require Import Spec Go Arith NegRing NTT RingOps Maps Params Elements KeySwitch KeySets KeyGen EncDec Repr SpecCt SpecEnc Shipped World World EncWorld Heap KeyObj SpecKeyObj KeyObjThms.
Import ListNotations.
Local Open Scope Z_scope.

(** C74: CopyNew in any reachable state makes an equal key (nil of nil).  Whatever happens to the other keys and to the sets, the copy keeps its value as long as
    nobody writes to it or adds it to a set; and writing to the copy changes no other variable's key and no stored one. *)
Theorem C74_copy : forall P s0 k s, runK P = Ok s0 -> stepK s0 (KCopy k) = Ok s ->
  nkeys s = S (nkeys s0) /\ keyOf s (nkeys s0) = keyOf s0 k /\ (forall j, (j < nkeys s0)%nat -> keyOf s j = keyOf s0 j) /\
  (forall Q s', leaves (nkeys s0) Q -> foldM stepK Q s = Ok s' -> keyOf s' (nkeys s0) = keyOf s0 k) /\
  (forall Q s', changes_only (nkeys s0) Q -> foldM stepK Q s = Ok s' -> (forall j, (j < nkeys s0)%nat -> keyOf s' j = keyOf s0 j) /\ forall t id, stored s' t id = stored s0 t id).
Proof. exact copy_thm. Qed.
Print Assumptions C74_copy.

(** C74: writing polynomial i of a key replaces that polynomial only (and panics if there is none), renaming changes the ID only; the other variables see the change or nothing *)
Theorem C74_write : forall P s0 k vals id i x, runK P = Ok s0 -> keyOf s0 k = Ok (Some (vals, id)) ->
  ((i < List.length vals)%nat -> exists s, stepK s0 (KWrite k i x) = Ok s /\ nkeys s = nkeys s0 /\ keyOf s k = Ok (Some (lset vals i x, id)) /\
     forall j, keyOf s j = keyOf s0 j \/ keyOf s0 j = keyOf s0 k /\ keyOf s j = keyOf s k) /\
  ((List.length vals <= i)%nat -> stepK s0 (KWrite k i x) = Panic PIndex) /\
  forall id', exists s, stepK s0 (KSetID k id') = Ok s /\ nkeys s = nkeys s0 /\ keyOf s k = Ok (Some (vals, id')) /\
     forall j, keyOf s j = keyOf s0 j \/ keyOf s0 j = keyOf s0 k /\ keyOf s j = keyOf s k.
Proof. exact write_thm. Qed.
Print Assumptions C74_write.

(** C74: a key set keeps the pointer: what Get returns after Add is the same object, so that the two variables agree after any further program *)
Theorem C74_shared : forall P s0 t k vals id, runK P = Ok s0 -> keyOf s0 k = Ok (Some (vals, id)) -> (t < List.length (kh_set (snd s0)))%nat ->
  exists s, foldM stepK [KAdd t k; KGet t id] s0 = Ok s /\ nkeys s = S (nkeys s0) /\ keyOf s (nkeys s0) = Ok (Some (vals, id)) /\
    forall Q s', foldM stepK Q s = Ok s' -> keyOf s' (nkeys s0) = keyOf s' k.
Proof. exact shared_thm. Qed.
Print Assumptions C74_shared.

(** C74: a key whose ID is changed after it was added stays under its old ID with the new one inside, and deleting by its own ID does not remove it *)
Theorem C74_renamed : forall P s0 t k vals id id', runK P = Ok s0 -> keyOf s0 k = Ok (Some (vals, id)) -> (t < List.length (kh_set (snd s0)))%nat ->
  exists s, foldM stepK [KAdd t k; KSetID k id'] s0 = Ok s /\ stored s t id = Ok (Some (vals, id')) /\
    (id' <> id -> exists s', stepK s (KDel t id') = Ok s' /\ stored s' t id = Ok (Some (vals, id')) /\ stored s' t id' = Ok None).
Proof. exact renamed_thm. Qed.
Print Assumptions C74_renamed.

(** C74: as long as no key is changed after it was made, programs over keys and key sets are what they are on values, panics included *)
Theorem C74_values : forall P, readonly P -> match runK P, runVal P with
  | Ok s, Ok v => (forall k, keyOf s k = idx (fst v) k) /\ forall t id, stored s t id = (let* m := idx (snd v) t in Ok (sget m id))%go
  | Panic p, Panic p' => p = p' | _, _ => False end.
Proof. exact values_thm. Qed.
Print Assumptions C74_values.

(** C74: the zero PublicKey of the constructor fits every secret key, and what is encrypted with it is decrypted by the zero SecretKey of the constructor, that is by anybody *)
Theorem C74_zero_keys : forall pp, params_ok pp -> forall id pt pl M u e0 e1 Bu B ct cl ntt F ptOut po,
  (forall s, pk_is pp (NewPublicKey pp id) s pzero pzero) /\ sk_is pp (NewSecretKey pp id) pzero /\
  (enc_setting pp pt pl M (NewPublicKey pp id) pzero pzero pzero u e0 e1 Bu B ct cl ntt F -> foreign ct id = [] -> plen ptOut = (po + 1)%nat ->
   exists ct' pt' w, let l := Nat.min (Nat.min pl cl) po in
    (forall pool, (QCount pp <= plen pool)%nat -> exists pool', Encrypt pp pt (NewPublicKey pp id) u e0 e1 ct pool = Ok (ct', pool')) /\
    (forall o, order_ok o -> Decrypt pp o ct' [(id, NewSecretKey pp id)] ptOut = Ok pt') /\
    plen pt' = (l + 1)%nat /\ held pp ntt (fun q => q) l pt' (padd M w) /\ pnorm_le (pa_N pp) w (B * (1 + Z.of_nat (pa_N pp) * Bu))).
Proof. exact zero_thm. Qed.
Print Assumptions C74_zero_keys.

(** C74: the constructors of the switching keys give keys of the right length whose rows are all the polynomial 0 *)
Theorem C74_zero_switching_keys : forall pp, params_ok pp -> forall id r,
  (let k := NewRelinearizationKey pp id in rl_ID k = id /\ zero_swk_is pp (rl_b k) /\ zero_swk_is pp (rl_d k) /\ zero_swk_is pp (rl_v k)) /\
  (let k := NewRotationKey pp r id in rk_ID k = id /\ rk_idx k = r /\ zero_swk_is pp (rk_val k)) /\
  (let k := NewConjugationKey pp id in cj_ID k = id /\ zero_swk_is pp (cj_val k)).
Proof. exact zero_switching_thm. Qed.
Print Assumptions C74_zero_switching_keys.

(** * concrete cases *)
Example C74_case : forall x y : qp, forall s0 s1 s2,
  runK [KNew [x] "a"; KNil; KCopy 0; KCopy 1; KWrite 0 0 y] = Ok s0 -> runK [KNew [x] "a"; KNewSet; KAdd 0 0; KGet 0 "a"; KWrite 0 0 y] = Ok s1 -> runK [KNew [x] "a"; KNewSet; KAdd 0 0; KSetID 0 "b"] = Ok s2 ->
  (keyOf s0 0 = Ok (Some ([y], "a"%string)) /\ keyOf s0 2 = Ok (Some ([x], "a"%string)) /\ keyOf s0 3 = Ok None) /\
  keyOf s1 1 = Ok (Some ([y], "a"%string)) /\ (stored s2 0 "a" = Ok (Some ([x], "b"%string)) /\ stored s2 0 "b" = Ok None) /\ runK [KNewSet; KGet 0 "a"] = Panic noKey /\ runK [KNil; KNewSet; KAdd 0 0] = Panic PNil.
Proof. intros x y s0 s1 s2 H0 H1 H2. injection H0 as <-. injection H1 as <-. injection H2 as <-. repeat split; reflexivity. Qed.
Example C74_runs : forall x y : qp, (exists s, runK [KNew [x] "a"; KNil; KCopy 0; KCopy 1; KWrite 0 0 y] = Ok s) /\ (exists s, runK [KNew [x] "a"; KNewSet; KAdd 0 0; KGet 0 "a"; KWrite 0 0 y] = Ok s) /\
  exists s, runK [KNew [x] "a"; KNewSet; KAdd 0 0; KSetID 0 "b"] = Ok s.
Proof. intros. repeat split; eexists; reflexivity. Qed.
Example C74_zero_case : exists pp on, params_ok pp /\ pa_Q pp = shippedQ /\ pa_logN pp = 15%nat /\
  forall pl cl, (pl < QCount pp)%nat -> (cl < QCount pp)%nat ->
    enc_setting pp (ones_poly pp pl) pl (fun _ => 1) (NewPublicKey pp "a") pzero pzero pzero on on on 1 19 (ones_ct pp cl ["a"%string]) cl false (fun _ _ => 1) /\ foreign (ones_ct pp cl ["a"%string]) "a" = [].
Proof. exact zero_world. Qed.
