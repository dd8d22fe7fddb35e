(** Sequences of evaluator calls on complex slots, from encryption to decryption (property C61).
    Vocabulary: SpecSlots.v (slot), SpecCircuit.v (holds: a ciphertext of level l and scale sc whose slots are sc * m up to e; track: what a
    call makes of levels, scales, slots and errors), Circuit.v (the calls). *)
From Coq Require Import Reals String ZArith List Bool.
From Coq.Floats Require Import SpecFloat.
From Verif Require Import Spec Go Arith NegRing NTT RingOps Maps Params Elements KeySwitch KeySets KeyGen F64 EncDec Evaluator Repr SpecKeys SpecCt SpecEnc SpecEv SpecRot SpecSlots SpecLREnc Shipped EncThms EvWorld Circuit SpecCircuit CircProofs CircEnc CircWorld.
Import ListNotations.
Local Open Scope Z_scope.

(** C61: every sequence of additions, subtractions, multiplications by ciphertexts, plaintexts and constants, rotations, hoisted rotations
    and multiplications, conjugations, rescalings and level drops, of which multiplications by constants, rescalings and level drops may also
    overwrite their operand, that [tracks] admits runs without a panic or error from every state of the evaluator and the key
    set's pools and for all map orders; its results encrypt exactly the complex slots that the sequence of complex operations gives, at the
    tracked levels and scales, up to the tracked errors *)
Theorem C61_circuit : forall ce, env_ok (ce_env ce) -> let pp := e_pp (ce_env ce) in forall g A U s r Bs Be Dm ids keys rks cks,
  circ_keys pp g A U s r Bs Be Dm ids keys -> 0 < Z.of_nat (pa_N pp) / 2 -> forall vpts pts, Forall2 (vp_holds pp) vpts pts ->
  forall p vs vs' cts orders n st, tracks pp (ce_scale ce) g s Bs Be Dm ids rks cks vpts vs p vs' -> (forall n, order_ok (orders n)) ->
  Forall2 (v_holds pp s ids) vs cts -> circ_ok pp ids keys st ->
  exists cts' st', execs ce rks cks pts orders n p cts st = Ok (cts', st') /\ circ_ok pp ids keys st' /\ Forall2 (v_holds pp s ids) vs' cts'.
Proof. exact run_circuit. Qed.
Print Assumptions C61_circuit.

(** C61: EncryptMsgNew makes such ciphertexts: at the maximum level, with the encoding error ee plus the error of encryption *)
Theorem C61_encrypt : forall pp, params_ok pp -> forall sc (Msg : Type) (encode : poly -> Msg -> poly) msg pk s ids e a u e0 e1 Bs Bu B M m ee,
  (forall p, plen p = QCount pp -> plaintext_is pp (maxLevel pp) (encode p msg) M) -> slots_near pp sc m ee M ->
  pk_is pp pk (s (pk_ID pk)) e a -> pnorm_le (pa_N pp) e B -> pnorm_le (pa_N pp) (s (pk_ID pk)) Bs -> In (pk_ID pk) ids -> ~ In "0"%string ids ->
  bound_ok pp Bu -> bound_ok pp B -> small_ok (pa_N pp) Bu u -> small_ok (pa_N pp) B e0 -> small_ok (pa_N pp) B e1 ->
  forall o st, order_ok o -> encst_ok (mkCkp pp sc) st ->
  exists ct st', EncryptMsgNew (mkCkp pp sc) encode o msg pk u e0 e1 st = Ok (ct, st') /\ encst_ok (mkCkp pp sc) st' /\
    holds pp s ids (maxLevel pp) sc m (ee + 2 * INR (pa_N pp) * IZR (B * (1 + Z.of_nat (pa_N pp) * Bu + Z.of_nat (pa_N pp) * Bs)))%R ct.
Proof. exact @cencrypt_new. Qed.
Print Assumptions C61_encrypt.

(** C61: and decryption with the keys of all its parties reads such a ciphertext: the decoder gets a polynomial whose centred value has the
    slots sc * m up to e, whenever that fits the moduli *)
Theorem C61_decrypt : forall ce, env_ok (ce_env ce) -> let pp := e_pp (ce_env ce) in forall s ids l sc m e ct (Msg : Type) (decode : poly -> f64 -> Msg) pool pl,
  holds pp s ids l sc m e ct -> plen pool = (pl + 1)%nat ->
  (forall i, 0 <= i < Z.of_nat (pa_N pp) / 2 -> (4 * (cnorm (cscale (fR sc) (m i)) + e) < IZR (Ql pp (Nat.min l pl)))%R) ->
  exists pt, plen pt = (Nat.min l pl + 1)%nat /\
    (forall o sks, order_ok o -> sks_ok pp s (c_ct ct) sks -> (forall id, party (c_ct ct) id -> has_key sks id) ->
       ckDecrypt (mkCkp pp (ce_scale ce)) decode o ct sks pool = Ok (decode pt sc, pt)) /\
    exists V, centred_value pp (Nat.min l pl) false pt V /\ slots_near pp sc m e V.
Proof. exact @cdecrypt. Qed.
Print Assumptions C61_decrypt.

(** the shipped parameters and keys of two parties; all slots m0, m1, m2; a sequence that makes every kind of call *)
Example C61_case : exists ce g A U s r Dm keys rks cks pk e a on st, let pp := e_pp (ce_env ce) in let N := pa_N pp in
  let err := (2 * INR N + 2 * INR N * IZR (19 * (1 + Z.of_nat N * 1 + Z.of_nat N * 1)))%R in
  env_ok (ce_env ce) /\ 0 < Z.of_nat N / 2 /\ circ_keys pp g A U s r 1 19 Dm two keys /\ circ_ok pp two keys st /\
  pa_Q pp = shippedQ /\ pa_P pp = shippedP /\ pa_logN pp = 15%nat /\ ce_scale ce = sc38 /\
  pk_is pp pk (s (pk_ID pk)) e a /\ pnorm_le N e 19 /\ pnorm_le N (s (pk_ID pk)) 1 /\ In (pk_ID pk) two /\ bound_ok pp 1 /\ bound_ok pp 19 /\ small_ok N 1 on /\ small_ok N 19 on /\
  (forall m p, plen p = QCount pp -> plaintext_is pp (maxLevel pp) (cplxEncode pp sc38 p m) (cencPoly pp sc38 m)) /\ (forall m, slots_near pp sc38 m (2 * INR N) (cencPoly pp sc38 m)) /\
  (forall m, exists ct, v_holds pp s two (mkV 20 sc38 m err) ct) /\ (forall m, exists pt, vp_holds pp (mkVp sc38 m (2 * INR N)) pt) /\
  (forall m0 m1 m2, exists vs, tracks pp (ce_scale ce) g s 1 19 Dm two rks cks [mkVp sc38 m2 (2 * INR N)] [mkV 20 sc38 m0 err; mkV 20 sc38 m1 err]
     [CMul 0 1; CRot 2 5; CConj 0; CMulPt 4 0; CSub 3 5; CRotHoisted 6 4; CDrop 7 1; CConst 8 f_half; CRescale 9 sc38; CMul 8 8; CAdd 10 11;
      CMulHoisted 12 8 true false; CConstIn 13 f_half; CRescaleIn 13 sc38; CDropIn 13 1; CRescaleIn 13 sc38; CAdd 13 12] vs) /\
  (forall (m : Z -> C2) i, (cnorm (m i) <= 1)%R -> (4 * (cnorm (cscale (fR sc38) (m i)) + err) < IZR (Ql pp (Nat.min 20 20)))%R).
Proof. exact circ_world. Qed.
