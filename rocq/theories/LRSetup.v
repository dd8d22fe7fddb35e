(** The set-up of the logistic-regression programs: parameters, companies, keys (genTestParams), and the main function of lr.go and
    lr_toy.go from the data to the decrypted prediction. *)
From Coq Require Import String DecimalString ZArith Bool List.
From Verif Require Import Go Arith BasisExt NTT RingOps Maps Params Elements KeySwitch KeySets KeyGen F64 EncDec Evaluator LR LREval.
Import ListNotations.
Local Open Scope Z_scope.

(** lr/lr.go:101-109: "company" + strconv.Itoa(i) for i < numCompany, collected in an IDSet *)
Definition companyName (i : nat) : string := append "company" (NilZero.string_of_uint (Nat.to_uint i)).
Definition companyIDs (numCompany : nat) : res idset := foldM idAdd (map companyName (seq 0 numCompany)) NewIDSet.

(** lr/lr.go:457 (lr_toy.go, lr_minibatch.go and lr_minibatch_toy.go have the same list) *)
Definition lrRots : list Z := [14; 15; 384; 512; 640; 768; 896; 8191; 8190; 8188; 8184].

(** What the samplers return for one party: its secret, the error of its public key, the second secret of its relinearization key, the
    errors of the three vectors of that key, and the errors of its n-th rotation key *)
Record partyRnd := mkPRnd { r_sk : small; r_pk : small; r_r : small; r_b : nat -> small; r_d : nat -> small; r_v : nat -> small; r_rot : nat -> nat -> small }.
(** lr/lr.go:58-73 (testParams): the parameters and the four key sets; the encryptor, decryptor and evaluator are made by [mainProgram] *)
Record testCtx := mkTC { tc_pp : params; tc_sk : skset; tc_pk : pkset; tc_rlk : rlkpool; tc_rot : rotset }.

(** lr/lr.go:459-461; [smp k] is the source of uniform polynomials of the k-th AddCRS *)
Fixpoint addCRSs (smp : nat -> sampler) (k : nat) (rots : list Z) (pp : params) : res params :=
  match rots with [] => Ok pp | rot :: rots => let* pp := AddCRS pp rot (smp k) in addCRSs smp (S k) rots pp end.
(** lr/lr.go:479-482; [es k]: errors of the k-th key *)
Fixpoint genRots (pp : params) (sk : seckey) (es : nat -> nat -> small) (k : nat) (rots : list Z) (rks : rotset) (poolQ : poly) : res (rotset * poly) :=
  match rots with
  | [] => Ok (rks, poolQ)
  | rot :: rots => let* (rk, poolQ) := GenRotationKey pp rot sk (es k) poolQ in genRots pp sk es (S k) rots (AddRotationKey rks rk) poolQ
  end.
(** lr/lr.go:474-487: one party; [pp0] is defaultParam, which the relinearization key set keeps (its common reference strings are not used),
    poolQ and poolQP are the scratch polynomials of the key generator *)
Definition genParty (pp0 pp : params) (rots : list Z) (rnd : string -> partyRnd) (st : testCtx * (poly * qp)) (id : string) : res (testCtx * (poly * qp)) :=
  let '(tc, (poolQ, poolQP)) := st in
  let x := rnd id in
  let* (sk, pk) := GenKeyPair pp (r_sk x) (r_pk x) id in
  let* r := genSecretKey pp (r_r x) id in
  let* (rlk, (poolQ, poolQP)) := GenRelinearizationKey pp sk r (r_b x) (r_d x) (r_v x) poolQ poolQP in
  let* (rks, poolQ) := genRots pp sk (r_rot x) 0 rots (tc_rot tc) poolQ in
  Ok (mkTC (tc_pp tc) (AddSecretKey (tc_sk tc) sk) (AddPublicKey (tc_pk tc) pk) (AddRelinearizationKey pp0 (tc_rlk tc) rlk) rks, (poolQ, poolQP)).
(** lr/lr.go:452-500 genTestParams; [o]: the order in which the range loop over idset.Value visits the parties.  mkckks.Parameters.AddCRS
    writes to the map shared with defaultParam; nothing reads defaultParam's map afterwards. *)
Definition genTestParams (o : order) (pp0 : params) (rots : list Z) (ids : idset) (smp : nat -> sampler) (rnd : string -> partyRnd) : res testCtx :=
  let* pp := addCRSs smp 0 rots pp0 in
  let rots := rots ++ map (fun i => 2 ^ Z.of_nat i) (seq 0 (pa_logN pp - 1)) in
  let* (tc, _) := foldM (genParty pp0 pp rots rnd) (o 0%nat (mkeys ids)) (mkTC pp [] [] NewRelinearizationKeyKeySet [], (ringPoly (ringQ pp), newQP pp)) in
  Ok tc.

(** ** The main functions *)
(** what a run reads from its samplers and from the iteration order of Go maps *)
Record runRnd := mkRunRnd {
  u_crs0 : sampler;                       (* NewParameters *)
  u_crs : nat -> sampler;                 (* the k-th AddCRS *)
  u_party : string -> partyRnd;           (* key generation *)
  u_gen : order; u_ev : order;            (* genTestParams, NewEvaluator *)
  u_dec : nat -> order;                   (* the n-th Decrypt *)
  u_eo : nat -> order; u_enc : nat -> small * small * small; (* the n-th encryption of an input *)
  u_oo : nat -> order; u_zero : nat -> small * small * small (* the n-th call during training and inference *)
}.
Section Main.
Context {R : Type} (rO rI : R) (radd rmul rsub : R -> R -> R) (ropp : R -> R).
(** lattigo's encoder, on the real parts (the programs only encode real numbers) *)
Context (encode : poly -> list R -> poly) {Msg : Type} (decode : poly -> f64 -> Msg) (lz : lazyf).
Definition listOf (n : nat) (f : Z -> R) : list R := map (fun i => f (Z.of_nat i)) (seq 0 n).
(** mkckks/encryptor.go:67-71 EncodeMsgNew *)
Definition EncodeMsgNew (cp : ckparams) (msg : list R) : poly * f64 := (encode (ringPoly (ringQ (cp_pp cp))) msg, cp_scale cp).

(** *** training with the decryptions that are printed, then inference *)
(** state of main in its loops: evaluator, key set and encryptor; the decryptor's plaintext; the number of decryptions and of encryptions of
    inputs so far *)
Record mainst := mkMain { ms_st : lrst; ms_pool : poly; ms_dec : nat; ms_enc : nat }.
Definition onEval {A} (m : SM lrst A) : SM mainst A := fun st =>
  let* (a, st1) := m (ms_st st) in Ok (a, mkMain st1 (ms_pool st) (ms_dec st) (ms_enc st)).
(** testContext.decryptor.Decrypt(ct, testContext.skSet) *)
Definition showCt (cp : ckparams) (u : runRnd) (sks : skset) (ct : ckct) : SM mainst Msg := fun st =>
  let* (m, pool) := ckDecrypt cp decode (u_dec u (ms_dec st)) ct sks (ms_pool st) in Ok (m, mkMain (ms_st st) pool (S (ms_dec st)) (ms_enc st)).
Fixpoint mapS {S A B} (f : A -> SM S B) (l : list A) : SM S (list B) :=
  match l with [] => sret [] | a :: l => let! b := f a in let! bs := mapS f l in sret (b :: bs) end.
(** lr/lr.go:245-315 (lr_minibatch.go:284-358, lr_minibatch_toy.go:313-387): the iterations [iter]; each decrypts beta and v and prints two of their
    slots.  lr_toy.go:281-342 prints nothing (pr = false). *)
Fixpoint trainLoop (cp : ckparams) (u : runRnd) (sks : skset) (pr : bool) (iter : ckct * ckct -> nat -> SM lrst (ckct * ckct)) (l : list nat) (vb : ckct * ckct) : SM mainst (ckct * ckct * list (Msg * Msg)) :=
  match l with
  | [] => sret (vb, [])
  | a :: l =>
      let! vb := onEval (iter vb a) in
      let! ms := (if pr then let! mb := showCt cp u sks (snd vb) in let! mv := showCt cp u sks (fst vb) in sret [(mb, mv)] else sret []) in
      let! r := trainLoop cp u sks pr iter l vb in
      sret (fst r, ms ++ snd r)
  end.
Definition setEn (st : lrst) (en : encst) : lrst := mkLr (lr_ev st) (lr_rs st) en (lr_n st).
(** lr/lr.go:376-410 (lr_toy.go:403-437, lr_minibatch.go:419-453), the body of the loop lr/lr_minibatch_toy.go:396-429: encryption of a data point,
    prediction, decryption *)
Definition predict (cp : ckparams) (u : runRnd) (sks : skset) (pk : pubkey) (ids : idset) (E : heops lrst ckct (poly * f64)) (K : lrconst ckct (poly * f64)) (slotNum numFeature : nat) (beta : ckct) (x : list R) : SM mainst Msg := fun st =>
  let* tv := testVector rO slotNum numFeature x in
  let '(a, e0, e1) := u_enc u (ms_enc st) in
  let* (test, en) := EncryptMsgNewExpand cp encode (u_eo u (ms_enc st)) tv pk ids a e0 e1 (lr_en (ms_st st)) in
  let* (r, st1) := infer E K (Z.of_nat numFeature) test beta (setEn (ms_st st) en) in
  showCt cp u sks r (mkMain st1 (ms_pool st) (ms_dec st) (S (ms_enc st))).

(** what main has before the training: beta and v, the encrypted data, the constants; the encryptor's state and the number of its encryptions *)
Record lrInputs {Zt : Type} := mkInputs { in_beta : ckct; in_v : ckct; in_z : Zt; in_K : lrconst ckct (poly * f64); in_en : encst; in_n : nat }.
Arguments mkInputs {Zt}. Arguments in_beta {Zt}. Arguments in_v {Zt}. Arguments in_z {Zt}. Arguments in_K {Zt}. Arguments in_en {Zt}. Arguments in_n {Zt}.
(** lr/lr.go:117-243 (lr_toy.go:155-279).  Simplification: the float64 arithmetic that computes the constants is the arithmetic of the ring. *)
Definition lrEncrypt (cp : ckparams) (u : runRnd) (pk : pubkey) (ids : idset) (slotNum batchSize numCol numFeature : nat) (gn c0 c3 c13 : R) (etas : list R)
    (feature : list (list R)) (label : list R) : res (@lrInputs ckct) :=
  let encNew n msg en := let '(a, e0, e1) := u_enc u n in EncryptMsgNew cp encode (u_eo u n) msg pk a e0 e1 en in
  let encAll n msg en := let '(a, e0, e1) := u_enc u n in EncryptMsgNewExpand cp encode (u_eo u n) msg pk ids a e0 e1 en in
  let pt f := EncodeMsgNew cp (listOf slotNum f) in
  let* (beta, en) := encNew 0%nat (repeat rO slotNum) (NewEncryptor cp) in
  let* (v, en) := encNew 1%nat (repeat rO slotNum) en in
  let* zv := zVector rO slotNum batchSize numCol numFeature feature in
  let* (z, en) := encAll 2%nat zv en in
  let* yv := labelVector rO slotNum batchSize numCol label in
  let K := vconst rO rI rmul rsub ropp gn c0 c3 c13 etas (maskVector rO rI slotNum numCol) (ofList rO yv) in
  let* (c5, en) := encNew 3%nat (listOf slotNum (k_5 K)) en in
  let* (c9, en) := encNew 4%nat (listOf slotNum (k_9 K)) en in
  Ok (mkInputs beta v z
    (mkConst _ _ (pt (k_mask K)) (pt (k_1 K)) (map pt (k_2 K)) (pt (k_3 K)) (map pt (k_4 K)) c5 (map pt (k_6 K)) (map pt (k_7 K)) (pt (k_8 K)) c9) en 5).
(** lr/lr_minibatch.go:117-279 (lr_minibatch_toy.go:121-307).  in_z: the batches with their z[b][i], const1_pt[b][i], const2_pt[b][i] (those of in_K are
    not used).  Simplification as for [lrEncrypt]. *)
Definition lrBatchEncrypt (cp : ckparams) (u : runRnd) (pk : pubkey) (ids : idset) (numSlots numFeature maskCol numTrain batchSize : nat) (gn c0 c3 c13 : R) (etas : list R)
    (feature : list (list R)) (label : list R) : res (@lrInputs (list (list (ckct * (poly * f64) * list (poly * f64))))) :=
  let encNew n msg en := let '(a, e0, e1) := u_enc u n in EncryptMsgNew cp encode (u_eo u n) msg pk a e0 e1 en in
  let encAll n msg en := let '(a, e0, e1) := u_enc u n in EncryptMsgNewExpand cp encode (u_eo u n) msg pk ids a e0 e1 en in
  let pt f := EncodeMsgNew cp (listOf numSlots f) in
  let encCt (c : slotvec * slotvec * list slotvec) : SM (nat * encst) (ckct * (poly * f64) * list (poly * f64)) := fun st =>
    let* (z, en) := encAll (fst st) (listOf numSlots (fst (fst c))) (snd st) in Ok ((z, pt (snd (fst c)), map pt (snd c)), (S (fst st), en)) in
  let* (beta, en) := encNew 0%nat (repeat rO numSlots) (NewEncryptor cp) in
  let* (v, en) := encNew 1%nat (repeat rO numSlots) en in
  let* batches := packBatches rO rI rmul rsub ropp numSlots numFeature numTrain batchSize gn c0 c3 c13 etas feature label in
  let* (z, st) := mapS (mapS encCt) batches (2%nat, en) in
  let K := vconst rO rI rmul rsub ropp gn c0 c3 c13 etas (maskVector rO rI numSlots maskCol) (fun _ => rO) in
  let* (c5, en) := encNew (fst st) (listOf numSlots (k_5 K)) (snd st) in
  let* (c9, en) := encNew (S (fst st)) (listOf numSlots (k_9 K)) en in
  Ok (mkInputs beta v z
    (mkConst _ _ (pt (k_mask K)) (pt (k_1 K)) (map pt (k_2 K)) (pt (k_3 K)) (map pt (k_4 K)) c5 (map pt (k_6 K)) (map pt (k_7 K)) (pt (k_8 K)) c9) en (S (S (fst st)))).

(** The rest of main: parameters, keys, the inputs [enc], the inputs [pre] that are decrypted and printed, the training [iter], the inference on
    the data points xs.  [rots] is the list of lr/lr.go:457; logN, Q, P, sc are those of PN15QP880 and gamma of mkckks/params.go:20 is 2.
    Returns the keys, the decrypted inputs, v and beta, the decrypted parameters of every iteration, the decrypted predictions.
    Simplification: lr_toy.go:170 decrypts z right after its encryption, before the constants are encrypted. *)
Record mainResult := mkResult { mr_tc : testCtx; mr_pre : list Msg; mr_vb : ckct * ckct; mr_iter : list (Msg * Msg); mr_pred : list Msg }.
Definition mainProgram {Zt} (u : runRnd) (logN : nat) (Q P psiQ psiP : list Z) (sc : f64) (rots : list Z) (numCompany slotNum numFeature numIter : nat)
    (enc : ckparams -> pubkey -> idset -> res (@lrInputs Zt)) (pre : Zt -> list ckct) (pr : bool)
    (iter : heops lrst ckct (poly * f64) -> lrconst ckct (poly * f64) -> Zt -> ckct * ckct -> nat -> SM lrst (ckct * ckct)) (xs : list (list R)) : res mainResult :=
  let* pp0 := NewParameters logN Q P psiQ psiP 2 (u_crs0 u) in
  let* ids := companyIDs numCompany in
  let* tc := genTestParams (u_gen u) pp0 rots ids (u_crs u) (u_party u) in
  let cp := mkCkp (tc_pp tc) sc in
  let '(ce, ev) := NewEvaluator (u_ev u) lz cp in
  let* pk := GetPublicKey (tc_pk tc) (companyName 0) in
  let* i := enc cp pk ids in
  let E := evalOps ce (u_oo u) (u_zero u) (tc_rot tc) pk encode (repeat rO slotNum) in
  let* (zs, st) := mapS (showCt cp u (tc_sk tc)) (pre (in_z i)) (mkMain (mkLr ev (tc_rlk tc) (in_en i) 0) (NewDecryptor cp) 0 (in_n i)) in
  let* (r, st) := trainLoop cp u (tc_sk tc) pr (iter E (in_K i) (in_z i)) (seq 0 numIter) (in_v i, in_beta i) st in
  let* (ms, _) := mapS (predict cp u (tc_sk tc) pk ids E (in_K i) slotNum numFeature (snd (fst r))) xs st in
  Ok (mkResult tc zs (fst r) (snd r) ms).
(** lr/lr.go:75-422, lr/lr_toy.go:75-449 (toy) from the data in memory; they predict one data point *)
Definition lrProgram (toy : bool) (u : runRnd) (logN : nat) (Q P psiQ psiP : list Z) (sc : f64) (rots : list Z) (numCompany slotNum batchSize numCol numFeature numIter : nat)
    (gn c0 c3 c13 : R) (etas : list R) (feature : list (list R)) (label : list R) (xs : list (list R)) : res mainResult :=
  mainProgram u logN Q P psiQ psiP sc rots numCompany slotNum numFeature numIter
    (fun cp pk ids => lrEncrypt cp u pk ids slotNum batchSize numCol numFeature gn c0 c3 c13 etas feature label)
    (fun z => if toy then [z] else []) (negb toy)
    (fun E K z => trainIter E K (Z.of_nat batchSize) (Z.of_nat numCol) z) xs.
(** lr/lr_minibatch.go:75-465, lr/lr_minibatch_toy.go:77-493; the latter predicts all data points *)
Definition lrBatchProgram (u : runRnd) (logN : nat) (Q P psiQ psiP : list Z) (sc : f64) (rots : list Z) (numCompany numSlots numFeature maskCol numTrain batchSize numIter : nat)
    (gn c0 c3 c13 : R) (etas : list R) (feature : list (list R)) (label : list R) (xs : list (list R)) : res mainResult :=
  mainProgram u logN Q P psiQ psiP sc rots numCompany numSlots numFeature numIter
    (fun cp pk ids => lrBatchEncrypt cp u pk ids numSlots numFeature maskCol numTrain batchSize gn c0 c3 c13 etas feature label)
    (fun _ => []) true
    (fun E K z => batchIter E K (Z.of_nat (numDataPerCt numSlots numFeature)) (Z.of_nat (slotsPerData numFeature)) z) xs.
End Main.
