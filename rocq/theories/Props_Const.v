(** C62: the float64 arithmetic that prepares the constants of the logistic-regression programs.
    [fconst]: the constants as the programs compute them; [exact_const]: real arithmetic on the same inputs; [rslots F]: the real values of
    float64 slots. *)
From Coq Require Import Reals String ZArith List Bool Lra.
From Coq.Floats Require Import SpecFloat.
From Verif Require Import Spec Go Arith NegRing BasisExt NTT F64 RingOps Maps Params Elements KeySwitch KeySets KeyGen EncDec Evaluator Repr SpecKeys SpecCt SpecEnc SpecEv SpecRot SpecSlots LR SpecLR LREval LRShadow LRRel SpecLREnc Shipped EvWorld LREncThms LRLevels LRShipped LREncLR LREncShip Utils LRData LRConst SpecLRConst LRConstThms.
Import ListNotations.
Local Open Scope R_scope.

Local Notation PP ce := (e_pp (ce_env ce)).
Local Notation TOP ce := (maxLevel (PP ce)).
Local Notation ERR ce ids Bs Be Dm nr Bu B ez := (errOps (pa_N (PP ce) / 2) (lr_noise (PP ce) (Z.of_nat (List.length ids)) Bs Be Dm nr Bu B ez) (pa_Q (PP ce)) (TOP ce) (ce_scale ce)).

(** C62: every constant the programs compute is finite and within 17/2^51 * G^3 of its real value *)
Theorem C62_constants : forall G gamma n c0 c1 c3 etas label mask y, inputs_within G gamma c0 c1 c3 etas label ->
  (0 < n)%nat -> (Z.of_nat n <= 2 ^ 53)%Z -> Forall finite mask -> (forall i, within G (y i)) ->
  const_refine (near (const_err G)) (near (const_err G)) (exact_const gamma n c0 c1 c3 etas mask y) (fconst gamma n c0 c1 c3 etas mask y).
Proof. exact consts_near. Qed.
Print Assumptions C62_constants.

(** C62: the same for the batches of the minibatch programs, and packing rows and labels changes no value *)
Theorem C62_batches : forall G gamma c0 c1 c3 etas feature label ns nf nt bs be, inputs_within G gamma c0 c1 c3 etas label -> (0 < bs)%nat -> (Z.of_nat bs <= 2 ^ 53)%Z ->
  exact_batches ns nf nt bs gamma c0 c1 c3 etas feature label = Ok be ->
  exists bf, fpackBatches ns nf nt bs gamma c0 c1 c3 etas feature label = Ok bf /\ batches_near (const_err G) be bf.
Proof. exact batches_near_ok. Qed.
Print Assumptions C62_batches.

(** C62: ciphertexts and plaintexts of the float64 constants hold the real constants, with the rounding error times the scale added *)
Theorem C62_held : forall pp sc s ids e d K F KE, const_refine (near d) (near d) K F -> consts_held pp sc s ids e (mapConst rslots rslots F) KE -> consts_held pp sc s ids (e + Rabs (fR sc) * d) K KE.
Proof. exact held_float. Qed.
Print Assumptions C62_held.

(** C62: lr.go on float64 data and constants: the run of C47_shipped_lr holds with the constants the program computes in float64; the error of
    every input grows by at most scale * 17/2^51 * G^3 *)
Theorem C62_lr : forall ce g A U s r Bs Be Dm nr ids keys rks orders rnd pk (Msg : Type) (encode : poly -> Msg -> poly) (zero_msg : Msg) Bu B ez st,
  lr_setting ce g A U s r Bs Be Dm nr ids keys rks orders rnd pk encode zero_msg Bu B ez st ->
  pa_Q (PP ce) = shippedQ -> ce_scale ce = sc38 -> forall G gamma c0 c1 c3 etas feature label x e,
  pa_logN (PP ce) = 15%nat -> inputs_within G gamma c0 c1 c3 etas label -> table feature (2 ^ 11) 7 -> (2 ^ 11 <= length label)%nat -> length etas = 4%nat -> (7 <= length x)%nat ->
  let n := (2 ^ 11 * 2 ^ 3)%nat in let gn := (fR gamma / INR (2 ^ 11)) in let e' := e + Rabs (fR (ce_scale ce)) * const_err G in
  exists zv yv tv, zVector f0 n (2 ^ 11) (2 ^ 3) 7 feature = Ok zv /\ labelVector f0 n (2 ^ 11) (2 ^ 3) label = Ok yv /\ testVector f0 n 7 x = Ok tv /\
    let F := fconst gamma (2 ^ 11) c0 c1 c3 etas (maskVector f0 f1 n (2 ^ 3)) (ofList f0 yv) in
    let K := exact_const gamma (2 ^ 11) c0 c1 c3 etas (maskVector f0 f1 n (2 ^ 3)) (ofList f0 yv) in
    let nb := nesterovAll 0 1 Rplus Rmult Rminus (fR c0) (fR c1) (fR c3) gn 7 (entry 0 (map (map fR) feature)) (entry1 0 (map fR label)) (fun _ => seq 0 (2 ^ 11)) (map fR etas) in
    forall KE z v0 b0 test, consts_held (PP ce) (ce_scale ce) s ids e (mapConst rslots rslots F) KE -> fresh (PP ce) (ce_scale ce) s ids e (rslots (ofList f0 zv)) z ->
      fresh (PP ce) (ce_scale ce) s ids e (fun _ => 0) v0 -> fresh (PP ce) (ce_scale ce) s ids e (fun _ => 0) b0 -> fresh (PP ce) (ce_scale ce) s ids e (rslots (ofList f0 tv)) test ->
    exists v b t st' av ab at',
      lrRun (evalOps ce orders rnd rks pk encode zero_msg) KE (2 ^ 11) (2 ^ 3) 4 7 z (v0, b0) test st = Ok ((v, b), t, st') /\
      lrRun (ERR ce ids Bs Be Dm nr Bu B ez) (errConst (TOP ce) (ce_scale ce) e' K) (2 ^ 11) (2 ^ 3) 4 7 (fa (TOP ce) (ce_scale ce) e' (rslots (ofList f0 zv))) (fa (TOP ce) (ce_scale ce) e' (fun _ => 0), fa (TOP ce) (ce_scale ce) e' (fun _ => 0)) (fa (TOP ce) (ce_scale ce) e' (rslots (ofList f0 tv))) [] = Ok ((av, ab), at', repeat 1%nat 56) /\
      learned (PP ce) s ids (2 ^ 11) (2 ^ 3) 7 (fR c0) (fR c1) (fR c3) (map fR x) nb 4 4 1 (S754_finite false 9007149865596385 (-15)) beta38 sc38 (a_e av) (a_e ab) (a_e at') v b t.
Proof. exact @float_lr. Qed.
Print Assumptions C62_lr.

(** C62: lr_toy.go *)
Theorem C62_lr_toy : forall ce g A U s r Bs Be Dm nr ids keys rks orders rnd pk (Msg : Type) (encode : poly -> Msg -> poly) (zero_msg : Msg) Bu B ez st,
  lr_setting ce g A U s r Bs Be Dm nr ids keys rks orders rnd pk encode zero_msg Bu B ez st ->
  pa_Q (PP ce) = shippedQ -> ce_scale ce = sc38 -> forall G gamma c0 c1 c3 etas feature label x e,
  pa_logN (PP ce) = 15%nat -> inputs_within G gamma c0 c1 c3 etas label -> table feature (2 ^ 9) 20 -> (2 ^ 9 <= length label)%nat -> length etas = 2%nat -> (20 <= length x)%nat ->
  let n := (2 ^ 9 * 2 ^ 5)%nat in let gn := (fR gamma / INR (2 ^ 9)) in let e' := e + Rabs (fR (ce_scale ce)) * const_err G in
  exists zv yv tv, zVector f0 n (2 ^ 9) (2 ^ 5) 20 feature = Ok zv /\ labelVector f0 n (2 ^ 9) (2 ^ 5) label = Ok yv /\ testVector f0 n 20 x = Ok tv /\
    let F := fconst gamma (2 ^ 9) c0 c1 c3 etas (maskVector f0 f1 n (2 ^ 5)) (ofList f0 yv) in
    let K := exact_const gamma (2 ^ 9) c0 c1 c3 etas (maskVector f0 f1 n (2 ^ 5)) (ofList f0 yv) in
    let nb := nesterovAll 0 1 Rplus Rmult Rminus (fR c0) (fR c1) (fR c3) gn 20 (entry 0 (map (map fR) feature)) (entry1 0 (map fR label)) (fun _ => seq 0 (2 ^ 9)) (map fR etas) in
    forall KE z v0 b0 test, consts_held (PP ce) (ce_scale ce) s ids e (mapConst rslots rslots F) KE -> fresh (PP ce) (ce_scale ce) s ids e (rslots (ofList f0 zv)) z ->
      fresh (PP ce) (ce_scale ce) s ids e (fun _ => 0) v0 -> fresh (PP ce) (ce_scale ce) s ids e (fun _ => 0) b0 -> fresh (PP ce) (ce_scale ce) s ids e (rslots (ofList f0 tv)) test ->
    exists v b t st' av ab at',
      lrRun (evalOps ce orders rnd rks pk encode zero_msg) KE (2 ^ 9) (2 ^ 5) 2 20 z (v0, b0) test st = Ok ((v, b), t, st') /\
      lrRun (ERR ce ids Bs Be Dm nr Bu B ez) (errConst (TOP ce) (ce_scale ce) e' K) (2 ^ 9) (2 ^ 5) 2 20 (fa (TOP ce) (ce_scale ce) e' (rslots (ofList f0 zv))) (fa (TOP ce) (ce_scale ce) e' (fun _ => 0), fa (TOP ce) (ce_scale ce) e' (fun _ => 0)) (fa (TOP ce) (ce_scale ce) e' (rslots (ofList f0 tv))) [] = Ok ((av, ab), at', repeat 1%nat 30) /\
      learned (PP ce) s ids (2 ^ 9) (2 ^ 5) 20 (fR c0) (fR c1) (fR c3) (map fR x) nb 12 12 9 (S754_finite false 9007014574901172 (-15)) beta38 sc38 (a_e av) (a_e ab) (a_e at') v b t.
Proof. exact @float_toy. Qed.
Print Assumptions C62_lr_toy.

(** C62: lr_minibatch.go *)
Theorem C62_minibatch : forall ce g A U s r Bs Be Dm nr ids keys rks orders rnd pk (Msg : Type) (encode : poly -> Msg -> poly) (zero_msg : Msg) Bu B ez st,
  lr_setting ce g A U s r Bs Be Dm nr ids keys rks orders rnd pk encode zero_msg Bu B ez st ->
  pa_Q (PP ce) = shippedQ -> ce_scale ce = sc38 -> forall G gamma c0 c1 c3 etas feature label x e,
  pa_logN (PP ce) = 15%nat -> inputs_within G gamma c0 c1 c3 etas label -> table feature (2 ^ 11) 7 -> (2 ^ 11 <= length label)%nat -> length etas = 4%nat -> (7 <= length x)%nat ->
  let n := (2 ^ 14)%nat in let gn := (fR gamma / INR (2 ^ 9)) in let e' := e + Rabs (fR (ce_scale ce)) * const_err G in
  exists bs bf tv, exact_batches n 7 (2 ^ 11) (2 ^ 9) gamma c0 c1 c3 etas feature label = Ok bs /\ fpackBatches n 7 (2 ^ 11) (2 ^ 9) gamma c0 c1 c3 etas feature label = Ok bf /\ batches_near (const_err G) bs bf /\ testVector f0 n 7 x = Ok tv /\
    let F := fconst gamma (2 ^ 9) c0 c1 c3 etas (maskVector f0 f1 n (2 ^ 3)) (fun _ => f0) in
    let K := exact_const gamma (2 ^ 9) c0 c1 c3 etas (maskVector f0 f1 n (2 ^ 3)) (fun _ => f0) in
    let nb := nesterovAll 0 1 Rplus Rmult Rminus (fR c0) (fR c1) (fR c3) gn 7 (entry 0 (map (map fR) feature)) (entry1 0 (map fR label)) (fun a => seq (a mod 4 * 2 ^ 9) (2 ^ 9)) (map fR etas) in
    forall KE be v0 b0 test, consts_held (PP ce) (ce_scale ce) s ids e (mapConst rslots rslots F) KE -> batches_held (PP ce) (ce_scale ce) s ids e (mapBatches rslots rslots bf) be ->
      fresh (PP ce) (ce_scale ce) s ids e (fun _ => 0) v0 -> fresh (PP ce) (ce_scale ce) s ids e (fun _ => 0) b0 -> fresh (PP ce) (ce_scale ce) s ids e (rslots (ofList f0 tv)) test ->
    exists v b t st' av ab at',
      lrRunBatch (evalOps ce orders rnd rks pk encode zero_msg) KE (2 ^ 11) (2 ^ 3) be 4 7 (v0, b0) test st = Ok ((v, b), t, st') /\
      lrRunBatch (ERR ce ids Bs Be Dm nr Bu B ez) (errConst (TOP ce) (ce_scale ce) e' K) (2 ^ 11) (2 ^ 3) (mapBatches (fa (TOP ce) (ce_scale ce) e') (fp (ce_scale ce) e') bs) 4 7 (fa (TOP ce) (ce_scale ce) e' (fun _ => 0), fa (TOP ce) (ce_scale ce) e' (fun _ => 0)) (fa (TOP ce) (ce_scale ce) e' (rslots (ofList f0 tv))) [] = Ok ((av, ab), at', repeat 1%nat 56) /\
      learned (PP ce) s ids (2 ^ 11) (2 ^ 3) 7 (fR c0) (fR c1) (fR c3) (map fR x) nb 4 4 1 (S754_finite false 4503667274105103 (-14)) sc38 sc38 (a_e av) (a_e ab) (a_e at') v b t.
Proof. exact @float_mini. Qed.
Print Assumptions C62_minibatch.

(** C62: lr_minibatch_toy.go *)
Theorem C62_minibatch_toy : forall ce g A U s r Bs Be Dm nr ids keys rks orders rnd pk (Msg : Type) (encode : poly -> Msg -> poly) (zero_msg : Msg) Bu B ez st,
  lr_setting ce g A U s r Bs Be Dm nr ids keys rks orders rnd pk encode zero_msg Bu B ez st ->
  pa_Q (PP ce) = shippedQ -> ce_scale ce = sc38 -> forall G gamma c0 c1 c3 etas feature label x e,
  pa_logN (PP ce) = 15%nat -> inputs_within G gamma c0 c1 c3 etas label -> table feature (2 ^ 9) 20 -> (2 ^ 9 <= length label)%nat -> length etas = 4%nat -> (20 <= length x)%nat ->
  let n := (2 ^ 14)%nat in let gn := (fR gamma / INR (2 ^ 7)) in let e' := e + Rabs (fR (ce_scale ce)) * const_err G in
  exists bs bf tv, exact_batches n 20 (2 ^ 9) (2 ^ 7) gamma c0 c1 c3 etas feature label = Ok bs /\ fpackBatches n 20 (2 ^ 9) (2 ^ 7) gamma c0 c1 c3 etas feature label = Ok bf /\ batches_near (const_err G) bs bf /\ testVector f0 n 20 x = Ok tv /\
    let F := fconst gamma (2 ^ 7) c0 c1 c3 etas (maskVector f0 f1 n (2 ^ 5)) (fun _ => f0) in
    let K := exact_const gamma (2 ^ 7) c0 c1 c3 etas (maskVector f0 f1 n (2 ^ 5)) (fun _ => f0) in
    let nb := nesterovAll 0 1 Rplus Rmult Rminus (fR c0) (fR c1) (fR c3) gn 20 (entry 0 (map (map fR) feature)) (entry1 0 (map fR label)) (fun a => seq (a mod 4 * 2 ^ 7) (2 ^ 7)) (firstn 3 (map fR etas)) in
    forall KE be v0 b0 test, consts_held (PP ce) (ce_scale ce) s ids e (mapConst rslots rslots F) KE -> batches_held (PP ce) (ce_scale ce) s ids e (mapBatches rslots rslots bf) be ->
      fresh (PP ce) (ce_scale ce) s ids e (fun _ => 0) v0 -> fresh (PP ce) (ce_scale ce) s ids e (fun _ => 0) b0 -> fresh (PP ce) (ce_scale ce) s ids e (rslots (ofList f0 tv)) test ->
    exists v b t st' av ab at',
      lrRunBatch (evalOps ce orders rnd rks pk encode zero_msg) KE (2 ^ 9) (2 ^ 5) be 3 20 (v0, b0) test st = Ok ((v, b), t, st') /\
      lrRunBatch (ERR ce ids Bs Be Dm nr Bu B ez) (errConst (TOP ce) (ce_scale ce) e' K) (2 ^ 9) (2 ^ 5) (mapBatches (fa (TOP ce) (ce_scale ce) e') (fp (ce_scale ce) e') bs) 3 20 (fa (TOP ce) (ce_scale ce) e' (fun _ => 0), fa (TOP ce) (ce_scale ce) e' (fun _ => 0)) (fa (TOP ce) (ce_scale ce) e' (rslots (ofList f0 tv))) [] = Ok ((av, ab), at', repeat 1%nat 43) /\
      learned (PP ce) s ids (2 ^ 9) (2 ^ 5) 20 (fR c0) (fR c1) (fR c3) (map fR x) nb 8 8 5 sc38 sc38 (S754_finite false 4503707005784917 (-14)) (a_e av) (a_e ab) (a_e at') v b t.
Proof. exact @float_mini_toy. Qed.
Print Assumptions C62_minibatch_toy.

(** the values of lr.go:31-36 (lr_minibatch.go:31-36) and of lr_toy.go:31-36 as float64, with labels 0 and 1; c1/c3 is -100 in float64, not in real arithmetic *)
Example C62_case : exists gamma c0 c1 c3 etas label, inputs_within 5 gamma c0 c1 c3 etas label /\
  fR gamma = 5404319552844595 * powerRZ 2 (-54) /\ fR c0 = 1 / 2 /\ fR c3 < 0 /\ fdiv c1 c3 = f_of_Z (-100) /\ fR c1 / fR c3 <> -100 /\ length etas = 4%nat /\ length label = (2 ^ 11)%nat /\ In f0 label /\ In f1 label /\ const_err 5 < / 2 ^ 39.
Proof. exact shipped_inputs. Qed.
Example C62_case_toy : exists gamma c0 c1 c3 etas label, inputs_within 5 gamma c0 c1 c3 etas label /\ fR gamma = 3 /\ length etas = 4%nat /\ length label = (2 ^ 9)%nat.
Proof. exact shipped_inputs_toy. Qed.
