(** The encrypted programs of lr.go and lr_minibatch.go: from the data to ciphertexts of the parameters of Nesterov's method. *)
From Coq Require Import Reals String ZArith List Lia Lra Bool RealField.
From Coq.Floats Require Import SpecFloat.
From Verif Require Import Spec Go GoProofs Arith NegRing NTT F64 BasisExt RingOps Maps Params Elements KeySwitch KeySets KeyGen EncDec Evaluator Repr SpecKeys SpecCt SpecEnc SpecEv SpecRot SpecSlots LR SpecLR LRProofs LRPack LRThms LREval LRShadow LRRel SpecLREnc LREncProofs LREncThms Shipped EvWorld LRShipped.
Import ListNotations.
Local Open Scope Z_scope.

Lemma bind_inv {A B} (m : res A) (k : A -> res B) b : bind m k = Ok b -> exists a, m = Ok a /\ k a = Ok b.
Proof. destruct m; cbn; [eauto|discriminate]. Qed.
Lemma half_slots pp s : pa_logN pp = S s -> Z.of_nat (pa_N pp) / 2 = Z.of_nat (2 ^ s).
Proof.
  intros H. unfold pa_N. rewrite H. unfold deg. rewrite !Nat2Z.inj_pow. change (Z.of_nat 2) with 2. rewrite Nat2Z.inj_succ, Z.pow_succ_r by lia. rewrite Z.mul_comm. apply Z.div_mul. lia.
Qed.
Lemma sbind_run {S A B} (m : SM S A) (k : A -> SM S B) s a s' : m s = Ok (a, s') -> sbind m k s = k a s'.
Proof. intros H. unfold sbind. now rewrite H. Qed.

Section P.
Context (ce : ckenv) (g : nat -> Z) (A U : nat -> zpoly) (s r : string -> zpoly) (Bs Be Dm nr : Z) (ids : list string) (keys : rlkset) (rks : rotset).
Context (orders : nat -> order) (rnd : nat -> small * small * small) (pk : pubkey) {Msg : Type} (encode : poly -> Msg -> poly) (zero_msg : Msg) (Bu B : Z) (ez : R) (st : lrst).
Context (HS : lr_setting ce g A U s r Bs Be Dm nr ids keys rks orders rnd pk encode zero_msg Bu B ez st).
Notation pp := (e_pp (ce_env ce)).
Notation sc := (ce_scale ce).
Notation nz := (lr_noise pp (Z.of_nat (List.length ids)) Bs Be Dm nr Bu B ez).
Notation hn := (pa_N pp / 2)%nat.
Notation top := (maxLevel pp).
Notation SO := (scaleOps (pa_Q pp) top sc).
Notation EA := (errOps hn nz (pa_Q pp) top sc).
Notation EE := (evalOps ce orders rnd rks pk encode zero_msg).
Notation nb c0 c1 c3 gn nf feature label n etas := (nesterovAll 0%R 1%R Rplus Rmult Rminus c0 c1 c3 gn nf (entry 0%R feature) (entry1 0%R label) (fun _ => seq 0 n) etas).

Theorem lr_encrypted_x rr c nf numIter gamma c0 c1 c3 etas feature label x e :
  pa_logN pp = S (rr + c) -> c3 <> 0%R -> (nf <= 2 ^ c)%nat -> table feature (2 ^ rr) nf -> (2 ^ rr <= length label)%nat -> (numIter <= length etas)%nat -> (nf <= length x)%nat ->
  let n := (2 ^ rr * 2 ^ c)%nat in let gn := (gamma / INR (2 ^ rr))%R in
  exists zv yv tv, zVector 0%R n (2 ^ rr) (2 ^ c) nf feature = Ok zv /\ labelVector 0%R n (2 ^ rr) (2 ^ c) label = Ok yv /\ testVector 0%R n nf x = Ok tv /\
    let K := vconst 0%R 1%R Rmult Rminus Ropp gn c0 c3 (c1 / c3)%R etas (maskVector 0%R 1%R n (2 ^ c)) (ofList 0%R yv) in
    let nb := nb c0 c1 c3 gn nf feature label (2 ^ rr)%nat (firstn numIter etas) in
    forall KE z v0 b0 test lv sv lb sb lt st0 log, consts_held pp sc s ids e K KE -> fresh pp sc s ids e (ofList 0%R zv) z -> fresh pp sc s ids e (fun _ => 0%R) v0 -> fresh pp sc s ids e (fun _ => 0%R) b0 -> fresh pp sc s ids e (ofList 0%R tv) test ->
    lrRun SO (scaleConst top sc K) (Z.of_nat (2 ^ rr)) (Z.of_nat (2 ^ c)) numIter (Z.of_nat nf) (top, sc) ((top, sc), (top, sc)) (top, sc) [] = Ok (((lv, sv), (lb, sb)), (lt, st0), log) ->
    exists v b t st' xv xb xt av ab at',
      lrRun EE KE (Z.of_nat (2 ^ rr)) (Z.of_nat (2 ^ c)) numIter (Z.of_nat nf) z (v0, b0) test st = Ok ((v, b), t, st') /\
      lrRun (logOps EE) KE (Z.of_nat (2 ^ rr)) (Z.of_nat (2 ^ c)) numIter (Z.of_nat nf) z (v0, b0) test (st, []) = Ok ((v, b), t, (st', log)) /\
      lrRun EA (errConst top sc e K) (Z.of_nat (2 ^ rr)) (Z.of_nat (2 ^ c)) numIter (Z.of_nat nf) (fa top sc e (ofList 0%R zv)) (fa top sc e (fun _ => 0%R), fa top sc e (fun _ => 0%R)) (fa top sc e (ofList 0%R tv)) [] = Ok ((av, ab), at', log) /\
      encrypts pp s ids lv sv xv (a_e av) v /\ encrypts pp s ids lb sb xb (a_e ab) b /\ encrypts pp s ids lt st0 xt (a_e at') t /\
      (forall row j, (row < 2 ^ rr)%nat -> (j < nf)%nat -> let i := Z.of_nat (2 ^ c * row + j) in xv i = fst nb j /\ xb i = snd nb j) /\
      xt 0 = sigma3 Rplus Rmult c0 c1 c3 (dot 0%R Rplus Rmult nf (entry1 0%R x) (snd nb)) /\ (forall i, a_m at' i = xt i).
Proof.
  intros HN Hc3 Hnf Ht Hl He Hx n gn. assert (Hc13 : (c3 * (c1 / c3) = c1)%R) by (field; exact Hc3).
  assert (En : n = (2 ^ (rr + c))%nat) by (unfold n; now rewrite Nat.pow_add_r).
  destruct (lrTrain_rows 0%R 1%R Rplus Rmult Rminus Ropp RTheory rr c nf numIter gn c0 c1 c3 (c1 / c3)%R etas feature label Hc13 Hnf Ht Hl He) as (wv & wb & ET & HT). fold n in ET.
  unfold lrTrain in ET. apply bind_inv in ET as (zv & Ez & ET). apply bind_inv in ET as (yv & Ey & ET). cbv zeta in ET. apply bind_inv in ET as ([vb []] & ET & Evb). injection Evb as ->.
  assert (Hnf' : (nf <= 2 ^ (rr + c))%nat). { rewrite Nat.pow_add_r. pose proof (pow2_pos rr). nia. }
  pose proof (lrInfer_ok 0%R 1%R Rplus Rmult Rminus Ropp RTheory (rr + c) nf c0 c1 c3 (c1 / c3)%R wb x Hc13 Hnf' Hx) as EI. rewrite <- En in EI. unfold lrInfer in EI. apply bind_inv in EI as (tv & Et & EI). cbv zeta in EI. apply bind_inv in EI as ([w []] & EI & Ew).
  exists zv, yv, tv. split; [exact Ez|]. split; [exact Ey|]. split; [exact Et|]. intros K nb0 KE z v0 b0 test lv sv lb sb lt st0 log HK Hz Hv Hb Hts ES.
  destruct (run_correct ce g A U s r Bs Be Dm nr ids keys rks orders rnd pk encode zero_msg Bu B ez st HS K KE e HK _ _ _ _ _ _ _ _ _ _ _ _ _ _ _ _ _ _ _ Hz Hv Hb Hts ES) as (v & b & t & st' & xv & xb & xt & av & ab & at' & R1 & R2 & R3 & R4 & R5 & R6 & R7 & R8).
  exists v, b, t, st', xv, xb, xt, av, ab, at'. do 6 (split; [assumption|]).
  unfold lrRun, realOps in R3. rewrite (half_slots pp (rr + c) HN), <- En in R3. rewrite (sbind_run _ _ _ _ _ ET) in R3. unfold sbind in R3. cbn [snd] in R3.
  change (infer _ K (Z.of_nat nf)) with (infer (exactOps 0%R Rplus Rmult (Z.of_nat n)) (vconst 0%R 1%R Rmult Rminus Ropp 0%R c0 c3 (c1 / c3)%R [] [] (fun _ => 0%R)) (Z.of_nat nf)) in R3.
  rewrite EI in R3. cbn [bind sret] in R3. injection R3 as <- <- <-. split; [|split].
  - exact HT.
  - injection Ew as ->. f_equal. unfold dot. apply SlotThms.sum_ext. intros k Hk. destruct (HT 0%nat k (pow2_pos rr) Hk) as [_ H]. rewrite Nat.mul_0_r in H. cbn [Nat.add] in H. cbv zeta in H. now rewrite H.
  - exact R8.
Qed.

Theorem lr_encrypted rr c nf numIter gamma c0 c1 c3 etas feature label x e :
  pa_logN pp = S (rr + c) -> c3 <> 0%R -> (nf <= 2 ^ c)%nat -> table feature (2 ^ rr) nf -> (2 ^ rr <= length label)%nat -> (numIter <= length etas)%nat -> (nf <= length x)%nat ->
  let n := (2 ^ rr * 2 ^ c)%nat in let gn := (gamma / INR (2 ^ rr))%R in
  exists zv yv tv, zVector 0%R n (2 ^ rr) (2 ^ c) nf feature = Ok zv /\ labelVector 0%R n (2 ^ rr) (2 ^ c) label = Ok yv /\ testVector 0%R n nf x = Ok tv /\
    let K := vconst 0%R 1%R Rmult Rminus Ropp gn c0 c3 (c1 / c3)%R etas (maskVector 0%R 1%R n (2 ^ c)) (ofList 0%R yv) in
    let nb := nb c0 c1 c3 gn nf feature label (2 ^ rr)%nat (firstn numIter etas) in
    forall KE z v0 b0 test lv sv lb sb lt st0 log, consts_held pp sc s ids e K KE -> fresh pp sc s ids e (ofList 0%R zv) z -> fresh pp sc s ids e (fun _ => 0%R) v0 -> fresh pp sc s ids e (fun _ => 0%R) b0 -> fresh pp sc s ids e (ofList 0%R tv) test ->
    lrRun SO (scaleConst top sc K) (Z.of_nat (2 ^ rr)) (Z.of_nat (2 ^ c)) numIter (Z.of_nat nf) (top, sc) ((top, sc), (top, sc)) (top, sc) [] = Ok (((lv, sv), (lb, sb)), (lt, st0), log) ->
    exists v b t st' xv xb xt av ab at',
      lrRun EE KE (Z.of_nat (2 ^ rr)) (Z.of_nat (2 ^ c)) numIter (Z.of_nat nf) z (v0, b0) test st = Ok ((v, b), t, st') /\
      lrRun (logOps EE) KE (Z.of_nat (2 ^ rr)) (Z.of_nat (2 ^ c)) numIter (Z.of_nat nf) z (v0, b0) test (st, []) = Ok ((v, b), t, (st', log)) /\
      lrRun EA (errConst top sc e K) (Z.of_nat (2 ^ rr)) (Z.of_nat (2 ^ c)) numIter (Z.of_nat nf) (fa top sc e (ofList 0%R zv)) (fa top sc e (fun _ => 0%R), fa top sc e (fun _ => 0%R)) (fa top sc e (ofList 0%R tv)) [] = Ok ((av, ab), at', log) /\
      encrypts pp s ids lv sv xv (a_e av) v /\ encrypts pp s ids lb sb xb (a_e ab) b /\ encrypts pp s ids lt st0 xt (a_e at') t /\
      (forall row j, (row < 2 ^ rr)%nat -> (j < nf)%nat -> let i := Z.of_nat (2 ^ c * row + j) in xv i = fst nb j /\ xb i = snd nb j) /\
      xt 0 = sigma3 Rplus Rmult c0 c1 c3 (dot 0%R Rplus Rmult nf (entry1 0%R x) (snd nb)).
Proof.
  intros HN Hc3 Hnf Ht Hl He Hx n gn. destruct (lr_encrypted_x rr c nf numIter gamma c0 c1 c3 etas feature label x e HN Hc3 Hnf Ht Hl He Hx) as (zv & yv & tv & E1 & E2 & E3 & H).
  exists zv, yv, tv. split; [exact E1|]. split; [exact E2|]. split; [exact E3|]. intros K nb0 KE z v0 b0 test lv sv lb sb lt st0 log HK Hz Hv Hb Hts ES.
  destruct (H KE z v0 b0 test lv sv lb sb lt st0 log HK Hz Hv Hb Hts ES) as (v & b & t & st' & xv & xb & xt & av & ab & at' & R1 & R2 & R3 & R4 & R5 & R6 & R7 & R8 & _).
  exists v, b, t, st', xv, xb, xt, av, ab, at'. do 7 (split; [assumption|]). exact R8.
Qed.

Theorem lr_batch_encrypted_x sl nf batchSize numTrain numIter gn c0 c1 c3 etas feature label x e :
  pa_logN pp = S sl -> c3 <> 0%R -> (Nat.log2_up nf <= sl)%nat -> (0 < batchSize <= numTrain)%nat -> (batchSize < 2 ^ (sl - Nat.log2_up nf))%nat \/ Nat.divide (2 ^ (sl - Nat.log2_up nf)) batchSize ->
  table feature numTrain nf -> (numTrain <= length label)%nat -> (numIter <= length etas)%nat -> (nf <= length x)%nat ->
  let c := Nat.log2_up nf in let n := (2 ^ sl)%nat in
  exists bs tv, packBatches 0%R 1%R Rmult Rminus Ropp n nf numTrain batchSize gn c0 c3 (c1 / c3)%R etas feature label = Ok bs /\ testVector 0%R n nf x = Ok tv /\
    let K := vconst 0%R 1%R Rmult Rminus Ropp gn c0 c3 (c1 / c3)%R etas (maskVector 0%R 1%R n (2 ^ c)) (fun _ => 0%R) in
    let nb := nesterovAll 0%R 1%R Rplus Rmult Rminus c0 c1 c3 gn nf (entry 0%R feature) (entry1 0%R label) (fun a => seq (a mod (numTrain / batchSize) * batchSize) batchSize) (firstn numIter etas) in
    let rows := Z.of_nat (2 ^ (sl - c)) in let cols := Z.of_nat (2 ^ c) in
    forall KE be v0 b0 test lv sv lb sb lt st0 log, consts_held pp sc s ids e K KE -> batches_held pp sc s ids e bs be -> fresh pp sc s ids e (fun _ => 0%R) v0 -> fresh pp sc s ids e (fun _ => 0%R) b0 -> fresh pp sc s ids e (ofList 0%R tv) test ->
    lrRunBatch SO (scaleConst top sc K) rows cols (mapBatches (fun _ => (top, sc)) (fun _ => sc) bs) numIter (Z.of_nat nf) ((top, sc), (top, sc)) (top, sc) [] = Ok (((lv, sv), (lb, sb)), (lt, st0), log) ->
    exists v b t st' xv xb xt av ab at',
      lrRunBatch EE KE rows cols be numIter (Z.of_nat nf) (v0, b0) test st = Ok ((v, b), t, st') /\
      lrRunBatch (logOps EE) KE rows cols be numIter (Z.of_nat nf) (v0, b0) test (st, []) = Ok ((v, b), t, (st', log)) /\
      lrRunBatch EA (errConst top sc e K) rows cols (mapBatches (fa top sc e) (fp sc e) bs) numIter (Z.of_nat nf) (fa top sc e (fun _ => 0%R), fa top sc e (fun _ => 0%R)) (fa top sc e (ofList 0%R tv)) [] = Ok ((av, ab), at', log) /\
      encrypts pp s ids lv sv xv (a_e av) v /\ encrypts pp s ids lb sb xb (a_e ab) b /\ encrypts pp s ids lt st0 xt (a_e at') t /\
      (forall row j, (row < 2 ^ (sl - c))%nat -> (j < nf)%nat -> let i := Z.of_nat (2 ^ c * row + j) in xv i = fst nb j /\ xb i = snd nb j) /\
      xt 0 = sigma3 Rplus Rmult c0 c1 c3 (dot 0%R Rplus Rmult nf (entry1 0%R x) (snd nb)) /\ (forall i, a_m at' i = xt i).
Proof.
  intros HN Hc3 Hs Hb0 Hd Ht Hl He Hx c n. assert (Hc13 : (c3 * (c1 / c3) = c1)%R) by (field; exact Hc3).
  destruct (lrTrainBatch_exact 0%R 1%R Rplus Rmult Rminus Ropp RTheory sl nf batchSize numTrain numIter gn c0 c1 c3 (c1 / c3)%R etas feature label Hc13 Hs Hb0 Hd Ht Hl He) as (wv & wb & ET & HT). fold n c in ET, HT.
  unfold lrTrainBatch in ET. apply bind_inv in ET as (bs & Eb & ET). cbv zeta in ET. apply bind_inv in ET as ([vb []] & ET & Evb). injection Evb as ->.
  assert (Hnc : (nf <= 2 ^ c)%nat). { unfold c. destruct nf as [|[|m]]; [cbn; lia|cbn; lia|]. pose proof (Nat.log2_up_spec (S (S m)) ltac:(lia)). lia. }
  assert (Hnf' : (nf <= n)%nat). { eapply Nat.le_trans; [exact Hnc|]. apply Nat.pow_le_mono_r; [lia|exact Hs]. }
  pose proof (lrInfer_ok 0%R 1%R Rplus Rmult Rminus Ropp RTheory sl nf c0 c1 c3 (c1 / c3)%R wb x Hc13 Hnf' Hx) as EI. fold n in EI. unfold lrInfer in EI. apply bind_inv in EI as (tv & Et & EI). cbv zeta in EI. apply bind_inv in EI as ([w []] & EI & Ew).
  exists bs, tv. split; [exact Eb|]. split; [exact Et|]. intros K nb0 rows cols KE be v0 b0 test lv sv lb sb lt st0 log HK Hz Hv Hb Hts ES.
  destruct (run_batch_correct ce g A U s r Bs Be Dm nr ids keys rks orders rnd pk encode zero_msg Bu B ez st HS K KE e HK _ _ _ _ _ _ _ _ _ _ _ _ _ _ _ _ _ _ _ Hz Hv Hb Hts ES) as (v & b & t & st' & xv & xb & xt & av & ab & at' & R1 & R2 & R3 & R4 & R5 & R6 & R7 & R8).
  exists v, b, t, st', xv, xb, xt, av, ab, at'. do 6 (split; [assumption|]).
  assert (Er : Z.of_nat (numDataPerCt n nf) = rows). { unfold numDataPerCt, rows, n. rewrite Nat.log2_pow2 by lia. reflexivity. }
  rewrite Er in ET. change (slotsPerData nf) with (2 ^ c)%nat in ET. fold cols in ET.
  unfold lrRunBatch, realOps in R3. rewrite (half_slots pp sl HN) in R3. fold n in R3. rewrite (sbind_run _ _ _ _ _ ET) in R3. unfold sbind in R3. cbn [snd] in R3.
  change (infer _ K (Z.of_nat nf)) with (infer (exactOps 0%R Rplus Rmult (Z.of_nat n)) (vconst 0%R 1%R Rmult Rminus Ropp 0%R c0 c3 (c1 / c3)%R [] [] (fun _ => 0%R)) (Z.of_nat nf)) in R3.
  rewrite EI in R3. cbn [bind sret] in R3. injection R3 as <- <- <-. split; [|split].
  - exact HT.
  - injection Ew as ->. f_equal. unfold dot. apply SlotThms.sum_ext. intros k Hk. destruct (HT 0%nat k (pow2_pos _) Hk) as [_ H]. rewrite Nat.mul_0_r in H. cbn [Nat.add] in H. cbv zeta in H. now rewrite H.
  - exact R8.
Qed.
Theorem lr_batch_encrypted sl nf batchSize numTrain numIter gn c0 c1 c3 etas feature label x e :
  pa_logN pp = S sl -> c3 <> 0%R -> (Nat.log2_up nf <= sl)%nat -> (0 < batchSize <= numTrain)%nat -> (batchSize < 2 ^ (sl - Nat.log2_up nf))%nat \/ Nat.divide (2 ^ (sl - Nat.log2_up nf)) batchSize ->
  table feature numTrain nf -> (numTrain <= length label)%nat -> (numIter <= length etas)%nat -> (nf <= length x)%nat ->
  let c := Nat.log2_up nf in let n := (2 ^ sl)%nat in
  exists bs tv, packBatches 0%R 1%R Rmult Rminus Ropp n nf numTrain batchSize gn c0 c3 (c1 / c3)%R etas feature label = Ok bs /\ testVector 0%R n nf x = Ok tv /\
    let K := vconst 0%R 1%R Rmult Rminus Ropp gn c0 c3 (c1 / c3)%R etas (maskVector 0%R 1%R n (2 ^ c)) (fun _ => 0%R) in
    let nb := nesterovAll 0%R 1%R Rplus Rmult Rminus c0 c1 c3 gn nf (entry 0%R feature) (entry1 0%R label) (fun a => seq (a mod (numTrain / batchSize) * batchSize) batchSize) (firstn numIter etas) in
    let rows := Z.of_nat (2 ^ (sl - c)) in let cols := Z.of_nat (2 ^ c) in
    forall KE be v0 b0 test lv sv lb sb lt st0 log, consts_held pp sc s ids e K KE -> batches_held pp sc s ids e bs be -> fresh pp sc s ids e (fun _ => 0%R) v0 -> fresh pp sc s ids e (fun _ => 0%R) b0 -> fresh pp sc s ids e (ofList 0%R tv) test ->
    lrRunBatch SO (scaleConst top sc K) rows cols (mapBatches (fun _ => (top, sc)) (fun _ => sc) bs) numIter (Z.of_nat nf) ((top, sc), (top, sc)) (top, sc) [] = Ok (((lv, sv), (lb, sb)), (lt, st0), log) ->
    exists v b t st' xv xb xt av ab at',
      lrRunBatch EE KE rows cols be numIter (Z.of_nat nf) (v0, b0) test st = Ok ((v, b), t, st') /\
      lrRunBatch (logOps EE) KE rows cols be numIter (Z.of_nat nf) (v0, b0) test (st, []) = Ok ((v, b), t, (st', log)) /\
      lrRunBatch EA (errConst top sc e K) rows cols (mapBatches (fa top sc e) (fp sc e) bs) numIter (Z.of_nat nf) (fa top sc e (fun _ => 0%R), fa top sc e (fun _ => 0%R)) (fa top sc e (ofList 0%R tv)) [] = Ok ((av, ab), at', log) /\
      encrypts pp s ids lv sv xv (a_e av) v /\ encrypts pp s ids lb sb xb (a_e ab) b /\ encrypts pp s ids lt st0 xt (a_e at') t /\
      (forall row j, (row < 2 ^ (sl - c))%nat -> (j < nf)%nat -> let i := Z.of_nat (2 ^ c * row + j) in xv i = fst nb j /\ xb i = snd nb j) /\
      xt 0 = sigma3 Rplus Rmult c0 c1 c3 (dot 0%R Rplus Rmult nf (entry1 0%R x) (snd nb)).
Proof.
  intros HN Hc3 Hs Hb0 Hd Ht Hl He Hx c n. destruct (lr_batch_encrypted_x sl nf batchSize numTrain numIter gn c0 c1 c3 etas feature label x e HN Hc3 Hs Hb0 Hd Ht Hl He Hx) as (bs & tv & E1 & E2 & H).
  exists bs, tv. split; [exact E1|]. split; [exact E2|]. intros K nb0 rows cols KE be v0 b0 test lv sv lb sb lt st0 log HK Hz Hv Hb Hts ES.
  destruct (H KE be v0 b0 test lv sv lb sb lt st0 log HK Hz Hv Hb Hts ES) as (v & b & t & st' & xv & xb & xt & av & ab & at' & R1 & R2 & R3 & R4 & R5 & R6 & R7 & R8 & _).
  exists v, b, t, st', xv, xb, xt, av, ab, at'. do 7 (split; [assumption|]). exact R8.
Qed.
End P.
