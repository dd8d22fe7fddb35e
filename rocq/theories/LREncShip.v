(** The four encrypted programs on the shipped parameters. *)
From Coq Require Import Reals String ZArith List Lia Lra Bool RealField.
From Coq.Floats Require Import SpecFloat.
From Verif Require Import Spec Go GoProofs Arith NegRing NTT F64 BasisExt RingOps Maps Params Elements KeySwitch KeySets KeyGen EncDec Evaluator Repr SpecKeys SpecCt SpecEnc SpecEv SpecRot SpecSlots LR SpecLR LRProofs LRPack LRThms LREval LRShadow LRRel SpecLREnc LREncProofs LREncThms Shipped EvWorld LRShipped LREncLR.
Import ListNotations.
Local Open Scope Z_scope.

Lemma mapM_len {A B} (f : A -> res B) l r : mapM f l = Ok r -> length r = length l.
Proof. revert r; induction l as [|a l IH]; cbn [mapM]; intros r H; [now injection H as <-|]. apply bind_inv in H as (b & _ & H). apply bind_inv in H as (r' & E & H). injection H as <-. cbn [length]. f_equal. auto. Qed.
Lemma mapM_all {A B} (P : B -> Prop) (f : A -> res B) l r : (forall a b, f a = Ok b -> P b) -> mapM f l = Ok r -> Forall P r.
Proof. intros HP. revert r; induction l as [|a l IH]; cbn [mapM]; intros r H; [injection H as <-; constructor|]. apply bind_inv in H as (b & Eb & H). apply bind_inv in H as (r' & E & H). injection H as <-. constructor; eauto. Qed.
Lemma map_all {A B} (f : A -> B) b l : Forall (fun a => f a = b) l -> map f l = repeat b (length l).
Proof. induction 1; cbn; congruence. Qed.
Lemma vconst_len gn c0 c3 c13 etas mask y : lists_len (vconst 0%R 1%R Rmult Rminus Ropp gn c0 c3 c13 etas mask y) (length etas).
Proof. repeat split; apply map_length. Qed.
Lemma batches_shape n nf numTrain batchSize gn c0 c3 c13 etas feature label bs (t0 : nat * f64) (s0 : f64) :
  packBatches 0%R 1%R Rmult Rminus Ropp n nf numTrain batchSize gn c0 c3 c13 etas feature label = Ok bs ->
  mapBatches (fun _ => t0) (fun _ => s0) bs = repeat (repeat (t0, s0, repeat s0 (length etas)) (numCtPerBatch n nf batchSize)) (numTrain / batchSize).
Proof.
  intros H. unfold packBatches in H. cbv zeta in H. unfold mapBatches. rewrite (map_all _ (repeat (t0, s0, repeat s0 (length etas)) (numCtPerBatch n nf batchSize))).
  - now rewrite (mapM_len _ _ _ H), seq_length.
  - revert H. apply mapM_all. intros b r Hb. rewrite (map_all _ (t0, s0, repeat s0 (length etas))).
    + now rewrite (mapM_len _ _ _ Hb), seq_length.
    + revert Hb. apply mapM_all. intros i x Hx. apply bind_inv in Hx as (z & _ & Hx). apply bind_inv in Hx as (y & _ & Hx). injection Hx as <-. cbn [fst snd]. f_equal. cbn [vconst k_2]. now rewrite map_const, map_length.
Qed.

Section P.
Context (ce : ckenv) (g : nat -> Z) (A U : nat -> zpoly) (s r : string -> zpoly) (Bs Be Dm nr : Z) (ids : list string) (keys : rlkset) (rks : rotset).
Context (orders : nat -> order) (rnd : nat -> small * small * small) (pk : pubkey) {Msg : Type} (encode : poly -> Msg -> poly) (zero_msg : Msg) (Bu B : Z) (ez : R) (st : lrst).
Context (HS : lr_setting ce g A U s r Bs Be Dm nr ids keys rks orders rnd pk encode zero_msg Bu B ez st).
Notation pp := (e_pp (ce_env ce)).
Notation sc := (ce_scale ce).
Notation top := (maxLevel pp).
Context (HQ : pa_Q pp = shippedQ) (Hsc : sc = sc38).
Lemma top20 : top = 20%nat. Proof. unfold maxLevel, QCount. rewrite HQ. reflexivity. Qed.
Notation SO := (scaleOps (pa_Q pp) top sc).
Notation t0 := (top, sc).
Lemma ship_run K numIter rows cols nf res : lists_len K numIter ->
  lrRun (scaleOps shippedQ 20 sc38) (KC 20 sc38 numIter) rows cols numIter nf (20%nat, sc38) ((20%nat, sc38), (20%nat, sc38)) (20%nat, sc38) [] = Ok res ->
  lrRun SO (@scaleConst (Z -> R) (Z -> R) top sc K) rows cols numIter nf t0 (t0, t0) t0 [] = Ok res.
Proof. intros HK H. rewrite HQ, Hsc, top20, (scaleConst_len K 20 sc38 numIter HK). exact H. Qed.
Lemma ship_run_batch K ne numIter rows cols nf bs n nct res : lists_len K ne -> mapBatches (fun _ => t0) (fun _ => sc) bs = repeat (repeat (t0, sc, repeat sc ne) nct) n ->
  lrRunBatch (scaleOps shippedQ 20 sc38) (KC 20 sc38 ne) rows cols (repeat (repeat (20%nat, sc38, sc38, repeat sc38 ne) nct) n) numIter nf ((20%nat, sc38), (20%nat, sc38)) (20%nat, sc38) [] = Ok res ->
  lrRunBatch SO (@scaleConst (Z -> R) (Z -> R) top sc K) rows cols (@mapBatches (Z -> R) (Z -> R) _ _ (fun _ => t0) (fun _ => sc) bs) numIter nf (t0, t0) t0 [] = Ok res.
Proof. intros HK HB H. rewrite HB. rewrite HQ, Hsc, top20, (scaleConst_len K 20 sc38 ne HK). exact H. Qed.
Notation nz := (lr_noise pp (Z.of_nat (List.length ids)) Bs Be Dm nr Bu B ez).
Notation hn := (pa_N pp / 2)%nat.
Notation EA := (errOps hn nz (pa_Q pp) top sc).
Notation EE := (evalOps ce orders rnd rks pk encode zero_msg).
Notation held0 e m c := (fresh pp sc s ids e m c).
Lemma lr_gen rr c nf numIter gamma c0 c1 c3 etas feature label x e lv sv lb sb lt st0 log :
  pa_logN pp = S (rr + c) -> c3 <> 0%R -> (nf <= 2 ^ c)%nat -> table feature (2 ^ rr) nf -> (2 ^ rr <= length label)%nat -> length etas = numIter -> (nf <= length x)%nat ->
  lrRun (scaleOps shippedQ 20 sc38) (KC 20 sc38 numIter) (Z.of_nat (2 ^ rr)) (Z.of_nat (2 ^ c)) numIter (Z.of_nat nf) (20%nat, sc38) ((20%nat, sc38), (20%nat, sc38)) (20%nat, sc38) [] = Ok (((lv, sv), (lb, sb)), (lt, st0), log) ->
  let n := (2 ^ rr * 2 ^ c)%nat in let gn := (gamma / INR (2 ^ rr))%R in
  exists zv yv tv, zVector 0%R n (2 ^ rr) (2 ^ c) nf feature = Ok zv /\ labelVector 0%R n (2 ^ rr) (2 ^ c) label = Ok yv /\ testVector 0%R n nf x = Ok tv /\
    let K := vconst 0%R 1%R Rmult Rminus Ropp gn c0 c3 (c1 / c3)%R etas (maskVector 0%R 1%R n (2 ^ c)) (ofList 0%R yv) in
    let nb := nesterovAll 0%R 1%R Rplus Rmult Rminus c0 c1 c3 gn nf (entry 0%R feature) (entry1 0%R label) (fun _ => seq 0 (2 ^ rr)) etas in
    forall KE z v0 b0 test, consts_held pp sc s ids e K KE -> held0 e (ofList 0%R zv) z -> held0 e (fun _ => 0%R) v0 -> held0 e (fun _ => 0%R) b0 -> held0 e (ofList 0%R tv) test ->
    exists v b t st' av ab at',
      lrRun EE KE (Z.of_nat (2 ^ rr)) (Z.of_nat (2 ^ c)) numIter (Z.of_nat nf) z (v0, b0) test st = Ok ((v, b), t, st') /\
      lrRun (logOps EE) KE (Z.of_nat (2 ^ rr)) (Z.of_nat (2 ^ c)) numIter (Z.of_nat nf) z (v0, b0) test (st, []) = Ok ((v, b), t, (st', log)) /\
      lrRun EA (errConst top sc e K) (Z.of_nat (2 ^ rr)) (Z.of_nat (2 ^ c)) numIter (Z.of_nat nf) (fa top sc e (ofList 0%R zv)) (fa top sc e (fun _ => 0%R), fa top sc e (fun _ => 0%R)) (fa top sc e (ofList 0%R tv)) [] = Ok ((av, ab), at', log) /\
      learned pp s ids (2 ^ rr) (2 ^ c) nf c0 c1 c3 x nb lv lb lt sv sb st0 (a_e av) (a_e ab) (a_e at') v b t.
Proof.
  intros HN Hc3 Hnf Ht Hl He Hx ES n gn.
  destruct (lr_encrypted ce g A U s r Bs Be Dm nr ids keys rks orders rnd pk encode zero_msg Bu B ez st HS rr c nf numIter gamma c0 c1 c3 etas feature label x e HN Hc3 Hnf Ht Hl ltac:(lia) Hx) as (zv & yv & tv & E1 & E2 & E3 & H). fold n gn in E1, E2, E3, H.
  exists zv, yv, tv. do 3 (split; [assumption|]). intros K nb KE z v0 b0 test HK Hz Hv Hb Hte.
  assert (HLn : lists_len K numIter) by (rewrite <- He; apply vconst_len).
  destruct (H KE z v0 b0 test _ _ _ _ _ _ _ HK Hz Hv Hb Hte (ship_run K numIter _ _ _ _ HLn ES)) as (v & b & t & st' & xv & xb & xt & av & ab & at' & R1 & R2 & R3 & R4 & R5 & R6 & R7 & R8).
  exists v, b, t, st', av, ab, at'. do 3 (split; [assumption|]). exists xv, xb, xt. do 3 (split; [assumption|]).
  assert (EF : firstn numIter etas = etas) by (rewrite <- He; apply firstn_all). rewrite EF in R7, R8. split; assumption.
Qed.
Lemma batch_gen sl nf batchSize numTrain ne numIter gn c0 c1 c3 etas feature label x e lv sv lb sb lt st0 log :
  pa_logN pp = S sl -> c3 <> 0%R -> (Nat.log2_up nf <= sl)%nat -> (0 < batchSize <= numTrain)%nat -> (batchSize < 2 ^ (sl - Nat.log2_up nf))%nat ->
  table feature numTrain nf -> (numTrain <= length label)%nat -> length etas = ne -> (numIter <= ne)%nat -> (nf <= length x)%nat ->
  let c := Nat.log2_up nf in let n := (2 ^ sl)%nat in
  lrRunBatch (scaleOps shippedQ 20 sc38) (KC 20 sc38 ne) (Z.of_nat (2 ^ (sl - c))) (Z.of_nat (2 ^ c)) (repeat [(20%nat, sc38, sc38, repeat sc38 ne)] (numTrain / batchSize)) numIter (Z.of_nat nf) ((20%nat, sc38), (20%nat, sc38)) (20%nat, sc38) [] = Ok (((lv, sv), (lb, sb)), (lt, st0), log) ->
  exists bs tv, packBatches 0%R 1%R Rmult Rminus Ropp n nf numTrain batchSize gn c0 c3 (c1 / c3)%R etas feature label = Ok bs /\ testVector 0%R n nf x = Ok tv /\
    let K := vconst 0%R 1%R Rmult Rminus Ropp gn c0 c3 (c1 / c3)%R etas (maskVector 0%R 1%R n (2 ^ c)) (fun _ => 0%R) in
    let nb := nesterovAll 0%R 1%R Rplus Rmult Rminus c0 c1 c3 gn nf (entry 0%R feature) (entry1 0%R label) (fun a => seq (a mod (numTrain / batchSize) * batchSize) batchSize) (firstn numIter etas) in
    let rows := Z.of_nat (2 ^ (sl - c)) in let cols := Z.of_nat (2 ^ c) in
    forall KE be v0 b0 test, consts_held pp sc s ids e K KE -> batches_held pp sc s ids e bs be -> held0 e (fun _ => 0%R) v0 -> held0 e (fun _ => 0%R) b0 -> held0 e (ofList 0%R tv) test ->
    exists v b t st' av ab at',
      lrRunBatch EE KE rows cols be numIter (Z.of_nat nf) (v0, b0) test st = Ok ((v, b), t, st') /\
      lrRunBatch (logOps EE) KE rows cols be numIter (Z.of_nat nf) (v0, b0) test (st, []) = Ok ((v, b), t, (st', log)) /\
      lrRunBatch EA (errConst top sc e K) rows cols (mapBatches (fa top sc e) (fp sc e) bs) numIter (Z.of_nat nf) (fa top sc e (fun _ => 0%R), fa top sc e (fun _ => 0%R)) (fa top sc e (ofList 0%R tv)) [] = Ok ((av, ab), at', log) /\
      learned pp s ids (2 ^ (sl - c)) (2 ^ c) nf c0 c1 c3 x nb lv lb lt sv sb st0 (a_e av) (a_e ab) (a_e at') v b t.
Proof.
  intros HN Hc3 Hs Hb0 Hd Ht Hl He Hne Hx c n ES.
  destruct (lr_batch_encrypted ce g A U s r Bs Be Dm nr ids keys rks orders rnd pk encode zero_msg Bu B ez st HS sl nf batchSize numTrain numIter gn c0 c1 c3 etas feature label x e HN Hc3 Hs Hb0 (or_introl Hd) Ht Hl ltac:(lia) Hx) as (bs & tv & E1 & E3 & H). fold c n in E1, E3, H.
  exists bs, tv. do 2 (split; [assumption|]). intros K nb rows cols KE be v0 b0 test HK Hz Hv Hb Hte.
  assert (HLn : lists_len K ne) by (rewrite <- He; apply vconst_len).
  assert (Hn1 : numCtPerBatch n nf batchSize = 1%nat).
  { unfold numCtPerBatch, numDataPerCt, n. rewrite Nat.log2_pow2 by lia. fold c. fold c in Hd. set (d := (2 ^ (sl - c))%nat) in *. symmetry. apply (Nat.div_unique _ d 1 (batchSize - 1)); lia. }
  pose proof (batches_shape n nf numTrain batchSize gn c0 c3 (c1 / c3)%R etas feature label bs (top, sc) sc E1) as HSh. rewrite Hn1, He in HSh.
  destruct (H KE be v0 b0 test _ _ _ _ _ _ _ HK Hz Hv Hb Hte (ship_run_batch K ne numIter rows cols (Z.of_nat nf) bs _ 1 _ HLn HSh ES)) as (v & b & t & st' & xv & xb & xt & av & ab & at' & R1 & R2 & R3 & R4 & R5 & R6 & R7 & R8).
  exists v, b, t, st', av, ab, at'. do 3 (split; [assumption|]). exists xv, xb, xt. do 3 (split; [assumption|]).
  split; assumption.
Qed.
Lemma shipped_lr gamma c0 c1 c3 etas feature label x e :
  pa_logN pp = 15%nat -> c3 <> 0%R -> table feature (2 ^ 11) 7 -> (2 ^ 11 <= length label)%nat -> length etas = 4%nat -> (7 <= length x)%nat ->
  let n := (2 ^ 11 * 2 ^ 3)%nat in let gn := (gamma / INR (2 ^ 11))%R in
  exists zv yv tv, zVector 0%R n (2 ^ 11) (2 ^ 3) 7 feature = Ok zv /\ labelVector 0%R n (2 ^ 11) (2 ^ 3) label = Ok yv /\ testVector 0%R n 7 x = Ok tv /\
    let K := vconst 0%R 1%R Rmult Rminus Ropp gn c0 c3 (c1 / c3)%R etas (maskVector 0%R 1%R n (2 ^ 3)) (ofList 0%R yv) in
    let nb := nesterovAll 0%R 1%R Rplus Rmult Rminus c0 c1 c3 gn 7 (entry 0%R feature) (entry1 0%R label) (fun _ => seq 0 (2 ^ 11)) etas in
    forall KE z v0 b0 test, consts_held pp sc s ids e K KE -> held0 e (ofList 0%R zv) z -> held0 e (fun _ => 0%R) v0 -> held0 e (fun _ => 0%R) b0 -> held0 e (ofList 0%R tv) test ->
    exists v b t st' av ab at',
      lrRun EE KE (2 ^ 11) (2 ^ 3) 4 7 z (v0, b0) test st = Ok ((v, b), t, st') /\
      lrRun (logOps EE) KE (2 ^ 11) (2 ^ 3) 4 7 z (v0, b0) test (st, []) = Ok ((v, b), t, (st', repeat 1%nat 56)) /\
      lrRun EA (errConst top sc e K) (2 ^ 11) (2 ^ 3) 4 7 (fa top sc e (ofList 0%R zv)) (fa top sc e (fun _ => 0%R), fa top sc e (fun _ => 0%R)) (fa top sc e (ofList 0%R tv)) [] = Ok ((av, ab), at', repeat 1%nat 56) /\
      learned pp s ids (2 ^ 11) (2 ^ 3) 7 c0 c1 c3 x nb 4 4 1 (S754_finite false 9007149865596385 (-15)) beta38 sc38 (a_e av) (a_e ab) (a_e at') v b t.
Proof.
  intros HN Hc3 Ht Hl He Hx.
  assert (Er : Z.of_nat (2 ^ 11) = 2 ^ 11) by (now rewrite Nat2Z.inj_pow). assert (Ec : Z.of_nat (2 ^ 3) = 2 ^ 3) by (now rewrite Nat2Z.inj_pow).
  pose proof (lr_gen 11 3 7 4 gamma c0 c1 c3 etas feature label x e 4 (S754_finite false 9007149865596385 (-15)) 4 beta38 1 sc38 (repeat 1%nat 56) HN Hc3) as H.
  rewrite Er, Ec in H. change (Z.of_nat 7) with 7 in H. apply H; [cbn; lia|exact Ht|exact Hl|exact He|exact Hx|exact run_lr].
Qed.
Lemma shipped_toy gamma c0 c1 c3 etas feature label x e :
  pa_logN pp = 15%nat -> c3 <> 0%R -> table feature (2 ^ 9) 20 -> (2 ^ 9 <= length label)%nat -> length etas = 2%nat -> (20 <= length x)%nat ->
  let n := (2 ^ 9 * 2 ^ 5)%nat in let gn := (gamma / INR (2 ^ 9))%R in
  exists zv yv tv, zVector 0%R n (2 ^ 9) (2 ^ 5) 20 feature = Ok zv /\ labelVector 0%R n (2 ^ 9) (2 ^ 5) label = Ok yv /\ testVector 0%R n 20 x = Ok tv /\
    let K := vconst 0%R 1%R Rmult Rminus Ropp gn c0 c3 (c1 / c3)%R etas (maskVector 0%R 1%R n (2 ^ 5)) (ofList 0%R yv) in
    let nb := nesterovAll 0%R 1%R Rplus Rmult Rminus c0 c1 c3 gn 20 (entry 0%R feature) (entry1 0%R label) (fun _ => seq 0 (2 ^ 9)) etas in
    forall KE z v0 b0 test, consts_held pp sc s ids e K KE -> held0 e (ofList 0%R zv) z -> held0 e (fun _ => 0%R) v0 -> held0 e (fun _ => 0%R) b0 -> held0 e (ofList 0%R tv) test ->
    exists v b t st' av ab at',
      lrRun EE KE (2 ^ 9) (2 ^ 5) 2 20 z (v0, b0) test st = Ok ((v, b), t, st') /\
      lrRun (logOps EE) KE (2 ^ 9) (2 ^ 5) 2 20 z (v0, b0) test (st, []) = Ok ((v, b), t, (st', repeat 1%nat 30)) /\
      lrRun EA (errConst top sc e K) (2 ^ 9) (2 ^ 5) 2 20 (fa top sc e (ofList 0%R zv)) (fa top sc e (fun _ => 0%R), fa top sc e (fun _ => 0%R)) (fa top sc e (ofList 0%R tv)) [] = Ok ((av, ab), at', repeat 1%nat 30) /\
      learned pp s ids (2 ^ 9) (2 ^ 5) 20 c0 c1 c3 x nb 12 12 9 (S754_finite false 9007014574901172 (-15)) beta38 sc38 (a_e av) (a_e ab) (a_e at') v b t.
Proof.
  intros HN Hc3 Ht Hl He Hx.
  assert (Er : Z.of_nat (2 ^ 9) = 2 ^ 9) by (now rewrite Nat2Z.inj_pow). assert (Ec : Z.of_nat (2 ^ 5) = 2 ^ 5) by (now rewrite Nat2Z.inj_pow).
  pose proof (lr_gen 9 5 20 2 gamma c0 c1 c3 etas feature label x e 12 (S754_finite false 9007014574901172 (-15)) 12 beta38 9 sc38 (repeat 1%nat 30) HN Hc3) as H.
  rewrite Er, Ec in H. change (Z.of_nat 20) with 20 in H. apply H; [cbn; lia|exact Ht|exact Hl|exact He|exact Hx|exact run_toy].
Qed.
Lemma shipped_mini gn c0 c1 c3 etas feature label x e :
  pa_logN pp = 15%nat -> c3 <> 0%R -> table feature (2 ^ 11) 7 -> (2 ^ 11 <= length label)%nat -> length etas = 4%nat -> (7 <= length x)%nat ->
  let n := (2 ^ 14)%nat in
  exists bs tv, packBatches 0%R 1%R Rmult Rminus Ropp n 7 (2 ^ 11) (2 ^ 9) gn c0 c3 (c1 / c3)%R etas feature label = Ok bs /\ testVector 0%R n 7 x = Ok tv /\
    let K := vconst 0%R 1%R Rmult Rminus Ropp gn c0 c3 (c1 / c3)%R etas (maskVector 0%R 1%R n (2 ^ 3)) (fun _ => 0%R) in
    let nb := nesterovAll 0%R 1%R Rplus Rmult Rminus c0 c1 c3 gn 7 (entry 0%R feature) (entry1 0%R label) (fun a => seq (a mod 4 * 2 ^ 9) (2 ^ 9)) etas in
    forall KE be v0 b0 test, consts_held pp sc s ids e K KE -> batches_held pp sc s ids e bs be -> held0 e (fun _ => 0%R) v0 -> held0 e (fun _ => 0%R) b0 -> held0 e (ofList 0%R tv) test ->
    exists v b t st' av ab at',
      lrRunBatch EE KE (2 ^ 11) (2 ^ 3) be 4 7 (v0, b0) test st = Ok ((v, b), t, st') /\
      lrRunBatch (logOps EE) KE (2 ^ 11) (2 ^ 3) be 4 7 (v0, b0) test (st, []) = Ok ((v, b), t, (st', repeat 1%nat 56)) /\
      lrRunBatch EA (errConst top sc e K) (2 ^ 11) (2 ^ 3) (mapBatches (fa top sc e) (fp sc e) bs) 4 7 (fa top sc e (fun _ => 0%R), fa top sc e (fun _ => 0%R)) (fa top sc e (ofList 0%R tv)) [] = Ok ((av, ab), at', repeat 1%nat 56) /\
      learned pp s ids (2 ^ 11) (2 ^ 3) 7 c0 c1 c3 x nb 4 4 1 (S754_finite false 4503667274105103 (-14)) sc38 sc38 (a_e av) (a_e ab) (a_e at') v b t.
Proof.
  intros HN Hc3 Ht Hl He Hx.
  assert (Er : Z.of_nat (2 ^ 11) = 2 ^ 11) by (now rewrite Nat2Z.inj_pow). assert (Ec : Z.of_nat (2 ^ 3) = 2 ^ 3) by (now rewrite Nat2Z.inj_pow).
  assert (Eb : (2 ^ 11 = 4 * 2 ^ 9)%nat) by (change 11%nat with (2 + 9)%nat at 1; now rewrite Nat.pow_add_r).
  assert (Pb : (0 < 2 ^ 9)%nat) by (apply Nat.neq_0_lt_0, Nat.pow_nonzero; lia).
  assert (Ed : (2 ^ 11 / 2 ^ 9 = 4)%nat) by (rewrite Eb; apply Nat.div_mul; lia).
  assert (El : Nat.log2_up 7 = 3%nat) by reflexivity.
  pose proof (batch_gen 14 7 (2 ^ 9) (2 ^ 11) 4 4 gn c0 c1 c3 etas feature label x e 4 (S754_finite false 4503667274105103 (-14)) 4 sc38 1 sc38 (repeat 1%nat 56) HN Hc3) as H.
  cbv zeta in H. rewrite El in H. change (14 - 3)%nat with 11%nat in H. rewrite Er, Ec, Ed in H. change (Z.of_nat 7) with 7 in H.
  rewrite <- He, firstn_all, He in H. apply H; [lia|lia|apply Nat.pow_lt_mono_r; lia|exact Ht|exact Hl|reflexivity|lia|exact Hx|exact run_mini].
Qed.
Lemma shipped_mini_toy gn c0 c1 c3 etas feature label x e :
  pa_logN pp = 15%nat -> c3 <> 0%R -> table feature (2 ^ 9) 20 -> (2 ^ 9 <= length label)%nat -> length etas = 4%nat -> (20 <= length x)%nat ->
  let n := (2 ^ 14)%nat in
  exists bs tv, packBatches 0%R 1%R Rmult Rminus Ropp n 20 (2 ^ 9) (2 ^ 7) gn c0 c3 (c1 / c3)%R etas feature label = Ok bs /\ testVector 0%R n 20 x = Ok tv /\
    let K := vconst 0%R 1%R Rmult Rminus Ropp gn c0 c3 (c1 / c3)%R etas (maskVector 0%R 1%R n (2 ^ 5)) (fun _ => 0%R) in
    let nb := nesterovAll 0%R 1%R Rplus Rmult Rminus c0 c1 c3 gn 20 (entry 0%R feature) (entry1 0%R label) (fun a => seq (a mod 4 * 2 ^ 7) (2 ^ 7)) (firstn 3 etas) in
    forall KE be v0 b0 test, consts_held pp sc s ids e K KE -> batches_held pp sc s ids e bs be -> held0 e (fun _ => 0%R) v0 -> held0 e (fun _ => 0%R) b0 -> held0 e (ofList 0%R tv) test ->
    exists v b t st' av ab at',
      lrRunBatch EE KE (2 ^ 9) (2 ^ 5) be 3 20 (v0, b0) test st = Ok ((v, b), t, st') /\
      lrRunBatch (logOps EE) KE (2 ^ 9) (2 ^ 5) be 3 20 (v0, b0) test (st, []) = Ok ((v, b), t, (st', repeat 1%nat 43)) /\
      lrRunBatch EA (errConst top sc e K) (2 ^ 9) (2 ^ 5) (mapBatches (fa top sc e) (fp sc e) bs) 3 20 (fa top sc e (fun _ => 0%R), fa top sc e (fun _ => 0%R)) (fa top sc e (ofList 0%R tv)) [] = Ok ((av, ab), at', repeat 1%nat 43) /\
      learned pp s ids (2 ^ 9) (2 ^ 5) 20 c0 c1 c3 x nb 8 8 5 sc38 sc38 (S754_finite false 4503707005784917 (-14)) (a_e av) (a_e ab) (a_e at') v b t.
Proof.
  intros HN Hc3 Ht Hl He Hx.
  assert (Er : Z.of_nat (2 ^ 9) = 2 ^ 9) by (now rewrite Nat2Z.inj_pow). assert (Ec : Z.of_nat (2 ^ 5) = 2 ^ 5) by (now rewrite Nat2Z.inj_pow).
  assert (Eb : (2 ^ 9 = 4 * 2 ^ 7)%nat) by (change 9%nat with (2 + 7)%nat at 1; now rewrite Nat.pow_add_r).
  assert (Pb : (0 < 2 ^ 7)%nat) by (apply Nat.neq_0_lt_0, Nat.pow_nonzero; lia).
  assert (Ed : (2 ^ 9 / 2 ^ 7 = 4)%nat) by (rewrite Eb; apply Nat.div_mul; lia).
  assert (El : Nat.log2_up 20 = 5%nat) by reflexivity.
  pose proof (batch_gen 14 20 (2 ^ 7) (2 ^ 9) 4 3 gn c0 c1 c3 etas feature label x e 8 sc38 8 sc38 5 (S754_finite false 4503707005784917 (-14)) (repeat 1%nat 43) HN Hc3) as H.
  cbv zeta in H. rewrite El in H. change (14 - 5)%nat with 9%nat in H. rewrite Er, Ec, Ed in H. change (Z.of_nat 20) with 20 in H.
  apply H; [lia|lia|apply Nat.pow_lt_mono_r; lia|exact Ht|exact Hl|exact He|lia|exact Hx|exact run_mini_toy].
Qed.
End P.
