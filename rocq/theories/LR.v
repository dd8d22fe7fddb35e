(** The logistic-regression programs of /repo/lr, written once over the evaluator calls they make.
    A call takes the evaluator's mutable state and returns a value and the new state, or panics.  The same
    program text is run on three evaluators: exact slot vectors (below), the levels and scales alone
    (LRShadow.v), and the modelled Evaluator of mkckks/evaluator.go (LREval.v). *)
From Coq Require Import ZArith Bool String List.
From Verif Require Import Go.
Import ListNotations.
Local Open Scope Z_scope.

(** A Go computation over a mutable state [S]. *)
Definition SM (S A : Type) : Type := S -> res (A * S).
Definition sret {S A} (a : A) : SM S A := fun s => Ok (a, s).
Definition sbind {S A B} (m : SM S A) (k : A -> SM S B) : SM S B := fun s => let* (a, s) := m s in k a s.
Definition slift {S A} (r : res A) : SM S A := fun s => let* a := r in Ok (a, s).
Notation "'let!' x ':=' m 'in' k" := (sbind m (fun x => k)) (at level 200, x pattern at level 0, m at level 100, k at level 200).
(** a [for] loop over the elements of a list, with an accumulator *)
Fixpoint sfold {S A B} (f : B -> A -> SM S B) (l : list A) (b : B) : SM S B :=
  match l with [] => sret b | a :: l => let! b := f b a in sfold f l b end.

(** The calls the programs make on [testContext.evaluator] and [testContext.encryptor] (lr/lr.go:58-73). *)
Record heops (S ct pt : Type) := mkOps {
  o_mul : bool -> ct -> ct -> SM S ct;  (* MulRelinNew(a, b, rlkSet); the flag says that a and b are the same object *)
  o_mulp : ct -> pt -> SM S ct;         (* MulPtxtNew(a, p) *)
  o_add : ct -> ct -> SM S ct;          (* AddNew(a, b) *)
  o_rot : ct -> Z -> SM S ct;           (* RotateNew(a, k, rtkSet) *)
  o_zero : SM S ct                      (* encryptor.EncryptMsgNew(zero_msg, pk of company0) *)
}.
Arguments o_mul {S ct pt}. Arguments o_mulp {S ct pt}. Arguments o_add {S ct pt}. Arguments o_rot {S ct pt}. Arguments o_zero {S ct pt}.

(** The constants of the training and inference loops, as the programs hold them (lr/lr.go:164-243). *)
Record lrconst (ct pt : Type) := mkConst {
  k_mask : pt;         (* mask *)
  k_1 : pt;            (* const1_pt: -(gamma/n) (c0 - y) *)
  k_2 : list pt;       (* const2_pt[a]: -(1 - eta[a]) gamma/n (c0 - y) *)
  k_3 : pt;            (* const3_pt: -(gamma/n) c3 *)
  k_4 : list pt;       (* const4_pt[a]: -(1 - eta[a]) gamma/n c3 *)
  k_5 : ct;            (* const5_ct: c1/c3 *)
  k_6 : list pt;       (* const6_pt[a]: 1 - eta[a] *)
  k_7 : list pt;       (* const7_pt[a]: eta[a] *)
  k_8 : pt;            (* const8_pt: c3 *)
  k_9 : ct             (* const9_ct: c0 *)
}.
Arguments k_mask {ct pt}. Arguments k_1 {ct pt}. Arguments k_2 {ct pt}. Arguments k_3 {ct pt}. Arguments k_4 {ct pt}. Arguments k_5 {ct pt}. Arguments k_6 {ct pt}. Arguments k_7 {ct pt}. Arguments k_8 {ct pt}. Arguments k_9 {ct pt}.

Section Prog.
Context {S ct pt : Type} (E : heops S ct pt).

(** [for i := 1; i < bound; i *= 2 { ct = AddNew(ct, RotateNew(ct, amount(i))) }]: the loop of lr/lr.go:285-288,
    389-392, 430-433, 439-442 and 445-448.  [bound] steps are always enough, as i at least grows by one; i*2 does
    not overflow an int for bound < 2^62. *)
Fixpoint sumLoop (fuel : nat) (i bound : Z) (amount : Z -> Z) (c : ct) : SM S ct :=
  if i <? bound then
    match fuel with
    | O => slift (Panic PDiverge)
    | Datatypes.S fuel => let! r := o_rot E c (amount i) in let! c := o_add E c r in sumLoop fuel (2 * i) bound amount c
    end
  else sret c.
Definition rotSum (bound : Z) (amount : Z -> Z) (c : ct) : SM S ct := sumLoop (Z.to_nat bound) 1 bound amount c.

(** lr/lr.go:428-435 (and the copies in the other three programs) *)
Definition SumRowVec (ctIn : ct) (numRow numCol : Z) : SM S ct := rotSum numRow (fun i => numCol * i) ctIn.

(** lr/lr.go:437-450; [numRow] is not used by the code *)
Definition SumColVec (ctIn : ct) (mask : pt) (numRow numCol : Z) : SM S ct :=
  let! ctOut := rotSum numCol (fun i => i) ctIn in
  let! ctOut := o_mulp E ctOut mask in
  rotSum numCol (fun i => - i) ctOut.

(** lr/lr.go:247-305: the body of the training loop, at iteration [a], with the numbers of rows and columns that
    lr.go (2^11, 2^3) and lr_toy.go (2^9, 2^5) write as literals.  The decryptions that print beta and v
    (lr/lr.go:307-313) are left out: they do not change the ciphertexts. *)
Definition trainIter (K : lrconst ct pt) (numRow numCol : Z) (z : ct) (vb : ct * ct) (a : nat) : SM S (ct * ct) :=
  let (v, beta) := vb in
  let! m := o_mul E false z v in
  let! z1 := o_mulp E z (k_1 K) in
  let! p := slift (idx (k_2 K) a) in let! z2 := o_mulp E z p in
  let! z3 := o_mulp E z (k_3 K) in
  let! p := slift (idx (k_4 K) a) in let! z4 := o_mulp E z p in
  let! m := SumColVec m (k_mask K) numRow numCol in
  let! m2 := o_mul E true m m in
  let! m2 := o_add E m2 (k_5 K) in
  let! m1 := o_mul E false m z3 in
  let! s := o_mul E false z4 m in
  let! g := o_mul E false m1 m2 in
  let! g := o_add E g z1 in
  let! g := rotSum numRow (fun i => numCol * i) g in
  let! beta_update := o_add E v g in
  let! u := o_mul E false s m2 in
  let! u := o_add E u z2 in
  let! p := slift (idx (k_6 K) a) in let! v_update := o_mulp E v p in
  let! p := slift (idx (k_7 K) a) in let! beta := o_mulp E beta p in
  let! v_update := o_add E v_update beta in
  let! u := SumRowVec u numRow numCol in
  let! v_update := o_add E v_update u in
  sret (v_update, beta_update).

(** lr/lr.go:245-315: [numIter] iterations *)
Definition train (K : lrconst ct pt) (numRow numCol : Z) (numIter : nat) (z : ct) (vb : ct * ct) : SM S (ct * ct) :=
  sfold (trainIter K numRow numCol z) (seq 0 numIter) vb.

(** lr/lr.go:387-404: the inference, up to the decryption of slot 0 *)
Definition infer (K : lrconst ct pt) (numFeature : Z) (test_ct beta : ct) : SM S ct :=
  let! inner := o_mul E false test_ct beta in
  let! inner := rotSum numFeature (fun i => i) inner in
  let! term1 := o_mul E true inner inner in
  let! term1 := o_add E term1 (k_5 K) in
  let! term2 := o_mulp E inner (k_8 K) in
  let! sigmoid := o_mul E false term1 term2 in
  o_add E sigmoid (k_9 K).

(** lr/lr_minibatch.go:292-334: the body of the inner loop, for one ciphertext of the batch: its data [z] and its own
    const1_pt, const2_pt; the results are added to the two accumulators *)
Definition batchCt (K : lrconst ct pt) (numRow numCol : Z) (a : nat) (v : ct) (acc : ct * ct) (d : ct * pt * list pt) : SM S (ct * ct) :=
  let '(g_acc, u_acc) := acc in
  let '(z, c1, c2) := d in
  let! m := o_mul E false z v in
  let! z1 := o_mulp E z c1 in
  let! p := slift (idx c2 a) in let! z2 := o_mulp E z p in
  let! z3 := o_mulp E z (k_3 K) in
  let! p := slift (idx (k_4 K) a) in let! z4 := o_mulp E z p in
  let! m := SumColVec m (k_mask K) numRow numCol in
  let! m2 := o_mul E true m m in
  let! m2 := o_add E m2 (k_5 K) in
  let! m1 := o_mul E false m z3 in
  let! s := o_mul E false z4 m in
  let! g := o_mul E false m1 m2 in
  let! g := o_add E g z1 in
  let! u := o_mul E false s m2 in
  let! u := o_add E u z2 in
  let! g_acc := o_add E g_acc g in
  let! u_acc := o_add E u_acc u in
  sret (g_acc, u_acc).

(** lr/lr_minibatch.go:284-349: one iteration on the batch a % numBatch; [batches] lists, for every batch, its
    ciphertexts with their constants (the code's z[b][i], const1_pt[b][i], const2_pt[b][i]) *)
Definition batchIter (K : lrconst ct pt) (numRow numCol : Z) (batches : list (list (ct * pt * list pt))) (vb : ct * ct) (a : nat) : SM S (ct * ct) :=
  let (v, beta) := vb in
  let numBatch := length batches in
  (* batchId := a % numBatch panics on a zero divisor *)
  let! batch := slift (match numBatch with O => Panic (PMsg "integer divide by zero"%string) | _ => idx batches (Nat.modulo a numBatch) end) in
  let! g_acc := o_zero E in
  let! u_acc := o_zero E in
  let! acc := sfold (batchCt K numRow numCol a v) batch (g_acc, u_acc) in
  let (g_acc, u_acc) := acc : ct * ct in
  let! g_acc := SumRowVec g_acc numRow numCol in
  let! beta_update := o_add E v g_acc in
  let! p := slift (idx (k_6 K) a) in let! v_update := o_mulp E v p in
  let! p := slift (idx (k_7 K) a) in let! beta1 := o_mulp E beta p in
  let! v_update := o_add E v_update beta1 in
  let! u_acc := SumRowVec u_acc numRow numCol in
  let! v_update := o_add E v_update u_acc in
  sret (v_update, beta_update).
Definition trainBatch (K : lrconst ct pt) (numRow numCol : Z) (batches : list (list (ct * pt * list pt))) (numIter : nat) (vb : ct * ct) : SM S (ct * ct) :=
  sfold (batchIter K numRow numCol batches) (seq 0 numIter) vb.

(** lr/lr.go:245-404: the training, then the inference on one data point with the last beta; returns v, beta and the result *)
Definition lrRun (K : lrconst ct pt) (numRow numCol : Z) (numIter : nat) (numFeature : Z) (z : ct) (vb : ct * ct) (test_ct : ct) : SM S (ct * ct * ct) :=
  let! vb := train K numRow numCol numIter z vb in
  let! r := infer K numFeature test_ct (snd vb) in
  sret (vb, r).
(** lr/lr_minibatch.go:280-448: the same with the training in batches *)
Definition lrRunBatch (K : lrconst ct pt) (numRow numCol : Z) (batches : list (list (ct * pt * list pt))) (numIter : nat) (numFeature : Z) (vb : ct * ct) (test_ct : ct) : SM S (ct * ct * ct) :=
  let! vb := trainBatch K numRow numCol batches numIter vb in
  let! r := infer K numFeature test_ct (snd vb) in
  sret (vb, r).
End Prog.

(** the constants with every ciphertext and every plaintext replaced *)
Definition mapConst {ct pt ct' pt'} (fc : ct -> ct') (fp : pt -> pt') (K : lrconst ct pt) : lrconst ct' pt' :=
  mkConst _ _ (fp (k_mask K)) (fp (k_1 K)) (map fp (k_2 K)) (fp (k_3 K)) (map fp (k_4 K)) (fc (k_5 K)) (map fp (k_6 K)) (map fp (k_7 K)) (fp (k_8 K)) (fc (k_9 K)).

(** ** The vectors that are encoded and encrypted *)
Section Vectors.
Context {R : Type} (rO : R).
(** [v[i] = x] *)
Definition setAt (v : list R) (i : Z) (x : R) : res (list R) :=
  if (0 <=? i) && (i <? Z.of_nat (length v)) then Ok (firstn (Z.to_nat i) v ++ x :: skipn (Datatypes.S (Z.to_nat i)) v) else Panic PIndex.
(** lr/lr.go:130-140 (z_vector), with numCol for the literal 2^3 and numFeature for the literal 7 *)
Definition zVector (slotNum batchSize numCol numFeature : nat) (feature : list (list R)) : res (list R) :=
  foldM (fun v i => foldM (fun v j =>
    let* x := (if Nat.leb (Datatypes.S j) numFeature then let* row := idx feature i in idx row j else Ok rO) in
    setAt v (Z.of_nat (numCol * i + j)) x) (seq 0 numCol) v) (seq 0 batchSize) (repeat rO slotNum).
(** lr/lr.go:145-151 (label_vector) *)
Definition labelVector (slotNum batchSize numCol : nat) (label : list R) : res (list R) :=
  foldM (fun v i => foldM (fun v j =>
    let* y := idx label i in setAt v (Z.of_nat (numCol * i + j)) y) (seq 0 numCol) v) (seq 0 batchSize) (repeat rO slotNum).
(** lr/lr.go:154-163 (mask_vector) *)
Definition maskVector (rI : R) (slotNum maskCol : nat) : list R :=
  map (fun i => if Nat.eqb (Nat.modulo i maskCol) 0 then rI else rO) (seq 0 slotNum).

(** ** The packing of lr_minibatch.go *)
(** lr/lr_minibatch.go:129-137 on positive integers, with exact logarithms; LRSize.v has the float64 computations (Log2, Ceil, Pow), and
    C63 shows that they give these numbers *)
Definition slotsPerData (numFeature : nat) : nat := Nat.pow 2 (Nat.log2_up numFeature).
Definition numDataPerCt (numSlots numFeature : nat) : nat := Nat.pow 2 (Nat.log2 numSlots - Nat.log2_up numFeature).
Definition realNumDataPerCt (numSlots numFeature batchSize : nat) : nat :=
  let n := numDataPerCt numSlots numFeature in if Nat.ltb batchSize n then batchSize else n.
Definition numCtPerBatch (numSlots numFeature batchSize : nat) : nat :=
  let n := numDataPerCt numSlots numFeature in Nat.div (batchSize + n - 1) n.
Definition dataId (nct real b i j : nat) : nat := b * nct * real + i * real + j.
(** lr/lr_minibatch.go:146-157: z_vector of ciphertext [i] of batch [b]; [break] leaves the loop over j *)
Fixpoint packLoop (numTrain nct real spd numFeature b i : nat) (item : nat -> nat -> res R) (js : list nat) (v : list R) : res (list R) :=
  match js with
  | [] => Ok v
  | j :: js =>
      let d := dataId nct real b i j in
      if Nat.leb numTrain d then Ok v
      else let* v := foldM (fun v k => let* x := item d k in setAt v (Z.of_nat (j * spd + k)) x) (seq 0 numFeature) v in
           packLoop numTrain nct real spd numFeature b i item js v
  end.
Definition packZ (numSlots numFeature batchSize numTrain : nat) (feature : list (list R)) (b i : nat) : res (list R) :=
  let real := realNumDataPerCt numSlots numFeature batchSize in
  packLoop numTrain (numCtPerBatch numSlots numFeature batchSize) real (slotsPerData numFeature) numFeature b i
    (fun d k => let* row := idx feature d in idx row k) (seq 0 real) (repeat rO numSlots).
(** lr/lr_minibatch.go:161-178: label_vector[b][i] *)
Definition packLabel (numSlots numFeature batchSize numTrain : nat) (label : list R) (b i : nat) : res (list R) :=
  let real := realNumDataPerCt numSlots numFeature batchSize in
  packLoop numTrain (numCtPerBatch numSlots numFeature batchSize) real (slotsPerData numFeature) numFeature b i
    (fun d _ => idx label d) (seq 0 real) (repeat rO numSlots).
End Vectors.

(** ** Exact slot vectors *)
Section Ideal.
Context {R : Type} (rO rI : R) (radd rmul rsub : R -> R -> R) (ropp : R -> R).
(** A vector of [n] slots; only the slots 0 .. n-1 matter. *)
Definition slotvec : Type := Z -> R.
(** what the evaluator computes without noise, scales or levels: AddNew and MulRelinNew / MulPtxtNew work slot by
    slot and RotateNew by k moves slot i + k (modulo n) to slot i (the property C31 of the rotation) *)
Definition exactOps (n : Z) : heops unit slotvec slotvec := {|
  o_mul := fun _ x y => sret (fun i => rmul (x i) (y i));
  o_mulp := fun x y => sret (fun i => rmul (x i) (y i));
  o_add := fun x y => sret (fun i => radd (x i) (y i));
  o_rot := fun x k => sret (fun i => x ((i + k) mod n));
  o_zero := sret (fun _ => rO)
|}.
Definition ofList (l : list R) : slotvec := fun i => nth (Z.to_nat i) l rO.

(** The constants of lr/lr.go:164-243 for labels [y] (label_vector), step [gn] = gamma/batchSize, weights [etas],
    sigmoid coefficients c0, c1, c3 and [c13] = c1/c3.  Simplification: the float64 arithmetic of these lines is
    the arithmetic of the ring. *)
Definition vconst (gn c0 c3 c13 : R) (etas : list R) (mask : list R) (y : slotvec) : lrconst slotvec slotvec := {|
  k_mask := ofList mask;
  k_1 := fun i => rmul (ropp gn) (rsub c0 (y i));
  k_2 := map (fun eta i => rmul (rmul (ropp (rsub rI eta)) gn) (rsub c0 (y i))) etas;
  k_3 := fun _ => rmul (ropp gn) c3;
  k_4 := map (fun eta _ => rmul (rmul (ropp (rsub rI eta)) gn) c3) etas;
  k_5 := fun _ => c13;
  k_6 := map (fun eta _ => rsub rI eta) etas;
  k_7 := map (fun eta _ => eta) etas;
  k_8 := fun _ => c3;
  k_9 := fun _ => c0
|}.

(** lr/lr.go:115-142, 145-163, 245-315 from the data to the last v and beta *)
Definition lrTrain (slotNum batchSize numCol numFeature numIter : nat) (gn c0 c3 c13 : R) (etas : list R) (feature : list (list R)) (label : list R) : res (slotvec * slotvec) :=
  let* z := zVector rO slotNum batchSize numCol numFeature feature in
  let* y := labelVector rO slotNum batchSize numCol label in
  let K := vconst gn c0 c3 c13 etas (maskVector rO rI slotNum numCol) (ofList y) in
  let zero := fun _ : Z => rO in
  let* (vb, _) := train (exactOps (Z.of_nat slotNum)) K (Z.of_nat batchSize) (Z.of_nat numCol) numIter (ofList z) (zero, zero) tt in
  Ok vb.
(** lr/lr.go:376-381 (test_vector): the features of one data point in the first slots *)
Definition testVector (slotNum numFeature : nat) (x : list R) : res (list R) :=
  foldM (fun v j => let* a := idx x j in setAt v (Z.of_nat j) a) (seq 0 numFeature) (repeat rO slotNum).
(** lr/lr.go:376-404: the result is slot 0 *)
Definition lrInfer (slotNum numFeature : nat) (c0 c3 c13 : R) (beta : slotvec) (x : list R) : res R :=
  let* xv := testVector slotNum numFeature x in
  let K := vconst rO c0 c3 c13 [] [] (fun _ => rO) in
  let* (r, _) := infer (exactOps (Z.of_nat slotNum)) K (Z.of_nat numFeature) (ofList xv) beta tt in
  Ok (r 0).

(** lr/lr_minibatch.go:139-180 and 197-228: for every batch and every ciphertext of it z[b][i], const1_pt[b][i] and const2_pt[b][i] *)
Definition packBatches (numSlots numFeature numTrain batchSize : nat) (gn c0 c3 c13 : R) (etas : list R) (feature : list (list R)) (label : list R) : res (list (list (slotvec * slotvec * list slotvec))) :=
  let numBatch := Nat.div numTrain batchSize in
  let nct := numCtPerBatch numSlots numFeature batchSize in
  mapM (fun b => mapM (fun i =>
    let* z := packZ rO numSlots numFeature batchSize numTrain feature b i in
    let* y := packLabel rO numSlots numFeature batchSize numTrain label b i in
    let K := vconst gn c0 c3 c13 etas [] (ofList y) in
    Ok (ofList z, k_1 K, k_2 K)) (seq 0 nct)) (seq 0 numBatch).
(** lr/lr_minibatch.go:117-349 from the data to the last v and beta; maskCol is the literal 2^3 of line 184 *)
Definition lrTrainBatch (numSlots numFeature maskCol numTrain batchSize numIter : nat) (gn c0 c3 c13 : R) (etas : list R) (feature : list (list R)) (label : list R) : res (slotvec * slotvec) :=
  let* batches := packBatches numSlots numFeature numTrain batchSize gn c0 c3 c13 etas feature label in
  let K := vconst gn c0 c3 c13 etas (maskVector rO rI numSlots maskCol) (fun _ => rO) in
  let zero := fun _ : Z => rO in
  let* (vb, _) := trainBatch (exactOps (Z.of_nat numSlots)) K (Z.of_nat (numDataPerCt numSlots numFeature)) (Z.of_nat (slotsPerData numFeature)) batches numIter (zero, zero) tt in
  Ok vb.
End Ideal.
