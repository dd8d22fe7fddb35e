(** The data of the logistic-regression programs: reading the file, labels, normalisation, counting correct predictions. *)
From Coq Require Import String ZArith Bool List.
From Coq.Floats Require Import SpecFloat.
From Verif Require Import Go F64 Utils LR.
Import ListNotations.
Local Open Scope Z_scope.

(** ** readData.  complex128 values with imaginary part 0 are their real parts; a nil slice is an empty one (indexing both panics).
    [parse]: strconv.ParseFloat(s, 64), None for an error. *)
Section Read.
Context (parse : string -> option f64).
(** encoding/csv, Reader.ReadAll on the records of the file: every record must have as many fields as the first (FieldsPerRecord = 0).
    Recalled from Go's library; splitting the text into records is not modelled. *)
Definition csvReadAll (recs : list (list string)) : res (list (list string)) :=
  match recs with
  | [] => Ok []
  | r :: _ => if forallb (fun x => Nat.eqb (length x) (length r)) recs then Ok recs else Panic (PMsg "wrong number of fields")
  end.
(** lr/lr.go:520-530: the loop over the fields of row i; [j] counts up, [fields] are those from j on; state: feature_data[i-1], label_data *)
Fixpoint readFields (width j : nat) (i : nat) (fields : list string) (st : list f64 * list f64) : res (list f64 * list f64) :=
  match fields with
  | [] => Ok st
  | s :: fields =>
    let* x := match parse s with Some x => Ok x | None => Panic (PMsg "ParseFloat") end in
    let* st := (if negb (Nat.eqb j (width - 1)) then let* f := setAt (fst st) (Z.of_nat j) x in Ok (f, snd st)
                else let* l := setAt (snd st) (Z.of_nat i) x in Ok (fst st, l)) in
    readFields width (S j) i fields st
  end.
(** lr/lr.go:515-531; [i] is the index of the row minus one.  The row of features is filled before it is stored: nothing reads feature_data
    in between, and the index i is checked first as in the code *)
Fixpoint readRows (numFeature i : nat) (rows : list (list string)) (st : list (list f64) * list f64) : res (list (list f64) * list f64) :=
  match rows with
  | [] => Ok st
  | row :: rows =>
    let* _ := idx (fst st) i in
    let* (f, l) := readFields (length row) 0 i row (repeat f0 numFeature, snd st) in
    let* feat := setAt (fst st) (Z.of_nat i) f in
    readRows numFeature (S i) rows (feat, l)
  end.
(** lr/lr.go:502-534 (the same in the other three programs): row 0 is a header *)
Definition readData (numData numFeature : nat) (recs : list (list string)) : res (list (list f64) * list f64) :=
  let* rows := csvReadAll recs in
  readRows numFeature 0 (tl rows) (repeat [] numData, repeat f0 numData).
End Read.

(** ** labels *)
(** lr/lr.go:83-89 (lr_toy.go:83-89, lr_minibatch.go:83-89, lr_minibatch_toy.go:84-90) *)
Definition f1 : f64 := f_of_Z 1.
Definition relabel (isClass : f64 -> bool) (numData : nat) (label : list f64) : res (list f64) :=
  foldM (fun label i => let* l := idx label i in setAt label (Z.of_nat i) (if isClass l then f1 else f0)) (seq 0 numData) label.
(** real(labelData[i]) == classification_label *)
Definition isClass (c : f64) (l : f64) : bool := feqb l c.
(** lr/lr_minibatch_toy.go:85: int(real(labelData[i])) == classification_label *)
Definition isClassInt (c : Z) (l : f64) : bool := i64_of_f l =? c.

(** ** normalisation, over the arithmetic operations it uses *)
Record numops (T : Type) := mkNum { n0 : T; nadd : T -> T -> T; nsub : T -> T -> T; nsq : T -> T; ndiv : T -> T -> T; nsqrt : T -> T; nofnat : nat -> T }.
Arguments mkNum {T}. Arguments n0 {T}. Arguments nadd {T}. Arguments nsub {T}. Arguments nsq {T}. Arguments ndiv {T}. Arguments nsqrt {T}. Arguments nofnat {T}.
(** float64.  math.Pow(x, 2) is x * x: the two differ at most when the square is subnormal *)
Definition f64num : numops f64 := mkNum f0 fadd fsub (fun x => fmul x x) fdiv (SFsqrt 53 1024) (fun n => f_of_Z (Z.of_nat n)).
Section Norm.
Context {T : Type} (A : numops T).
Definition cellAt (tab : list (list T)) (i j : nat) : res T := let* row := idx tab i in idx row j.
(** lr/lr_toy.go:133-143 (m = batchSize, dv = batchSize), lr/lr_minibatch_toy.go:137-147 (m = numTrain, dv = numTrain - 1): mean[j] and std[j] *)
Definition columnStats (tab : list (list T)) (m : nat) (dv : T) (j : nat) : res (T * T) :=
  let* s := foldM (fun a i => let* x := cellAt tab i j in Ok (nadd A a x)) (seq 0 m) (n0 A) in
  let mean := ndiv A s (nofnat A m) in
  let* q := foldM (fun a i => let* x := cellAt tab i j in Ok (nadd A a (nsq A (nsub A x mean)))) (seq 0 m) (n0 A) in
  Ok (mean, nsqrt A (ndiv A q dv)).
(** lr/lr_toy.go:147: the columns that are normalised *)
Definition scaled (j : nat) : bool := negb (Nat.eqb j 1) && negb (Nat.eqb j 3) && negb (Nat.eqb j 5) && Nat.ltb j 17.
(** lr/lr_toy.go:145-151 (lr_minibatch_toy.go:149-155).  Row i is looked up once (for numFeature > 0 the code does so in every step). *)
Definition normRow (stats : list (T * T)) (numFeature : nat) (row : list T) : res (list T) :=
  foldM (fun row j => if scaled j then let* x := idx row j in let* s := idx stats j in setAt row (Z.of_nat j) (ndiv A (nsub A x (fst s)) (snd s)) else Ok row) (seq 0 numFeature) row.
Definition normalise (numData numFeature m : nat) (dv : T) (tab : list (list T)) : res (list (list T)) :=
  let* stats := mapM (columnStats tab m dv) (seq 0 numFeature) in
  foldM (fun tab i => let* row := idx tab i in let* row := normRow stats numFeature row in setAt tab (Z.of_nat i) row) (seq 0 numData) tab.
(** lr/lr_toy.go:131-151 *)
Definition normaliseToy (numData numFeature batchSize : nat) := normalise numData numFeature batchSize (nofnat A batchSize).
(** lr/lr_minibatch_toy.go:134-155 *)
Definition normaliseMinibatchToy (numData numFeature numTrain : nat) := normalise numData numFeature numTrain (nsub A (nofnat A numTrain) (nofnat A 1)).
End Norm.

(** ** counting *)
Definition fhalf : f64 := S754_finite false 4503599627370496 (-53).
(** lr/lr.go:413-417: one prediction (slot 0 of the decrypted message) against its label; lr_minibatch_toy.go:395-435: all of them *)
Definition countOne (correct : nat) (r l : f64) : nat :=
  if fleb fhalf r && feqb l f1 then S correct else if fltb r fhalf && feqb l f0 then S correct else correct.
Definition countCorrect (results labels : list f64) : nat := fold_left (fun c rl => countOne c (fst rl) (snd rl)) (combine results labels) 0%nat.
