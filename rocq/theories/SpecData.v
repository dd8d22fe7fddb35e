(** What the data-preparation steps of the logistic-regression programs should do.  Definitions only. *)
From Coq Require Import Reals String ZArith List Bool.
From Coq.Floats Require Import SpecFloat.
From Verif Require Import Spec Go Arith NegRing BasisExt NTT RingOps Params F64 SpecCt SpecEnc SpecSlots SpecLR SpecLREnc SpecSetup LRData.
Import ListNotations.

(** a file readData accepts: rows of equal width, at most numData of them after the header, at most numFeature columns before the label, all
    fields below the header numbers *)
Definition file_ok (parse : string -> option f64) (numData numFeature : nat) (recs : list (list string)) : Prop :=
  (forall r r', In r recs -> In r' recs -> length r = length r') /\ length recs <= S numData /\
  forall row, In row (tl recs) -> length row <= S numFeature /\ forall s, In s row -> parse s <> None.
(** the tables of a file: row i of F holds the fields of the i-th row below the header except the last, then zeros; L its last field.  Without such a
    row F has an empty row and L a zero *)
Record file_data (parse : string -> option f64) (numData numFeature : nat) (recs : list (list string)) (F : list (list f64)) (L : list f64) : Prop := {
  fd_F : length F = numData; fd_L : length L = numData;
  fd_row : forall i row, nth_error (tl recs) i = Some row -> exists f, nth_error F i = Some f /\ length f = numFeature /\
    (forall j s, nth_error row j = Some s -> S j < length row -> nth_error f j = parse s) /\
    (forall j, length row <= S j -> j < numFeature -> nth_error f j = Some f0) /\
    (forall s, nth_error row (length row - 1) = Some s -> nth_error L i = parse s);
  fd_rest : forall i, length (tl recs) <= i < numData -> nth_error F i = Some [] /\ nth_error L i = Some f0 }.

(** real arithmetic *)
Definition Rnum : numops R := mkNum 0%R Rplus Rminus (fun x => (x * x)%R) Rdiv sqrt INR.
(** f 0 + ... + f (n-1) *)
Fixpoint rsum (n : nat) (f : nat -> R) : R := match n with O => 0%R | S k => (rsum k f + f k)%R end.
(** the columns of toyData.csv that are left as they are *)
Definition kept (j : nat) : Prop := j = 1 \/ j = 3 \/ j = 5 \/ 17 <= j.
(** tab' is tab, normalised over the first m rows, d columns: kept columns are unchanged; the others, unless constant on these rows, are mapped by an
    increasing affine function to values of mean 0 whose squares sum to v *)
Definition normalised (numData d m : nat) (v : R) (tab tab' : list (list R)) : Prop :=
  table tab' numData d /\ (forall i j, i < numData -> j < d -> kept j -> entry 0%R tab' i j = entry 0%R tab i j) /\
  forall j, j < d -> ~ kept j -> (exists i i', i < m /\ i' < m /\ entry 0%R tab i j <> entry 0%R tab i' j) ->
    rsum m (fun i => entry 0%R tab' i j) = 0%R /\ rsum m (fun i => (entry 0%R tab' i j * entry 0%R tab' i j)%R) = v /\
    exists a b, (0 < a)%R /\ forall i, i < numData -> entry 0%R tab' i j = (a * entry 0%R tab i j + b)%R.

(** a finite float64 *)
Definition finite (f : f64) : Prop := match f with S754_zero _ => True | S754_finite _ m e => bounded 53 1024 m e = true | _ => False end.
(** x is the number read from slot 0 of the message *)
Definition reads {Msg} (re0 : Msg -> f64) (msg : Msg) (x : R) : Prop := finite (re0 msg) /\ x = fR (re0 msg).
(** a decoder that, for plaintexts of level l, is within ed of the true value in slot 0, for values up to M *)
Definition decoder_ok (pp : params) (l : nat) {Msg} (decode : poly -> f64 -> Msg) (re0 : Msg -> f64) (M ed : R) : Prop :=
  forall pt sc V, centred_value pp l false pt V -> plen pt = l + 1 -> (0 < fR sc)%R -> (Rabs (fst (slot (pa_N pp) V 0)) <= M * fR sc)%R ->
    exists x, reads re0 (decode pt sc) x /\ (Rabs (x - fst (slot (pa_N pp) V 0) / fR sc) <= ed)%R.
(** the message shows the probability p clearly: its error and that of the decoder are less than the distance of p from 1/2 *)
Definition clear (pp : params) (l : nat) {Msg} (decode : poly -> f64 -> Msg) (M ed : R) (msg : Msg) (p : R) : Prop :=
  exists sc m e, shows pp decode l sc m e msg /\ m 0%Z = p /\ (0 < fR sc)%R /\
    (forall i, (0 <= i < Z.of_nat (pa_N pp) / 2)%Z -> (4 * (Rabs (fR sc * m i) + e) < IZR (Ql pp l))%R) /\
    (Rabs p + e / fR sc <= M)%R /\ (e / fR sc + ed < Rabs (p - 1 / 2))%R.
(** the class of a probability, 1/2 or more, is that of the label *)
Definition agrees (p : R) (l : bool) : bool := if Rle_lt_dec (1 / 2) p then l else negb l.
(** labels as float64 *)
Definition lab (b : bool) : f64 := if b then f_of_Z 1 else f0.
