(** The statements about the logistic-regression programs in the form used by Props_LR.v. *)
From Coq Require Import ZArith Lia List Bool Ring_theory InitialRing Ring Reals Lra.
From Verif Require Import Go LR SpecSlots SpecLR SlotThms LRProofs LRPack.
Import ListNotations.
Local Open Scope Z_scope.

Lemma mod_below b n : (0 < n)%nat -> (b mod n < n)%nat. Proof. intros. apply Nat.mod_upper_bound. lia. Qed.
(** every index is addressed by exactly one triple *)
Lemma dataId_unique nct real numBatch : forall d, (d < numBatch * (nct * real))%nat ->
  exists b i j, ((b < numBatch /\ i < nct /\ j < real) /\ dataId nct real b i j = d /\
    forall b' i' j', i' < nct /\ j' < real -> dataId nct real b' i' j' = d -> b' = b /\ i' = i /\ j' = j)%nat.
Proof.
  intros d Hd. assert (Hp : (0 < nct * real)%nat) by (destruct (nct * real)%nat; lia). assert (Hn : (0 < nct)%nat) by (destruct nct; lia). assert (Hr : (0 < real)%nat) by (destruct real; lia).
  set (p := (nct * real)%nat) in *. exists (d / p)%nat, (d mod p / real)%nat, (d mod p mod real)%nat.
  pose proof (Nat.div_mod d p ltac:(lia)) as E1. pose proof (Nat.div_mod (d mod p) real ltac:(lia)) as E2. pose proof (mod_below d p Hp) as B1. pose proof (mod_below (d mod p) real Hr) as B2.
  split; [|split].
  - split; [apply Nat.div_lt_upper_bound; [lia|rewrite Nat.mul_comm; exact Hd]|]. split; [|exact B2]. apply Nat.div_lt_upper_bound; [lia|]. unfold p in B1 at 2. rewrite (Nat.mul_comm real). exact B1.
  - unfold dataId. replace (d / p * nct * real)%nat with (p * (d / p))%nat by (unfold p; lia). replace (d mod p / real * real)%nat with (real * (d mod p / real))%nat by lia. lia.
  - intros b i j [Hi Hj] E. unfold dataId in E. assert (Ed : d = (p * b + (i * real + j))%nat) by (unfold p; lia).
    assert (Hlt : (i * real + j < p)%nat) by (unfold p; nia).
    assert (Eb : b = (d / p)%nat) by (apply Nat.div_unique with (i * real + j)%nat; assumption). assert (Em : (i * real + j)%nat = (d mod p)%nat) by (apply Nat.mod_unique with b; assumption).
    split; [exact Eb|]. rewrite <- Em. split; [apply Nat.div_unique with j; lia|apply Nat.mod_unique with i; lia].
Qed.

(** the ids of one batch are batchSize consecutive indices exactly in the good configurations *)
Lemma numBatch_mod a numTrain batchSize : (0 < batchSize <= numTrain)%nat -> (a mod (numTrain / batchSize) * batchSize + batchSize <= numTrain)%nat.
Proof.
  intros H. assert (Hp : (0 < numTrain / batchSize)%nat) by (apply Nat.div_str_pos; lia). pose proof (mod_below a _ Hp) as Hm. pose proof (Nat.div_mod numTrain batchSize ltac:(lia)) as E. nia.
Qed.
Lemma batchIds_exact s nf batchSize numTrain a : (Nat.log2_up nf <= s)%nat -> (0 < batchSize <= numTrain)%nat ->
  let perCt := (2 ^ (s - Nat.log2_up nf))%nat in (batchSize < perCt)%nat \/ Nat.divide perCt batchSize ->
  batchIds s nf batchSize numTrain a = seq (a mod (numTrain / batchSize) * batchSize) batchSize.
Proof.
  intros Hs Hb p Hp. unfold batchIds. rewrite (proj2 (batch_exact s nf batchSize Hs (proj1 Hb)) Hp). apply below_all. apply numBatch_mod. exact Hb.
Qed.
Lemma batch_size_ge s nf batchSize : (Nat.log2_up nf <= s)%nat -> (0 < batchSize)%nat -> let perCt := (2 ^ (s - Nat.log2_up nf))%nat in
  ~ ((batchSize < perCt)%nat \/ Nat.divide perCt batchSize) -> (batchSize < numCtPerBatch (2 ^ s) nf batchSize * realNumDataPerCt (2 ^ s) nf batchSize)%nat.
Proof.
  intros Hs Hb p Hn. pose proof (batch_covers s nf batchSize Hs Hb) as Hc. destruct (Nat.eq_dec (numCtPerBatch (2 ^ s) nf batchSize * realNumDataPerCt (2 ^ s) nf batchSize) batchSize) as [E|E]; [|lia].
  exfalso. apply Hn. apply (batch_exact s nf batchSize Hs Hb). exact E.
Qed.

(** training on a mini-batch whose size fits: batch a mod numBatch is the batchSize data points from its start on *)
Section Ring.
Context {R : Type} (rO rI : R) (radd rmul rsub : R -> R -> R) (ropp : R -> R).
Context (RT : ring_theory rO rI radd rmul rsub ropp (@eq R)).
Lemma gradient_ids c0 c1 c3 d X y ids ids' v j : ids = ids' -> gradient rO radd rmul rsub c0 c1 c3 d X y ids v j = gradient rO radd rmul rsub c0 c1 c3 d X y ids' v j. Proof. now intros ->. Qed.
Lemma nesterovFrom_ids c0 c1 c3 gn d X y ids ids' etas : (forall a, ids a = ids' a) -> forall a vb,
  nesterovFrom rO rI radd rmul rsub c0 c1 c3 gn d X y ids a etas vb = nesterovFrom rO rI radd rmul rsub c0 c1 c3 gn d X y ids' a etas vb.
Proof. intros H. induction etas as [|eta etas IH]; intros a vb; cbn [nesterovFrom]; [reflexivity|]. rewrite (H a). apply IH. Qed.
Lemma lrTrainBatch_exact s nf batchSize numTrain numIter gn c0 c1 c3 c13 etas feature label : rmul c3 c13 = c1 ->
  (Nat.log2_up nf <= s)%nat -> (0 < batchSize <= numTrain)%nat -> (batchSize < 2 ^ (s - Nat.log2_up nf))%nat \/ Nat.divide (2 ^ (s - Nat.log2_up nf)) batchSize ->
  table feature numTrain nf -> (numTrain <= length label)%nat -> (numIter <= length etas)%nat ->
  exists v beta, lrTrainBatch rO rI radd rmul rsub ropp (2 ^ s) nf (2 ^ Nat.log2_up nf) numTrain batchSize numIter gn c0 c3 c13 etas feature label = Ok (v, beta) /\
    let nb := nesterovAll rO rI radd rmul rsub c0 c1 c3 gn nf (entry rO feature) (entry1 rO label) (fun a => seq (a mod (numTrain / batchSize) * batchSize) batchSize) (firstn numIter etas) in
    forall row j, (row < 2 ^ (s - Nat.log2_up nf))%nat -> (j < nf)%nat -> let i := Z.of_nat (2 ^ Nat.log2_up nf * row + j) in v i = fst nb j /\ beta i = snd nb j.
Proof.
  intros Hc13 Hs Hb Hp Ht Hl He. destruct (lrTrainBatch_ok rO rI radd rmul rsub ropp RT s nf batchSize numTrain Hs ltac:(lia) feature label Ht Hl gn c0 c1 c3 c13 Hc13 etas ltac:(lia) numIter He) as (v & beta & E & H).
  exists v, beta. split; [exact E|]. unfold nesterovAll. rewrite <- (nesterovFrom_ids _ _ _ _ _ _ _ (batchIds s nf batchSize numTrain)); [exact H|]. intros a. apply batchIds_exact; assumption.
Qed.
(** the rows of one packed vector *)
Lemma packZ_rows s nf batchSize numTrain feature b i : (Nat.log2_up nf <= s)%nat -> (0 < batchSize)%nat -> table feature numTrain nf ->
  let nct := numCtPerBatch (2 ^ s) nf batchSize in let real := realNumDataPerCt (2 ^ s) nf batchSize in
  exists v, packZ rO (2 ^ s) nf batchSize numTrain feature b i = Ok v /\ length v = (2 ^ s)%nat /\
    forall j k, (j < 2 ^ (s - Nat.log2_up nf))%nat -> (k < 2 ^ Nat.log2_up nf)%nat ->
      nth (2 ^ Nat.log2_up nf * j + k) v rO = if Nat.ltb j real && Nat.ltb (b * nct * real + i * real + j) numTrain && Nat.ltb k nf then entry rO feature (b * nct * real + i * real + j) k else rO.
Proof.
  intros Hs Hb [Ht1 Ht2] nct real. destruct (pack_slots rO s nf batchSize numTrain Hs Hb (fun d k => let* row := idx feature d in idx row k) (entry rO feature) b i) as (v & E & L & N).
  - intros d k Hd Hk. rewrite (idx_nth feature d []) by lia. cbn [bind]. apply idx_nth. specialize (Ht2 d Hd). lia.
  - exists v. split; [exact E|]. split; [exact L|]. exact N.
Qed.
Lemma packLabel_rows s nf batchSize numTrain label b i : (Nat.log2_up nf <= s)%nat -> (0 < batchSize)%nat -> (numTrain <= length label)%nat ->
  let nct := numCtPerBatch (2 ^ s) nf batchSize in let real := realNumDataPerCt (2 ^ s) nf batchSize in
  exists v, packLabel rO (2 ^ s) nf batchSize numTrain label b i = Ok v /\ length v = (2 ^ s)%nat /\
    forall j k, (j < 2 ^ (s - Nat.log2_up nf))%nat -> (k < 2 ^ Nat.log2_up nf)%nat ->
      nth (2 ^ Nat.log2_up nf * j + k) v rO = if Nat.ltb j real && Nat.ltb (b * nct * real + i * real + j) numTrain && Nat.ltb k nf then entry1 rO label (b * nct * real + i * real + j) else rO.
Proof.
  intros Hs Hb Hl nct real. destruct (pack_slots rO s nf batchSize numTrain Hs Hb (fun d _ => idx label d) (fun d _ => entry1 rO label d) b i) as (v & E & L & N).
  - intros d k Hd Hk. apply idx_nth. lia.
  - exists v. split; [exact E|]. split; [exact L|]. exact N.
Qed.
End Ring.

(** ** Real numbers *)
Local Open Scope R_scope.
Definition realRing := Rfield.(F_R).
Lemma c13_ok c1 c3 : c3 <> 0 -> c3 * (c1 / c3) = c1. Proof. intros. field. assumption. Qed.
