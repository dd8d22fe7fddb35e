(** Proofs about the data preparation. *)
From Coq Require Import Reals String ZArith List Lia Lra Bool.
From Coq.Floats Require Import SpecFloat.
From Flocq Require Import Core BinarySingleNaN.
From Verif Require Import Spec Go GoProofs Arith NegRing BasisExt NTT RingOps Params F64 F64Proofs SpecCt SpecSlots SpecLREnc SpecSetup Utils LR LRData SpecData LREncProofs ConcProofs.
Import ListNotations.
Local Open Scope nat_scope.

Lemma setAt_some {A} (v : list A) i x : i < length v -> exists v', setAt v (Z.of_nat i) x = Ok v' /\ length v' = length v /\ forall k, nth_error v' k = if Nat.eqb k i then Some x else nth_error v k.
Proof.
  intros Hi. unfold setAt. destruct (Z.leb_spec 0 (Z.of_nat i)); [|lia]. destruct (Z.ltb_spec (Z.of_nat i) (Z.of_nat (length v))); [|lia]. cbn [andb].
  rewrite Nat2Z.id. eexists. split; [reflexivity|]. assert (L1 : length (firstn i v) = i) by (apply firstn_length_le; lia). split.
  - rewrite app_length. cbn [length]. rewrite L1, skipn_length. lia.
  - intros k. destruct (Nat.eqb_spec k i) as [->|Hne].
    + rewrite nth_error_app2 by lia. rewrite L1, Nat.sub_diag. reflexivity.
    + destruct (Nat.lt_ge_cases k i) as [Hk|Hk].
      * rewrite nth_error_app1 by lia. rewrite <- (firstn_skipn i v) at 2. rewrite nth_error_app1 by lia. reflexivity.
      * rewrite nth_error_app2 by lia. rewrite L1. destruct (k - i) as [|d] eqn:E; [lia|]. cbn [nth_error]. rewrite <- (firstn_skipn (S i) v) at 2.
        rewrite nth_error_app2; rewrite firstn_length_le by lia; [|lia]. f_equal. lia.
Qed.
Lemma setAt_none {A} (v : list A) i x : length v <= i -> setAt v (Z.of_nat i) x = Panic PIndex.
Proof. intros H. unfold setAt. destruct (Z.ltb_spec (Z.of_nat i) (Z.of_nat (length v))); [lia|]. now rewrite andb_false_r. Qed.

(** ** readData *)
Section Read.
Context (parse : string -> option f64).
Lemma csv_ok recs : (forall r r', In r recs -> In r' recs -> length r = length r') -> csvReadAll recs = Ok recs.
Proof.
  intros H. destruct recs as [|r recs]; [reflexivity|]. cbn [csvReadAll]. replace (forallb _ (r :: recs)) with true; [reflexivity|]. symmetry. apply forallb_forall. intros x Hx. apply Nat.eqb_eq, H; [exact Hx|now left].
Qed.
Lemma csv_inv recs rows : csvReadAll recs = Ok rows -> rows = recs /\ forall r r', In r recs -> In r' recs -> length r = length r'.
Proof.
  destruct recs as [|r recs]; cbn [csvReadAll]. { intros [= <-]. split; [reflexivity|]. intros ? ? []. }
  destruct (forallb _ _) eqn:E; [|discriminate]. intros [= <-]. split; [reflexivity|]. rewrite forallb_forall in E. intros a b Ha Hb. apply E in Ha, Hb. apply Nat.eqb_eq in Ha, Hb. congruence.
Qed.
Lemma fields_ok numFeature i width fields j f l : width = j + length fields -> width <= S (length f) -> i < length l -> length f = numFeature -> (forall s, In s fields -> parse s <> None) ->
  exists f' l', readFields parse width j i fields (f, l) = Ok (f', l') /\ length f' = numFeature /\ length l' = length l /\
    (forall k s, nth_error fields k = Some s -> S (j + k) < width -> nth_error f' (j + k) = parse s) /\
    (forall k, k < j \/ width <= S k -> nth_error f' k = nth_error f k) /\
    (forall s, nth_error fields (width - 1 - j) = Some s -> nth_error l' i = parse s) /\ (forall k, k <> i -> nth_error l' k = nth_error l k).
Proof.
  revert j f l. induction fields as [|s fields IH]; intros j f l Hw Hf Hi Hl Hp.
  - exists f, l. cbn [readFields]. split; [reflexivity|]. split; [exact Hl|]. split; [reflexivity|]. split; [intros [|k] s; discriminate|]. split; [reflexivity|]. split; [|reflexivity].
    intros s E. exfalso. destruct (width - 1 - j); discriminate.
  - cbn [length] in Hw. cbn [readFields]. destruct (parse s) as [x|] eqn:Es; [|exfalso; apply (Hp s); [now left|exact Es]]. cbn [bind].
    assert (Hp' : forall s', In s' fields -> parse s' <> None) by (intros s' H; apply Hp; now right).
    destruct (Nat.eqb_spec j (width - 1)) as [Ej|Ej]; cbn [negb fst snd].
    + destruct (setAt_some l i x Hi) as (l1 & E1 & L1 & N1). rewrite E1. cbn [bind]. assert (fields = []) as -> by (destruct fields; [reflexivity|cbn [length] in Hw; lia]). cbn [readFields].
      exists f, l1. split; [reflexivity|]. split; [exact Hl|]. split; [exact L1|]. split. { intros k s' E Hk. lia. }
      split; [reflexivity|]. split.
      * rewrite <- Ej, Nat.sub_diag. cbn [nth_error]. intros s' [= <-]. rewrite N1, Nat.eqb_refl. now rewrite Es.
      * intros k Hk. rewrite N1. destruct (Nat.eqb_spec k i); [lia|reflexivity].
    + assert (Hj : j < length f) by lia. destruct (setAt_some f j x Hj) as (f1 & E1 & L1 & N1). rewrite E1. cbn [bind].
      destruct (IH (S j) f1 l) as (f' & l' & E & Lf & Ll & R1 & R2 & R3 & R4); auto; [lia|lia|lia|]. exists f', l'. split; [exact E|]. split; [exact Lf|]. split; [exact Ll|]. split.
      * intros [|k] s' Ek Hk; cbn [nth_error] in Ek.
        -- injection Ek as <-. rewrite Nat.add_0_r, R2 by lia. rewrite N1, Nat.eqb_refl. now rewrite Es.
        -- replace (j + S k) with (S j + k) by lia. apply R1; [exact Ek|lia].
      * split.
        -- intros k Hk. rewrite R2 by lia. rewrite N1. destruct (Nat.eqb_spec k j); [lia|reflexivity].
        -- split; [|exact R4]. intros s' E'. replace (width - 1 - j) with (S (width - 1 - S j)) in E' by lia. cbn [nth_error] in E'. now apply R3.
Qed.
Lemma fields_inv i width fields j f l r : width = j + length fields -> j <= length f -> readFields parse width j i fields (f, l) = Ok r ->
  (fields <> [] -> width <= S (length f)) /\ forall s, In s fields -> parse s <> None.
Proof.
  revert j f l. induction fields as [|s fields IH]; intros j f l Hw Hj E. { split; [easy|intros s []]. }
  cbn [length] in Hw. cbn [readFields] in E. destruct (parse s) as [x|] eqn:Es; [|discriminate]. cbn [bind] in E.
  destruct (Nat.eqb_spec j (width - 1)) as [Ej|Ej]; cbn [negb fst snd] in E.
  - assert (fields = []) as -> by (destruct fields; [reflexivity|cbn [length] in Hw; lia]).
    split. { intros _. lia. } intros s' [<-|[]]. congruence.
  - destruct (Nat.lt_ge_cases j (length f)) as [Hi|Hi]; [|rewrite setAt_none in E by lia; discriminate].
    destruct (setAt_some f j x Hi) as (f1 & E1 & L1 & N1). rewrite E1 in E. cbn [bind] in E. destruct (IH (S j) f1 l ltac:(lia) ltac:(lia) E) as [H1 H2].
    split. { intros _. destruct fields as [|s' fields]; [cbn [length] in Hw; lia|]. rewrite <- L1. now apply H1. } intros s' [<-|H]; [congruence|now apply H2].
Qed.
Section N.
Context (numFeature : nat).
Notation row_at row f l i := (length f = numFeature /\
    (forall j s, nth_error row j = Some s -> S j < length row -> nth_error f j = parse s) /\
    (forall j, length row <= S j -> j < numFeature -> nth_error f j = Some f0) /\
    (forall s, nth_error row (length row - 1) = Some s -> nth_error l i = parse s)).
Lemma nth_error_rep {A} (a : A) n k : k < n -> nth_error (repeat a n) k = Some a.
Proof. revert k. induction n; intros [|k] H; [lia|lia|reflexivity|cbn; apply IHn; lia]. Qed.
Lemma rows_ok rows i F L : length L = length F -> i + length rows <= length F -> (forall row, In row rows -> length row <= S numFeature /\ forall s, In s row -> parse s <> None) ->
  exists F' L', readRows parse numFeature i rows (F, L) = Ok (F', L') /\ length F' = length F /\ length L' = length L /\
    (forall k row, nth_error rows k = Some row -> exists f, nth_error F' (i + k) = Some f /\ row_at row f L' (i + k)) /\
    (forall k, k < i \/ i + length rows <= k -> nth_error F' k = nth_error F k /\ nth_error L' k = nth_error L k).
Proof.
  revert i F L. induction rows as [|row rows IH]; intros i F L HL Hi Hr.
  - exists F, L. split; [reflexivity|]. split; [reflexivity|]. split; [reflexivity|]. split; [intros [|k] row; discriminate|]. auto.
  - cbn [length] in Hi. cbn [readRows fst snd]. destruct (Hr row (or_introl eq_refl)) as [Hw Hp].
    unfold idx at 1. destruct (nth_error F i) as [f00|] eqn:Ei; [|apply nth_error_None in Ei; lia]. cbn [bind].
    destruct (fields_ok numFeature i (length row) row 0 (repeat f0 numFeature) L) as (f' & l' & E & Lf & Ll & R1 & R2 & R3 & R4); auto.
    { rewrite repeat_length. lia. } { lia. } { apply repeat_length. }
    rewrite E. cbn [bind]. destruct (setAt_some F i f' ltac:(lia)) as (F1 & E1 & L1 & N1). rewrite E1. cbn [bind].
    destruct (IH (S i) F1 l' ltac:(lia) ltac:(lia)) as (F' & L' & E2 & LF & LL & S1 & S2). { intros r H. apply Hr. now right. }
    exists F', L'. split; [exact E2|]. split; [congruence|]. split; [congruence|]. split.
    + intros [|k] r Ek; cbn [nth_error] in Ek.
      * injection Ek as <-. rewrite Nat.add_0_r. destruct (S2 i ltac:(lia)) as [T1 T2]. exists f'. split. { rewrite T1, N1, Nat.eqb_refl. reflexivity. }
        split; [exact Lf|]. split; [intros j s Ej Hj; now apply (R1 j s)|]. split.
        -- intros j Hj Hj2. rewrite (R2 j) by lia. now apply nth_error_rep.
        -- intros s Es. rewrite T2. apply R3. now rewrite Nat.sub_0_r.
      * replace (i + S k) with (S i + k) by lia. now apply S1.
    + intros k Hk. cbn [length] in Hk. destruct (S2 k ltac:(lia)) as [T1 T2]. rewrite T1, T2, N1. destruct (Nat.eqb_spec k i); [lia|]. rewrite R4 by lia. auto.
Qed.
Lemma rows_inv rows i F L r : readRows parse numFeature i rows (F, L) = Ok r -> (rows <> [] -> i + length rows <= length F) /\ forall row, In row rows -> length row <= S numFeature /\ forall s, In s row -> parse s <> None.
Proof.
  revert i F L. induction rows as [|row rows IH]; intros i F L E. { split; [easy|intros row []]. }
  cbn [readRows fst snd] in E. apply bind_inv in E as (f00 & Ei & E). unfold idx in Ei. destruct (nth_error F i) as [ff|] eqn:Ei'; [|discriminate]. assert (Hi : i < length F) by (apply nth_error_Some; congruence).
  apply bind_inv in E as ([f l] & E1 & E). apply bind_inv in E as (F1 & E2 & E). destruct (IH _ _ _ E) as [H1 H2]. destruct (fields_inv i (length row) row 0 (repeat f0 numFeature) L (f, l) eq_refl ltac:(lia) E1) as [H3 H4]. rewrite repeat_length in H3.
  destruct (setAt_some F i f Hi) as (F1' & E1' & L1 & _). rewrite E1' in E2. injection E2 as <-.
  split. { intros _. cbn [length]. destruct rows as [|r' rows]; [cbn [length]; lia|]. specialize (H1 ltac:(easy)). lia. }
  intros r' [<-|H]; [|now apply H2]. split; [|exact H4]. destruct row as [|s row]; [cbn; lia|]. now apply H3.
Qed.
Theorem read_ok numData recs : file_ok parse numData numFeature recs -> exists F L, readData parse numData numFeature recs = Ok (F, L) /\ file_data parse numData numFeature recs F L.
Proof.
  intros (H1 & H2 & H3). unfold readData. rewrite (csv_ok recs H1). cbn [bind]. assert (Ht : length (tl recs) <= numData) by (destruct recs; cbn in *; lia).
  destruct (rows_ok (tl recs) 0 (repeat [] numData) (repeat f0 numData)) as (F & L & E & LF & LL & R1 & R2); rewrite ?repeat_length in *; auto.
  exists F, L. split; [exact E|]. constructor; auto. intros i Hi. destruct (R2 i ltac:(lia)) as [T1 T2]. rewrite T1, T2, !nth_error_rep by lia. auto.
Qed.
Theorem read_iff numData recs : (exists r, readData parse numData numFeature recs = Ok r) <-> file_ok parse numData numFeature recs.
Proof.
  split. 2: { intros H. destruct (read_ok _ _ H) as (F & L & E & _). eauto. }
  intros [r E]. unfold readData in E. apply bind_inv in E as (rows & E1 & E). apply csv_inv in E1 as [-> H1]. destruct (rows_inv _ _ _ _ _ E) as [H2 H3]. rewrite repeat_length in H2. split; [exact H1|]. split; [|exact H3].
  destruct recs as [|h [|r1 rs]]; cbn [length tl] in *; [lia|lia|]. specialize (H2 ltac:(easy)). lia.
Qed.
End N.
End Read.

(** ** loops that update a slice in place *)
Lemma inplace {A} (c : nat -> bool) (g : nat -> A -> res A) m a v : (forall k, a <= k < a + m -> c k = true -> exists x y, nth_error v k = Some x /\ g k x = Ok y) ->
  exists v', foldM (fun v i => if c i then let* x := idx v i in let* y := g i x in setAt v (Z.of_nat i) y else Ok v) (seq a m) v = Ok v' /\ length v' = length v /\
    (forall k, ~ (a <= k < a + m /\ c k = true) -> nth_error v' k = nth_error v k) /\
    (forall k x, a <= k < a + m -> c k = true -> nth_error v k = Some x -> exists y, nth_error v' k = Some y /\ g k x = Ok y).
Proof.
  revert a v. induction m as [|m IH]; intros a v H.
  - exists v. split; [reflexivity|]. split; [reflexivity|]. split; [reflexivity|]. intros; lia.
  - cbn [seq foldM]. destruct (c a) eqn:Ec.
    + destruct (H a ltac:(lia) Ec) as (x & y & Ex & Ey). unfold idx at 1. rewrite Ex. cbn [bind]. rewrite Ey. cbn [bind].
      assert (Ha : a < length v) by (apply nth_error_Some; congruence). destruct (setAt_some v a y Ha) as (v1 & E1 & L1 & N1). rewrite E1. cbn [bind].
      destruct (IH (S a) v1) as (v' & E & L & R1 & R2). { intros k Hk Ek. rewrite N1. destruct (Nat.eqb_spec k a); [lia|]. apply H; [lia|exact Ek]. }
      exists v'. split; [exact E|]. split; [lia|]. split.
      * intros k Hk. rewrite R1 by (intros [? ?]; apply Hk; split; [lia|assumption]). rewrite N1. destruct (Nat.eqb_spec k a) as [->|]; [|reflexivity]. exfalso. apply Hk. split; [lia|exact Ec].
      * intros k x' Hk Ek Ex'. destruct (Nat.eq_dec k a) as [->|Hne].
        -- exists y. rewrite R1 by (intros [? ?]; lia). rewrite N1, Nat.eqb_refl. split; [reflexivity|]. congruence.
        -- apply R2; [lia|exact Ek|]. rewrite N1. destruct (Nat.eqb_spec k a); [lia|exact Ex'].
    + cbn [bind]. destruct (IH (S a) v) as (v' & E & L & R1 & R2). { intros k Hk Ek. apply H; [lia|exact Ek]. }
      exists v'. split; [exact E|]. split; [exact L|]. split.
      * intros k Hk. apply R1. intros [? ?]. apply Hk. split; [lia|assumption].
      * intros k x Hk Ek Ex. apply R2; auto. destruct (Nat.eq_dec k a); [congruence|lia].
Qed.

(** ** labels *)
Theorem relabel_ok isC numData label : numData <= length label -> exists label', relabel isC numData label = Ok label' /\ length label' = length label /\
  (forall i l, i < numData -> nth_error label i = Some l -> nth_error label' i = Some (if isC l then f1 else f0)) /\ forall i, numData <= i -> nth_error label' i = nth_error label i.
Proof.
  intros H. destruct (inplace (fun _ => true) (fun _ l => Ok (if isC l then f1 else f0)) numData 0 label) as (l' & E & L & R1 & R2).
  { intros k Hk _. destruct (nth_error label k) as [x|] eqn:Ex; [eauto|]. apply nth_error_None in Ex. lia. }
  exists l'. split; [exact E|]. split; [exact L|]. split.
  - intros i l Hi El. destruct (R2 i l ltac:(lia) eq_refl El) as (y & Ey & [= <-]). exact Ey.
  - intros i Hi. apply R1. intros [? ?]. lia.
Qed.
Lemma finite_fval f : finite f <-> exists r, fval f r.
Proof.
  split.
  - destruct f as [s|s| |s m e]; cbn [finite]; try easy; intros H.
    + exists 0%R. exists (B754_zero s). repeat split.
    + exists (B2R (B754_finite s m e H : bf)). exists (B754_finite s m e H). repeat split.
  - intros (r & b & -> & Hf & _). destruct b; try discriminate; cbn; auto.
Qed.
Lemma finite_R f : finite f -> fval f (fR f).
Proof. intros H. apply finite_fval in H as (r & H). pose proof (fR_fval _ _ H). now subst. Qed.
Lemma fval_small k : (Z.abs k <= 2 ^ 53)%Z -> fval (f_of_Z k) (IZR k).
Proof.
  intros H. rewrite <- (rnd_IZR k H). apply fval_of_Z. rewrite rnd_IZR by exact H.
  apply Rle_lt_trans with (bpow radix2 53); [|apply bpow_lt; lia]. rewrite <- IZR_pow2_pos by lia. rewrite <- abs_IZR. now apply IZR_le.
Qed.
Lemma feqb_spec x y a b : fval x a -> fval y b -> feqb x y = true <-> a = b.
Proof.
  intros (bx & -> & Fx & <-) (by' & -> & Fy & <-). unfold feqb, SFeqb. 
  change (SFcompare (B2SF bx) (B2SF by')) with (Bcompare bx by'). rewrite Bcompare_correct by auto.
  destruct (Rcompare_spec (B2R bx) (B2R by')); split; intros; try discriminate; try lra; auto.
Qed.
Theorem class_eq k l : (Z.abs k <= 2 ^ 53)%Z -> finite l -> isClass (f_of_Z k) l = true <-> fR l = IZR k.
Proof. intros Hk Hl. apply feqb_spec; [now apply finite_R|now apply fval_small]. Qed.
Lemma trunc_spec l : finite l -> (Rabs (fR l) < IZR (2 ^ 63))%R -> i64_of_f l = Ztrunc (fR l).
Proof.
  intros Hl Hb. destruct l as [s|s| |s m e]; cbn [finite] in Hl; try easy.
  - cbn [fR i64_of_f ftrunc]. rewrite Ztrunc_IZR. reflexivity.
  - assert (T : ftrunc (S754_finite s m e) = Ztrunc (fR (S754_finite s m e))).
    { destruct s.
      - assert (F : fval (S754_finite false m e) (fR (S754_finite false m e))) by (apply finite_R; exact Hl).
        assert (P : (0 <= fR (S754_finite false m e))%R). { cbn [fR]. apply Rmult_le_pos; [apply IZR_le; lia|]. apply powerRZ_le. lra. }
        pose proof (ftrunc_floor _ _ F P) as E.
        replace (fR (S754_finite true m e)) with (- fR (S754_finite false m e))%R by (cbn [fR]; rewrite <- Pos2Z.opp_pos, opp_IZR; ring).
        rewrite Ztrunc_opp, Ztrunc_floor by exact P. rewrite <- E. reflexivity.
      - assert (F : fval (S754_finite false m e) (fR (S754_finite false m e))) by (apply finite_R; exact Hl).
        assert (P : (0 <= fR (S754_finite false m e))%R). { cbn [fR]. apply Rmult_le_pos; [apply IZR_le; lia|]. apply powerRZ_le. lra. }
        rewrite Ztrunc_floor by exact P. now apply ftrunc_floor. }
    cbn [i64_of_f]. rewrite T. set (r := fR _) in *. assert (Z.abs (Ztrunc r) < 2 ^ 63)%Z.
    { apply lt_IZR. rewrite abs_IZR. eapply Rle_lt_trans; [|exact Hb]. rewrite <- abs_IZR, <- Ztrunc_abs. rewrite Ztrunc_floor by apply Rabs_pos. apply Zfloor_lb. }
    destruct (Z.leb_spec (- 2 ^ 63) (Ztrunc r)); [|lia]. destruct (Z.ltb_spec (Ztrunc r) (2 ^ 63)); [|lia]. reflexivity.
Qed.
(** Ztrunc r = 0 means -1 < r < 1 *)
Theorem class_int_0 l : finite l -> isClassInt 0 l = true <-> (-1 < fR l < 1)%R.
Proof.
  intros Hl. unfold isClassInt. rewrite Z.eqb_eq. destruct (Rlt_le_dec (Rabs (fR l)) (IZR (2 ^ 63))) as [Hb|Hb].
  - rewrite trunc_spec by auto. split.
    + intros E. destruct (Rle_lt_dec 0 (fR l)) as [Hp|Hn].
      * rewrite Ztrunc_floor in E by exact Hp. pose proof (Zfloor_ub (fR l)) as U. rewrite E in U. lra.
      * rewrite Ztrunc_ceil in E by lra. pose proof (Zceil_lb (fR l)) as U. rewrite E in U. lra.
    + intros [A B]. destruct (Rle_lt_dec 0 (fR l)) as [Hp|Hn].
      * rewrite Ztrunc_floor by exact Hp. apply Zfloor_imp. cbn. lra.
      * rewrite Ztrunc_ceil by lra. apply Zceil_imp. cbn. lra.
  - split.
    + intros E. exfalso. destruct l as [s|s| |s m e]; cbn [finite] in Hl; try easy.
      * cbn [fR] in Hb. rewrite Rabs_R0 in Hb. assert (0 < IZR (2 ^ 63))%R by (apply IZR_lt; lia). lra.
      * assert (T : Z.abs (ftrunc (S754_finite s m e)) = Zfloor (Rabs (fR (S754_finite s m e)))).
        { assert (F : fval (S754_finite false m e) (fR (S754_finite false m e))) by (apply finite_R; exact Hl).
          assert (P : (0 <= fR (S754_finite false m e))%R). { cbn [fR]. apply Rmult_le_pos; [apply IZR_le; lia|]. apply powerRZ_le. lra. }
          replace (Rabs (fR (S754_finite s m e))) with (fR (S754_finite false m e)).
          2: { destruct s; [|symmetry; now apply Rabs_pos_eq]. replace (fR (S754_finite true m e)) with (- fR (S754_finite false m e))%R by (cbn [fR]; rewrite <- Pos2Z.opp_pos, opp_IZR; ring). rewrite Rabs_Ropp. symmetry. now apply Rabs_pos_eq. }
          rewrite <- (ftrunc_floor _ _ F P). assert (0 <= ftrunc (S754_finite false m e))%Z by (rewrite (ftrunc_floor _ _ F P); apply Zfloor_lub; exact P).
          destruct s; [|lia]. change (ftrunc (S754_finite true m e)) with (- ftrunc (S754_finite false m e))%Z. lia. }
        assert (2 ^ 63 <= Z.abs (ftrunc (S754_finite s m e)))%Z by (rewrite T; apply Zfloor_lub; exact Hb).
        cbn [i64_of_f] in E. set (z := ftrunc _) in *. destruct (Z.leb_spec (- 2 ^ 63) z), (Z.ltb_spec z (2 ^ 63)); cbn [andb] in E. all: lia.
    + intros [A B]. exfalso. assert (Rabs (fR l) < 1)%R by (apply Rabs_def1; lra). assert (1 < IZR (2 ^ 63))%R by (apply IZR_lt; lia). lra.
Qed.
