(** Proofs about the normalisation of the toy data and about counting. *)
From Coq Require Import Reals String ZArith List Lia Lra Bool.
From Coq.Floats Require Import SpecFloat.
From Flocq Require Import Core BinarySingleNaN.
From Verif Require Import Spec Go GoProofs Arith NegRing BasisExt NTT RingOps Params F64 F64Proofs SpecCt SpecEnc SpecSlots SpecLR SpecLREnc SpecSetup Utils LR LRData SpecData LREncProofs LREncLR LRDataProofs.
Import ListNotations.
Local Open Scope nat_scope.

Section Gen.
Context {T : Type} (A : numops T).
Notation cell tab i j := (entry (n0 A) tab i j).
Lemma cell_ok tab n d i j : table tab n d -> i < n -> j < d -> cellAt tab i j = Ok (cell tab i j).
Proof.
  intros [H1 H2] Hi Hj. unfold cellAt, idx, entry. rewrite (nth_error_nth' tab [] (n := i)) by lia. cbn [bind]. rewrite (nth_error_nth' (nth i tab []) (n0 A) (n := j)); [reflexivity|]. specialize (H2 i Hi). lia.
Qed.
Lemma fold_cells tab n d j (h : T -> T -> T) l z : table tab n d -> j < d -> (forall i, In i l -> i < n) ->
  foldM (fun a i => let* x := cellAt tab i j in Ok (h a x)) l z = Ok (fold_left (fun a i => h a (cell tab i j)) l z).
Proof.
  intros Ht Hj. revert z. induction l as [|i l IH]; intros z Hl; [reflexivity|]. cbn [foldM fold_left]. rewrite (cell_ok tab n d i j Ht) by (auto; apply Hl; now left). cbn [bind]. apply IH. intros k Hk. apply Hl. now right.
Qed.
Definition meanOf tab m j : T := ndiv A (fold_left (fun a i => nadd A a (cell tab i j)) (seq 0 m) (n0 A)) (nofnat A m).
Definition stdOf tab m dv j : T := nsqrt A (ndiv A (fold_left (fun a i => nadd A a (nsq A (nsub A (cell tab i j) (meanOf tab m j)))) (seq 0 m) (n0 A)) dv).
Lemma stats_ok tab n d m dv j : table tab n d -> m <= n -> j < d -> columnStats A tab m dv j = Ok (meanOf tab m j, stdOf tab m dv j).
Proof.
  intros Ht Hm Hj. unfold columnStats. rewrite (fold_cells tab n d j (nadd A)); auto; [|intros i Hi; apply in_seq in Hi; lia]. cbn [bind]. cbv zeta.
  rewrite (fold_cells tab n d j (fun a x => nadd A a (nsq A (nsub A x _)))); auto. intros i Hi; apply in_seq in Hi; lia.
Qed.
Lemma mapM_ok {X Y} (f : X -> res Y) (g : X -> Y) l : (forall x, In x l -> f x = Ok (g x)) -> mapM f l = Ok (map g l).
Proof. induction l as [|x l IH]; intros H; [reflexivity|]. cbn [mapM map]. rewrite H by now left. cbn [bind]. rewrite IH; [reflexivity|]. intros y Hy. apply H. now right. Qed.
Lemma normRow_ok stats d row : d <= length row -> d <= length stats -> exists row', normRow A stats d row = Ok row' /\ length row' = length row /\
  forall j, nth_error row' j = match nth_error row j with None => None | Some x => if Nat.ltb j d && scaled j then match nth_error stats j with Some s => Some (ndiv A (nsub A x (fst s)) (snd s)) | None => None end else Some x end.
Proof.
  intros H1 H2. destruct (inplace scaled (fun j x => let* s := idx stats j in Ok (ndiv A (nsub A x (fst s)) (snd s))) d 0 row) as (r' & E & L & R1 & R2).
  { intros k Hk _. destruct (nth_error row k) as [x|] eqn:Ex; [|apply nth_error_None in Ex; lia]. unfold idx. destruct (nth_error stats k) as [s|] eqn:Es; [|apply nth_error_None in Es; lia]. cbn. eauto. }
  exists r'. split.
  - rewrite <- E. unfold normRow. clear. generalize row. induction (seq 0 d) as [|j l IH]; intros r; [reflexivity|]. cbn [foldM]. destruct (scaled j); [|apply IH]. unfold idx. destruct (nth_error r j); [|reflexivity]. cbn [bind].
    destruct (nth_error stats j); [|reflexivity]. cbn [bind]. destruct (setAt _ _ _); [|reflexivity]. cbn [bind]. apply IH.
  - split; [exact L|]. intros j. destruct (nth_error row j) as [x|] eqn:Ex.
    + destruct (Nat.ltb_spec j d) as [Hj|Hj]; cbn [andb].
      * destruct (scaled j) eqn:Es.
        -- destruct (R2 j x ltac:(lia) Es Ex) as (y & Ey & Eg). unfold idx in Eg. destruct (nth_error stats j); [|discriminate]. cbn [bind] in Eg. congruence.
        -- rewrite R1; [exact Ex|]. intros [_ ?]. congruence.
      * rewrite R1; [exact Ex|]. intros [? _]. lia.
    + rewrite R1; [exact Ex|]. intros [Hj _]. apply nth_error_None in Ex. lia.
Qed.
(** every cell of a normalised column is (x - mean) / std, the other columns stay *)
Theorem normalise_cells numData d m dv tab : table tab numData d -> m <= numData -> exists tab', normalise A numData d m dv tab = Ok tab' /\ length tab' = length tab /\ table tab' numData d /\
  (forall i j, i < numData -> j < d -> cell tab' i j = if scaled j then ndiv A (nsub A (cell tab i j) (meanOf tab m j)) (stdOf tab m dv j) else cell tab i j) /\
  (forall i, i < numData -> length (nth i tab' []) = length (nth i tab [])) /\ (forall i j, d <= j -> i < numData -> cell tab' i j = cell tab i j) /\ forall i, numData <= i -> nth i tab' [] = nth i tab [].
Proof.
  intros Ht Hm. pose proof Ht as [Ht1 Ht2]. unfold normalise. rewrite (mapM_ok _ (fun j => (meanOf tab m j, stdOf tab m dv j))). 2: { intros j Hj. apply in_seq in Hj. eapply stats_ok; eauto; lia. }
  cbn [bind]. set (stats := map _ (seq 0 d)). assert (Ls : length stats = d) by (unfold stats; now rewrite map_length, seq_length).
  assert (Hs : forall j, j < d -> nth_error stats j = Some (meanOf tab m j, stdOf tab m dv j)).
  { intros j Hj. unfold stats. rewrite nth_error_map. rewrite (nth_error_nth' (seq 0 d) 0) by now rewrite seq_length. rewrite seq_nth by exact Hj. reflexivity. }
  destruct (inplace (fun _ => true) (fun _ row => normRow A stats d row) numData 0 tab) as (t' & E & L & R1 & R2).
  { intros k Hk _. rewrite (nth_error_nth' tab []) by lia. destruct (normRow_ok stats d (nth k tab [])) as (r & Er & _); [apply Ht2; lia|lia|]. eauto. }
  assert (RW : forall i, i < numData -> exists r, nth i t' [] = r /\ normRow A stats d (nth i tab []) = Ok r).
  { intros i Hi. destruct (R2 i (nth i tab []) ltac:(lia) eq_refl) as (y & Ey & Eg). { apply nth_error_nth'. lia. } exists y. split; [|exact Eg]. now apply nth_error_nth. }
  assert (CL : forall i, i < numData -> length (nth i t' []) = length (nth i tab []) /\ forall j, cell t' i j = if Nat.ltb j d && scaled j then ndiv A (nsub A (cell tab i j) (meanOf tab m j)) (stdOf tab m dv j) else cell tab i j).
  { intros i Hi. destruct (RW i Hi) as (r & Er & En). destruct (normRow_ok stats d (nth i tab [])) as (r' & Er' & Lr & Nr); [apply Ht2; lia|lia|]. rewrite En in Er'. injection Er' as <-. split; [congruence|]. intros j.
    unfold entry at 1. rewrite Er. specialize (Nr j). specialize (Ht2 i Hi). destruct (nth_error (nth i tab []) j) as [x|] eqn:Ex.
    - assert (Ecell : cell tab i j = x) by (unfold entry; now apply nth_error_nth). destruct (Nat.ltb_spec j d) as [Hj|Hj]; cbn [andb] in *.
      + destruct (scaled j); [|rewrite Ecell; now apply nth_error_nth]. rewrite (Hs j Hj) in Nr. cbn [fst snd] in Nr. rewrite Ecell. now apply nth_error_nth.
      + rewrite Ecell. now apply nth_error_nth.
    - apply nth_error_None in Ex. destruct (Nat.ltb_spec j d); [lia|]. cbn [andb]. unfold entry. rewrite !nth_overflow; auto. lia. }
  exists t'. split; [exact E|]. split; [exact L|]. split. { split; [lia|]. intros i Hi. destruct (CL i Hi) as [-> _]. now apply Ht2. }
  split. { intros i j Hi Hj. destruct (CL i Hi) as [_ ->]. destruct (Nat.ltb_spec j d); [|lia]. reflexivity. }
  split. { intros i Hi. apply CL; exact Hi. } split. { intros i j Hj Hi. destruct (CL i Hi) as [_ ->]. destruct (Nat.ltb_spec j d); [lia|]. reflexivity. }
  intros i Hi. destruct (nth_error tab i) as [x|] eqn:Ex.
  - rewrite (nth_error_nth _ _ _ Ex). apply nth_error_nth. rewrite R1; [exact Ex|]. intros [? _]. lia.
  - rewrite !nth_overflow; auto; [|rewrite L]; now apply nth_error_None.
Qed.
(** a file with too few rows *)
Theorem normalise_missing numData d m dv tab i : i < numData -> nth_error tab i = Some [] -> 0 < d -> forall t', normalise A numData d m dv tab <> Ok t'.
Proof.
  intros Hi Hr Hd t' E. unfold normalise in E. apply bind_inv in E as (stats & _ & E). revert E.
  assert (G : forall n a t0 t1, a <= i < a + n -> nth_error t0 i = Some [] -> foldM (fun tab i => let* row := idx tab i in let* row := normRow A stats d row in setAt tab (Z.of_nat i) row) (seq a n) t0 <> Ok t1).
  { clear - Hd. induction n as [|n IH]; intros a t0 t1 H1 H2; [lia|]. cbn [seq foldM]. destruct (Nat.eq_dec a i) as [->|Hne].
    - unfold idx at 1. rewrite H2. cbn [bind]. unfold normRow. destruct d as [|d']; [lia|]. cbn. discriminate.
    - unfold idx at 1. destruct (nth_error t0 a) eqn:Ea; [|discriminate]. cbn [bind]. destruct (normRow A stats d l) as [r|]; [|discriminate]. cbn [bind].
      assert (a < length t0) by (apply nth_error_Some; congruence). destruct (setAt_some t0 a r ltac:(lia)) as (t2 & E2 & L2 & R2). rewrite E2. cbn [bind]. apply IH; [lia|]. rewrite R2. destruct (Nat.eqb_spec i a); [lia|exact H2]. }
  apply G; [lia|exact Hr].
Qed.
End Gen.

(** ** real arithmetic: mean 0, variance 1 *)
Lemma rsum_ext n f g : (forall i, i < n -> f i = g i) -> rsum n f = rsum n g.
Proof. induction n as [|n IH]; intros H; [reflexivity|]. cbn [rsum]. rewrite IH by auto. now rewrite H by lia. Qed.
Lemma rsum_fold n f : fold_left (fun a i => (a + f i)%R) (seq 0 n) 0%R = rsum n f.
Proof. induction n as [|n IH]; [reflexivity|]. rewrite seq_S, fold_left_app, IH. reflexivity. Qed.
Lemma rsum_scale n f c : rsum n (fun i => (f i * c)%R) = (rsum n f * c)%R.
Proof. induction n as [|n IH]; cbn [rsum]; [ring|]. rewrite IH. ring. Qed.
Lemma rsum_minus n f c : rsum n (fun i => (f i - c)%R) = (rsum n f - INR n * c)%R.
Proof. induction n as [|n IH]; [cbn; ring|]. cbn [rsum]. rewrite IH, S_INR. ring. Qed.
Lemma rsum_pos n f : (forall i, i < n -> (0 <= f i)%R) -> (0 <= rsum n f)%R.
Proof. induction n as [|n IH]; intros H; cbn [rsum]; [lra|]. assert (0 <= rsum n f)%R by (apply IH; intros; apply H; lia). specialize (H n ltac:(lia)). lra. Qed.
Lemma rsum_zero n f : (forall i, i < n -> (0 <= f i)%R) -> rsum n f = 0%R -> forall i, i < n -> f i = 0%R.
Proof.
  induction n as [|n IH]; intros H E i Hi; [lia|]. cbn [rsum] in E. assert (0 <= rsum n f)%R by (apply rsum_pos; intros; apply H; lia). pose proof (H n ltac:(lia)).
  destruct (Nat.eq_dec i n) as [->|Hne]; [lra|]. apply IH; [intros; apply H; lia|lra|lia].
Qed.
Theorem normalise_real numData d m dv tab : table tab numData d -> 0 < m <= numData -> (0 < dv)%R -> exists tab', normalise Rnum numData d m dv tab = Ok tab' /\ table tab' numData d /\
  (forall i j, i < numData -> j < d -> scaled j = false -> entry 0%R tab' i j = entry 0%R tab i j) /\
  forall j, j < d -> scaled j = true -> (exists i i', i < m /\ i' < m /\ entry 0%R tab i j <> entry 0%R tab i' j) ->
    rsum m (fun i => entry 0%R tab' i j) = 0%R /\ rsum m (fun i => (entry 0%R tab' i j * entry 0%R tab' i j)%R) = dv /\
    exists a b, (0 < a)%R /\ forall i, i < numData -> entry 0%R tab' i j = (a * entry 0%R tab i j + b)%R.
Proof.
  intros Ht Hm Hdv. destruct (normalise_cells Rnum numData d m dv tab Ht ltac:(lia)) as (t' & E & L & Tt & C & _). cbn [n0 Rnum ndiv nsub] in C. exists t'. split; [exact E|]. split; [exact Tt|]. split.
  { intros i j Hi Hj Hs. rewrite C by auto. now rewrite Hs. }
  intros j Hj Hs (i1 & i2 & Hi1 & Hi2 & Hne). set (x := fun i => entry 0%R tab i j). set (mu := meanOf Rnum tab m j) in *. set (sd := stdOf Rnum tab m dv j) in *.
  assert (Hm0 : (0 < INR m)%R) by (apply lt_0_INR; lia).
  assert (Emu : mu = (rsum m x / INR m)%R) by exact (f_equal (fun y => y / INR m)%R (rsum_fold m x)).
  set (q := rsum m (fun i => ((x i - mu) * (x i - mu))%R)). assert (Esd : sd = sqrt (q / dv)). { exact (f_equal (fun y => sqrt (y / dv)) (rsum_fold m (fun i => ((x i - mu) * (x i - mu))%R))). }
  assert (Hq : (0 < q)%R).
  { assert (Hq0 : (0 <= q)%R) by (apply rsum_pos; intros; apply Rle_0_sqr). destruct (Req_dec q 0) as [Eq|]; [|lra]. exfalso. apply Hne.
    assert (Z0 : forall i, i < m -> x i = mu). { intros i Hi. pose proof (rsum_zero m _ (fun i _ => Rle_0_sqr (x i - mu)) Eq i Hi) as Hz. apply Rsqr_0_uniq in Hz. lra. }
    fold (x i1) (x i2). now rewrite !Z0. }
  assert (Hd : (0 < q / dv)%R) by (apply Rdiv_lt_0_compat; assumption). assert (Hsd : (0 < sd)%R) by (rewrite Esd; now apply sqrt_lt_R0).
  assert (Hss : (sd * sd = q / dv)%R) by (rewrite Esd; apply sqrt_sqrt; lra).
  assert (Cx : forall i, i < numData -> entry 0%R t' i j = ((x i - mu) * / sd)%R). { intros i Hi. rewrite C by auto. rewrite Hs. reflexivity. }
  split; [|split].
  - rewrite (rsum_ext m _ (fun i => ((x i - mu) * / sd)%R)) by (intros; apply Cx; lia). rewrite rsum_scale, rsum_minus, Emu. field. lra.
  - rewrite (rsum_ext m _ (fun i => ((x i - mu) * (x i - mu)) * / (sd * sd))%R). 2: { intros i Hi. rewrite Cx by lia. field. lra. }
    rewrite rsum_scale. fold q. rewrite Hss. field. split; lra.
  - exists (/ sd)%R, (- mu / sd)%R. split; [now apply Rinv_0_lt_compat|]. intros i Hi. rewrite Cx by auto. fold (x i). field. lra.
Qed.

(** ** float64: constant columns *)
Definition is0 (f : f64) : Prop := exists s, f = S754_zero s.
Lemma fsub_same x y r : fval x r -> fval y r -> is0 (fsub x y).
Proof.
  intros (bx & -> & Fx & Ex) (b0 & -> & Fy & Ey). destruct bx as [s|s| |s m e Hx]; try discriminate.
  - destruct b0 as [s'|s'| |s' m' e' Hy]; try discriminate.
    + cbn. destruct (Bool.eqb _ _); eexists; reflexivity.
    + exfalso. cbn [B2R] in Ex, Ey. rewrite <- Ex in Ey. apply eq_0_F2R in Ey. destruct s'; discriminate.
  - destruct b0 as [s'|s'| |s' m' e' Hy]; try discriminate.
    + exfalso. cbn [B2R] in Ex, Ey. rewrite <- Ey in Ex. apply eq_0_F2R in Ex. destruct s; discriminate.
    + assert (E : B754_finite s m e Hx = B754_finite s' m' e' Hy :> bf). { apply B2R_inj; [reflexivity|reflexivity|congruence]. }
      rewrite E. cbn [B2SF]. unfold fsub, SFsub. rewrite Z.min_id.
      set (z := (_ - _)%Z). assert (z = 0%Z) as -> by (unfold z; destruct s'; lia). eexists; reflexivity.
Qed.
Lemma is0_mul x y : is0 x -> is0 y -> is0 (fmul x y).
Proof. intros [s ->] [s' ->]. eexists. reflexivity. Qed.
Lemma is0_add x y : is0 x -> is0 y -> is0 (fadd x y).
Proof. intros [s ->] [s' ->]. cbn. destruct (Bool.eqb _ _); eexists; reflexivity. Qed.
Lemma is0_div x y : is0 x -> is0 (fdiv x y) \/ fdiv x y = S754_nan.
Proof. intros [s ->]. destruct y; cbn; auto; left; eexists; reflexivity. Qed.
Theorem constant_column numData d m dv tab j k : table tab numData d -> 0 < m <= numData -> j < d -> scaled j = true -> (Z.abs k * Z.of_nat m <= 2 ^ 53)%Z ->
  (forall i, i < m -> finite (entry f0 tab i j) /\ fR (entry f0 tab i j) = IZR k) ->
  exists tab', normalise f64num numData d m dv tab = Ok tab' /\ forall i, i < m -> entry f0 tab' i j = S754_nan.
Proof.
  intros Ht Hm Hj Hs Hk Hc. destruct (normalise_cells f64num numData d m dv tab Ht ltac:(lia)) as (t' & E & L & Tt & C & _). cbn [n0 f64num ndiv nsub] in C. exists t'. split; [exact E|].
  assert (F : forall i, i < m -> fval (entry f0 tab i j) (IZR k)). { intros i Hi. destruct (Hc i Hi) as [H1 H2]. rewrite <- H2. now apply finite_R. }
  assert (BIG : forall z, (Z.abs z <= 2 ^ 53)%Z -> (Rabs (rnd (IZR z)) < bpow radix2 1024)%R).
  { intros z Hz. rewrite rnd_IZR by exact Hz. apply Rle_lt_trans with (bpow radix2 53); [|apply bpow_lt; lia]. rewrite <- IZR_pow2_pos by lia. rewrite <- abs_IZR. now apply IZR_le. }
  assert (SUM : forall n, n <= m -> fval (fold_left (fun a i => fadd a (entry f0 tab i j)) (seq 0 n) f0) (IZR (k * Z.of_nat n))).
  { induction n as [|n IH]; intros Hn. { rewrite Z.mul_0_r. apply fval_f0. } rewrite seq_S, fold_left_app. cbn [fold_left plus]. assert (B : (Z.abs (k * Z.of_nat (S n)) <= 2 ^ 53)%Z) by (rewrite Z.abs_mul; nia).
    replace (IZR (k * Z.of_nat (S n))) with (rnd (IZR (k * Z.of_nat n) + IZR k)).
    - apply fval_add; [apply IH; lia|apply F; lia|]. rewrite <- plus_IZR. replace (k * Z.of_nat n + k)%Z with (k * Z.of_nat (S n))%Z by lia. now apply BIG.
    - rewrite <- plus_IZR. replace (k * Z.of_nat n + k)%Z with (k * Z.of_nat (S n))%Z by lia. now apply rnd_IZR. }
  assert (Bk : (Z.abs k <= 2 ^ 53)%Z) by nia.
  assert (MEAN : k <> 0%Z -> fval (meanOf f64num tab m j) (IZR k)).
  { intros Hk0. unfold meanOf. cbn [n0 f64num ndiv nadd nofnat]. assert (Hmb : (Z.of_nat m <= 2 ^ 53)%Z) by nia.
    replace (IZR k) with (rnd (IZR (k * Z.of_nat m) / IZR (Z.of_nat m))).
    - apply fval_div; [apply SUM; lia|apply fval_small; lia|apply not_0_IZR; lia|]. replace (IZR (k * Z.of_nat m) / IZR (Z.of_nat m))%R with (IZR k) by (rewrite mult_IZR; field; apply not_0_IZR; lia). now apply BIG.
    - replace (IZR (k * Z.of_nat m) / IZR (Z.of_nat m))%R with (IZR k) by (rewrite mult_IZR; field; apply not_0_IZR; lia). now apply rnd_IZR. }
  assert (SUB : forall i, i < m -> is0 (fsub (entry f0 tab i j) (meanOf f64num tab m j)) \/ fsub (entry f0 tab i j) (meanOf f64num tab m j) = S754_nan).
  { intros i Hi. destruct (Z.eq_dec k 0) as [->|Hk0]; [|left; eapply fsub_same; [apply F; exact Hi|now apply MEAN]].
    pose proof (SUM m ltac:(lia)) as S0. rewrite Z.mul_0_l in S0. unfold meanOf. cbn [n0 f64num ndiv nadd nofnat].
    assert (Z0 : forall x, fval x 0 -> is0 x). { intros x (b & -> & Fb & Eb). destruct b as [s|s| |s mm e Hb]; try discriminate; [eexists; reflexivity|]. exfalso. cbn [B2R] in Eb. apply eq_0_F2R in Eb. destruct s; discriminate. }
    destruct (is0_div _ (f_of_Z (Z.of_nat m)) (Z0 _ S0)) as [[s ->]| ->].
    - left. destruct (Z0 _ (F i Hi)) as [s' ->]. cbn. destruct (Bool.eqb _ _); eexists; reflexivity.
    - right. destruct (Z0 _ (F i Hi)) as [s' ->]. reflexivity. }
  assert (STD : is0 (stdOf f64num tab m dv j) \/ stdOf f64num tab m dv j = S754_nan).
  { unfold stdOf. cbn [n0 f64num ndiv nadd nsub nsq nsqrt]. set (mu := meanOf f64num tab m j) in *.
    assert (Q : forall n, n <= m -> is0 (fold_left (fun a i => fadd a (fmul (fsub (entry f0 tab i j) mu) (fsub (entry f0 tab i j) mu))) (seq 0 n) f0) \/ fold_left (fun a i => fadd a (fmul (fsub (entry f0 tab i j) mu) (fsub (entry f0 tab i j) mu))) (seq 0 n) f0 = S754_nan).
    { induction n as [|n IH]; intros Hn; [left; eexists; reflexivity|]. rewrite seq_S, fold_left_app. cbn [fold_left plus]. destruct (IH ltac:(lia)) as [Hz| ->]; [|right; reflexivity].
      destruct (SUB n ltac:(lia)) as [H0| ->]. { left. apply is0_add; [exact Hz|]. now apply is0_mul. } right. destruct Hz as [s ->]. reflexivity. }
    destruct (Q m (Nat.le_refl _)) as [Hz| ->]; [|right; reflexivity]. destruct (is0_div _ dv Hz) as [[s ->]| ->]; [left; eexists; reflexivity|right; reflexivity]. }
  intros i Hi. rewrite C by lia. rewrite Hs. destruct (SUB i Hi) as [[s ->]| ->], STD as [[s' ->]| ->]; reflexivity.
Qed.
