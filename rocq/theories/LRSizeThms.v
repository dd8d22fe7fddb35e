(** The float64 sizes are the exact ones; math.Pow(d, 2) is the rounded square. *)
From Coq Require Import ZArith Reals Lia Lra Psatz Bool List.
From Coq.Floats Require Import SpecFloat.
From Flocq Require Import Core BinarySingleNaN.
From Verif Require Import Go GoProofs F64 F64Proofs F64More Utils EvFloat LRSize DecomposeProofs BasisExt SpecEv SpecLREnc LREncProofs SpecSize LRSizeProofs LR.
Local Open Scope R_scope.

Lemma i64_pow2 x k : fval x (bpow radix2 k) -> (0 <= k <= 62)%Z -> i64_of_f x = (2 ^ k)%Z.
Proof.
  intros F Hk. rewrite <- IZR_pow2_pos in F by lia. destruct (i64_val _ _ F) as (z & Ez & _ & _ & _ & T). rewrite Ez. rewrite Ztrunc_IZR in T. apply T.
  pose proof (Z.pow_pos_nonneg 2 k ltac:(lia) ltac:(lia)). split; [lia|]. apply Z.pow_lt_mono_r; lia.
Qed.
Lemma i64_small x k : fval x (bpow radix2 k) -> (k < 0)%Z -> i64_of_f x = 0%Z.
Proof.
  intros F Hk. destruct (i64_val _ _ F) as (z & Ez & _ & _ & _ & T). rewrite Ez. assert (E : Ztrunc (bpow radix2 k) = 0%Z).
  { rewrite Ztrunc_floor by apply bpow_ge_0. apply Zfloor_imp. split; [apply bpow_ge_0|]. change (IZR (0 + 1)) with (bpow radix2 0). now apply bpow_lt. }
  rewrite E in T. apply T. lia.
Qed.
Lemma fpow2_exact ex k : (0 <= k <= 62)%Z -> fpow2 ex k = (2 ^ k)%Z.
Proof. intros H. apply i64_pow2; [|exact H]. apply pow_2; [apply fval_Z; lia|lia]. Qed.

Lemma goCeil_div a b : (1 <= a < 2 ^ 53)%Z -> (0 < b < 2 ^ 53)%Z -> goCeil (fdiv (f_of_Z a) (f_of_Z b)) = ((a + b - 1) / b)%Z.
Proof.
  intros Ha Hb. assert (E : fceil (fdiv (f_of_Z a) (f_of_Z b)) = ((a + b - 1) / b)%Z) by (apply ceil_div_f_exact; lia).
  assert (F : exists r, fval (fdiv (f_of_Z a) (f_of_Z b)) r).
  { eexists. apply fval_div; [apply fval_Z; lia|apply fval_Z; lia|apply not_0_IZR; lia|]. apply (rnd_lt_big _ 53); [lia|lia|].
    rewrite <- IZR_pow2_pos by lia. assert (1 <= IZR b) by (apply (IZR_le 1); lia). assert (0 <= IZR a) by (apply (IZR_le 0); lia). rewrite Rabs_pos_eq.
    - apply Rle_trans with (IZR a); [|apply IZR_le; lia]. apply Rmult_le_reg_r with (IZR b); [lra|]. unfold Rdiv. rewrite Rmult_assoc, Rinv_l by lra. nra.
    - apply Rmult_le_pos; [assumption|]. left. apply Rinv_0_lt_compat. lra. }
  assert (0 <= (a + b - 1) / b < 2 ^ 63)%Z. { split; [apply Z.div_pos; lia|]. apply Z.div_lt_upper_bound; [lia|]. nia. }
  assert (X : goCeil (fdiv (f_of_Z a) (f_of_Z b)) = if ((- 2 ^ 63 <=? fceil (fdiv (f_of_Z a) (f_of_Z b))) && (fceil (fdiv (f_of_Z a) (f_of_Z b)) <? 2 ^ 63))%Z then fceil (fdiv (f_of_Z a) (f_of_Z b)) else (- 2 ^ 63)%Z).
  { destruct F as (r & bb & -> & Fb & _). destruct bb; try easy; reflexivity. }
  rewrite X, E. destruct (Z.leb_spec (- 2 ^ 63) ((a + b - 1) / b)); [|lia]. destruct (Z.ltb_spec ((a + b - 1) / b) (2 ^ 63)); [reflexivity|lia].
Qed.

Section Sizes.
Context (lg ex : f64 -> f64) (s nf : Z) (Hlg : log_ok lg) (Hs : (0 <= s <= 40)%Z) (Hnf : (1 <= nf <= 2 ^ 40)%Z).
Notation c := (Z.log2_up nf).
Lemma c_range : (0 <= c <= 40)%Z.
Proof. split; [apply Z.log2_up_nonneg|]. rewrite <- (Z.log2_up_pow2 40) by lia. apply Z.log2_up_le_mono. lia. Qed.
Lemma log_exact : flogslotsPerData lg nf = c.
Proof.
  destruct (log2_val lg nf Hlg Hnf) as (v & F & V0 & V & _). unfold flogslotsPerData. apply (goCeil_val _ v); auto. pose proof c_range. lia.
Qed.
Lemma slots_exact : fslotsPerData lg ex nf = (2 ^ c)%Z.
Proof. unfold fslotsPerData. rewrite log_exact. apply fpow2_exact. pose proof c_range. lia. Qed.
Lemma diff_val : fval (goPow ex (f_of_Z 2) (fsub (goLog2 lg (f_of_Z (2 ^ s))) (f_of_Z c))) (bpow radix2 (s - c)).
Proof.
  pose proof c_range as Hc. pose proof (Z.pow_pos_nonneg 2 s ltac:(lia) ltac:(lia)) as Hp. assert (2 ^ s <= 2 ^ 40)%Z by (apply Z.pow_le_mono_r; lia).
  destruct (log2_val lg (2 ^ s) Hlg ltac:(lia)) as (v & F & _ & _ & V). rewrite (V s ltac:(lia) eq_refl) in F.
  apply pow_2; [|lia]. assert (Fc : fval (f_of_Z c) (IZR c)) by (apply fval_Z; lia).
  pose proof (fval_sub _ _ _ _ F Fc) as G. rewrite <- minus_IZR, rnd_IZR in G by lia. apply G.
  rewrite <- abs_IZR. apply Rle_lt_trans with (IZR (2 ^ 40)); [apply IZR_le; lia|]. rewrite IZR_pow2_pos by lia. apply bpow_lt. lia.
Qed.
Lemma perCt_exact : (c <= s)%Z -> fnumDataPerCt lg ex (2 ^ s) nf = (2 ^ (s - c))%Z.
Proof. intros H. unfold fnumDataPerCt. rewrite log_exact. apply i64_pow2; [apply diff_val|]. pose proof c_range. lia. Qed.
Lemma perCt_none : (s < c)%Z -> fnumDataPerCt lg ex (2 ^ s) nf = 0%Z.
Proof. intros H. unfold fnumDataPerCt. rewrite log_exact. eapply i64_small; [apply diff_val|]. lia. Qed.

Lemma cts_exact batch : (c <= s)%Z -> (1 <= batch < 2 ^ 53)%Z -> fnumCtPerBatch lg ex (2 ^ s) nf batch = ((batch + 2 ^ (s - c) - 1) / 2 ^ (s - c))%Z.
Proof.
  intros H Hb. unfold fnumCtPerBatch. rewrite perCt_exact by exact H. apply goCeil_div; [exact Hb|]. pose proof c_range. split; [apply Z.pow_pos_nonneg; lia|]. apply Z.pow_lt_mono_r; lia.
Qed.
Lemma c_le : (nf <= 2 ^ s)%Z -> (c <= s)%Z.
Proof. intros H. rewrite <- (Z.log2_up_pow2 s) by lia. now apply Z.log2_up_le_mono. Qed.
Lemma c_gt : (2 ^ s < nf)%Z -> (s < c)%Z.
Proof. intros H. apply Z.log2_up_lt_pow2; lia. Qed.

Theorem sizes_right batch : (nf <= 2 ^ s)%Z -> (1 <= batch < 2 ^ 53)%Z ->
  sizes_ok (2 ^ s) nf batch (fslotsPerData lg ex nf) (fnumDataPerCt lg ex (2 ^ s) nf) (frealNumDataPerCt lg ex (2 ^ s) nf batch) (fnumCtPerBatch lg ex (2 ^ s) nf batch).
Proof.
  intros Hf Hb. pose proof (c_le Hf) as Hc. pose proof c_range as Cr. pose proof (Z.pow_pos_nonneg 2 (s - c) ltac:(lia) ltac:(lia)) as Pp.
  unfold frealNumDataPerCt. rewrite slots_exact, perCt_exact, cts_exact by auto. set (p := (2 ^ (s - c))%Z) in *.
  pose proof (Z.div_mod (batch + p - 1) p ltac:(lia)) as Hdm. pose proof (Z.mod_pos_bound (batch + p - 1) p ltac:(lia)) as Hm.
  split.
  - exists c. split; [lia|reflexivity].
  - destruct (Z.eq_dec nf 1) as [->|]; [change (Z.log2_up 1) with 0%Z; reflexivity|]. apply Z.log2_up_spec. lia.
  - destruct (Z.eq_dec nf 1) as [->|]; [reflexivity|]. pose proof (Z.log2_up_spec nf ltac:(lia)) as (L & _). replace c with (1 + Z.pred c)%Z by lia. rewrite Z.pow_add_r; [lia|lia|]. pose proof (Z.log2_up_pos nf ltac:(lia)). lia.
  - unfold p. rewrite <- Z.pow_add_r by lia. f_equal. lia.
  - cbv zeta. destruct (Z.ltb_spec batch p); lia.
  - nia.
  - nia.
Qed.
Theorem sizes_none batch : (2 ^ s < nf)%Z -> (1 <= batch < 2 ^ 53)%Z -> fnumDataPerCt lg ex (2 ^ s) nf = 0%Z /\ fnumCtPerBatch lg ex (2 ^ s) nf batch = (- 2 ^ 63)%Z.
Proof.
  intros Hf Hb. pose proof (perCt_none (c_gt Hf)) as E. split; [exact E|]. unfold fnumCtPerBatch. rewrite E. change (f_of_Z 0) with (S754_zero false).
  assert (F : fval (f_of_Z batch) (IZR batch)) by (apply fval_Z; lia).
  destruct F as (b & Eb & Fb & Rb). rewrite Eb. destruct b; easy.
Qed.
End Sizes.

Lemma log2_up_nat n : Z.of_nat (Nat.log2_up n) = Z.log2_up (Z.of_nat n).
Proof.
  destruct n as [|[|n]]; [reflexivity|reflexivity|]. symmetry. apply Z.log2_up_unique.
  - pose proof (Nat.log2_up_pos (S (S n)) ltac:(lia)). lia.
  - pose proof (Nat.log2_up_spec (S (S n)) ltac:(lia)) as (A & B). pose proof (Nat.log2_up_pos (S (S n)) ltac:(lia)) as P. rewrite <- Nat2Z.inj_pred by exact P.
    rewrite <- !(Nat2Z.inj_pow 2). lia.
Qed.
Theorem sizes_model lg ex (s nf batch : nat) : log_ok lg -> (s <= 40)%nat -> (1 <= nf <= 2 ^ s)%nat -> (1 <= batch)%nat -> (Z.of_nat batch < 2 ^ 53)%Z ->
  let S := (2 ^ Z.of_nat s)%Z in
  fslotsPerData lg ex (Z.of_nat nf) = Z.of_nat (slotsPerData nf) /\
  fnumDataPerCt lg ex S (Z.of_nat nf) = Z.of_nat (numDataPerCt (2 ^ s) nf) /\
  frealNumDataPerCt lg ex S (Z.of_nat nf) (Z.of_nat batch) = Z.of_nat (realNumDataPerCt (2 ^ s) nf batch) /\
  fnumCtPerBatch lg ex S (Z.of_nat nf) (Z.of_nat batch) = Z.of_nat (numCtPerBatch (2 ^ s) nf batch).
Proof.
  intros Hlg Hs Hnf Hb Hb' S. assert (Hn : (Z.of_nat nf <= 2 ^ Z.of_nat s)%Z) by (rewrite <- (Nat2Z.inj_pow 2); lia).
  assert (H40 : (2 ^ Z.of_nat s <= 2 ^ 40)%Z) by (apply Z.pow_le_mono_r; lia).
  assert (H40' : (Z.of_nat nf <= 2 ^ 40)%Z) by lia. pose proof (c_le (Z.of_nat s) (Z.of_nat nf) ltac:(lia) Hn) as Hc. rewrite <- log2_up_nat in Hc.
  assert (E2 : fnumDataPerCt lg ex S (Z.of_nat nf) = Z.of_nat (numDataPerCt (2 ^ s) nf)).
  { unfold S. rewrite (perCt_exact lg ex (Z.of_nat s) (Z.of_nat nf) Hlg) by (rewrite <- ?log2_up_nat; lia). unfold numDataPerCt. rewrite Nat.log2_pow2, <- log2_up_nat, (Nat2Z.inj_pow 2), Nat2Z.inj_sub by lia. reflexivity. }
  split; [rewrite slots_exact by (auto; lia); unfold slotsPerData; now rewrite <- log2_up_nat, (Nat2Z.inj_pow 2)|].
  split; [exact E2|]. split.
  - unfold frealNumDataPerCt, realNumDataPerCt. rewrite E2. cbv zeta. destruct (Z.ltb_spec (Z.of_nat batch) (Z.of_nat (numDataPerCt (2 ^ s) nf))), (Nat.ltb_spec batch (numDataPerCt (2 ^ s) nf)); lia.
  - unfold fnumCtPerBatch, numCtPerBatch. rewrite E2. cbv zeta. assert (P : (0 < numDataPerCt (2 ^ s) nf)%nat) by (unfold numDataPerCt; apply Nat.neq_0_lt_0, Nat.pow_nonzero; lia).
    assert (Q : (Z.of_nat (numDataPerCt (2 ^ s) nf) < 2 ^ 53)%Z).
    { unfold numDataPerCt. rewrite Nat.log2_pow2, (Nat2Z.inj_pow 2) by lia. apply Z.pow_lt_mono_r; lia. }
    rewrite goCeil_div by lia. rewrite Nat2Z.inj_div. f_equal. lia.
Qed.

(** a logarithm of that accuracy exists *)
Definition lgW (x : f64) : f64 := fdiv (f_of_Z (Zfloor (2 ^ 45 * (ln (fR x) / ln 2)))) (f_of_Z (2 ^ 45)).
Lemma lgW_ok : log_ok lgW.
Proof.
  intros f Hf Hr. unfold lgW. set (y := ln (fR f) / ln 2). destruct ln2_bounds as (L1 & L2).
  assert (Y : -1 <= y <= 0).
  { assert (A : ln (fR f) <= 0) by (pose proof (ln_le (fR f) ltac:(lra)); lra).
    assert (B : - ln 2 <= ln (fR f)). { rewrite <- ln_Rinv by lra. destruct (Rle_lt_or_eq_dec _ _ (proj1 Hr)) as [X|X]; [left; apply ln_increasing; lra|rewrite X; lra]. }
    unfold y. split; apply Rmult_le_reg_r with (ln 2); try lra; unfold Rdiv; rewrite Rmult_assoc, Rinv_l by lra; lra. }
  set (K := 2 ^ 45). assert (EK : K = IZR (2 ^ 45)) by (unfold K; rewrite pow_IZR; reflexivity).
  assert (PK : 0 < K) by (unfold K; apply pow_lt; lra).
  set (z := Zfloor (K * y)). pose proof (Zfloor_lb (K * y)) as Z1. pose proof (Zfloor_ub (K * y)) as Z2. fold z in Z1, Z2.
  assert (Hz : (- 2 ^ 45 <= z <= 0)%Z).
  { split. - apply Zfloor_lub. rewrite opp_IZR, <- EK. nra. - apply le_IZR. nra. }
  assert (E : IZR z / IZR (2 ^ 45) = F2R (Float radix2 z (-45))). { unfold F2R, Rdiv. cbn [Fnum Fexp]. f_equal. }
  assert (G : rnd (IZR z / IZR (2 ^ 45)) = IZR z / IZR (2 ^ 45)).
  { apply round_generic; [typeclasses eauto|]. rewrite E. apply generic_format_FLT. exists (Float radix2 z (-45)); [reflexivity| |cbn; lia]. cbn [Fnum]. change (Zpower radix2 53) with (2 ^ 53)%Z. lia. }
  assert (F : fval (fdiv (f_of_Z z) (f_of_Z (2 ^ 45))) (IZR z / IZR (2 ^ 45))).
  { rewrite <- G. apply fval_div; [apply fval_Z; lia|apply fval_Z; lia|apply not_0_IZR; lia|]. rewrite G. rewrite <- EK. unfold Rdiv. rewrite Rabs_mult, (Rabs_pos_eq (/ K)) by (left; apply Rinv_0_lt_compat; lra).
    assert (Rabs (IZR z) <= K). { rewrite <- abs_IZR, EK. apply IZR_le. lia. }
    apply Rle_lt_trans with 1; [|change 1 with (bpow radix2 0); apply bpow_lt; lia]. apply Rmult_le_reg_r with K; [lra|]. rewrite Rmult_assoc, Rinv_l by lra. lra. }
  destruct (val_finite _ _ F) as (F1 & F2). split; [exact F1|]. rewrite F2, <- EK. fold K.
  replace (IZR z / K - y) with ((IZR z - K * y) * / K) by (field; lra). rewrite Rabs_mult, (Rabs_pos_eq (/ K)) by (left; apply Rinv_0_lt_compat; lra).
  rewrite <- (Rmult_1_l (/ K)) at 2. apply Rmult_le_compat_r; [left; apply Rinv_0_lt_compat; lra|]. apply Rabs_le. lra.
Qed.

(** ** math.Pow(d, 2) *)
Lemma rnd_scale r k : r <> 0 -> (-1000 <= mag radix2 r)%Z -> (-1000 <= mag radix2 r + k)%Z -> rnd (r * bpow radix2 k) = rnd r * bpow radix2 k.
Proof.
  intros Hr H1 H2. unfold rnd, round, scaled_mantissa, cexp. rewrite mag_mult_bpow by exact Hr. rewrite !fx_FLT. unfold FLT_exp. rewrite !Z.max_l by lia.
  unfold F2R. cbn [Fnum Fexp]. rewrite !Rmult_assoc, !bpow_mul. f_equal; [|f_equal; lia]. do 2 f_equal. f_equal. f_equal. lia.
Qed.
Lemma powLoop_sq x1 xe : (- 2000 <= xe <= 2000)%Z ->
  powLoop 64 2 x1 xe (f_of_Z 1) 0 =
  (let sq := fmul x1 x1 in let '(z1, ze) := if fltb sq fhalf then (fadd sq sq, 2 * xe - 1)%Z else (sq, 2 * xe)%Z in (fmul (f_of_Z 1) z1, ze)).
Proof.
  intros H. change 64%nat with (S (S (S 61))). cbn [powLoop]. change (2 =? 0)%Z with false. change (Z.odd 2) with false. change (2 / 2)%Z with 1%Z. cbv iota zeta.
  destruct (Z.ltb_spec xe (- 4096)); [lia|]. destruct (Z.ltb_spec 4096 xe); [lia|]. cbn [orb].
  destruct (fltb (fmul x1 x1) fhalf); change (1 =? 0)%Z with false; change (Z.odd 1) with true; change (1 / 2)%Z with 0%Z; change (0 =? 0)%Z with true; cbv iota zeta; rewrite Z.add_0_l.
  - destruct (Z.ltb_spec (2 * xe - 1) (- 4096)); [lia|]. destruct (Z.ltb_spec 4096 (2 * xe - 1)); [lia|]. cbn [orb]. destruct (fltb (fmul _ _) fhalf); reflexivity.
  - destruct (Z.ltb_spec (2 * xe) (- 4096)); [lia|]. destruct (Z.ltb_spec 4096 (2 * xe)); [lia|]. cbn [orb]. destruct (fltb (fmul _ _) fhalf); reflexivity.
Qed.
Theorem square_pow d : finite d -> fR d = 0 \/ powerRZ 2 (-500) <= Rabs (fR d) <= powerRZ 2 500 -> goSquare d = fmul d d.
Proof.
  intros Hf H. pose proof (fR_val' d Hf) as Fd. set (r := fR d) in *.
  destruct (Req_dec r 0) as [R0|R0].
  { destruct d as [s|s| |s m e]; [destruct s; reflexivity|destruct s; reflexivity|reflexivity|]. exfalso. revert R0. unfold r, fR. apply Rmult_integral_contrapositive_currified; [apply not_0_IZR; destruct s; discriminate|].
    apply powerRZ_NOR. lra. }
  destruct H as [H|H]; [contradiction|]. rewrite <- !(bpow_powerRZ radix2) in H.
  destruct (fval_frexp d r Fd R0) as (f & e & E & Ee & Ff & Bf). rewrite <- Ee in Ff, Bf. set (x := r * bpow radix2 (- e)) in *.
  assert (He : (-499 <= e <= 501)%Z).
  { rewrite Ee. split; [apply (mag_ge_bpow radix2 r (-499)); exact (proj1 H)|]. apply mag_le_bpow; [exact R0|]. eapply Rle_lt_trans; [exact (proj2 H)|]. apply bpow_lt. lia. }
  assert (Hx : r = x * bpow radix2 e). { unfold x. rewrite Rmult_assoc, bpow_mul. replace (- e + e)%Z with 0%Z by lia. cbn. ring. }
  assert (X0 : x <> 0) by (intros X; rewrite X, Rabs_R0 in Bf; lra).
  assert (Hxx : / 4 <= x * x < 1). { replace (x * x) with (Rabs x * Rabs x) by (rewrite <- Rabs_mult; apply Rabs_pos_eq; nra). nra. }
  assert (Hm : (-1 <= mag radix2 (x * x) <= 0)%Z).
  { split; [apply (mag_ge_bpow radix2 _ (-1)); rewrite Rabs_pos_eq by lra; change (bpow radix2 (-1 - 1)) with (/ 4); lra|].
    apply mag_le_bpow; [nra|]. rewrite Rabs_pos_eq by lra. change (bpow radix2 0) with 1. lra. }
  (* the rounded square of the fraction *)
  set (q := rnd (x * x)).
  assert (Hq : / 4 <= q <= 1).
  { unfold q. split. - replace (/ 4) with (rnd (bpow radix2 (-2))) by (rewrite rnd_bpow by lia; reflexivity). apply rnd_mono. change (bpow radix2 (-2)) with (/ 4). lra.
    - replace 1 with (rnd (bpow radix2 0)) by (rewrite rnd_bpow by lia; reflexivity). apply rnd_mono. change (bpow radix2 0) with 1. lra. }
  assert (Fq : fval (fmul f f) q). { apply fval_mul; auto. fold q. rewrite Rabs_pos_eq by lra. apply Rle_lt_trans with (bpow radix2 0); [cbn; lra|apply bpow_lt; lia]. }
  assert (Rq : rnd q = q) by (eapply rnd_fmt; eauto).
  assert (Q0 : q <> 0) by lra.
  assert (Hmq : (-1 <= mag radix2 q <= 1)%Z).
  { split; [apply (mag_ge_bpow radix2 _ (-1)); rewrite Rabs_pos_eq by lra; change (bpow radix2 (-1 - 1)) with (/ 4); lra|].
    apply mag_le_bpow; [lra|]. rewrite Rabs_pos_eq by lra. change (bpow radix2 1) with 2. lra. }
  assert (Big : forall z k, Rabs z <= 2 -> (k <= 1010)%Z -> Rabs (z * bpow radix2 k) < bpow radix2 1024).
  { intros z k Hz Hk. rewrite Rabs_mult, (Rabs_pos_eq (bpow _ _)) by apply bpow_ge_0. apply Rle_lt_trans with (bpow radix2 1 * bpow radix2 k); [apply Rmult_le_compat_r; [apply bpow_ge_0|exact Hz]|]. rewrite bpow_mul. apply bpow_lt. lia. }
  assert (Sq : rnd (q * bpow radix2 (2 * e)) = q * bpow radix2 (2 * e)). { rewrite rnd_scale by (auto; lia). now rewrite Rq. }
  assert (Res : rnd (r * r) = q * bpow radix2 (2 * e)).
  { replace (r * r) with (x * x * bpow radix2 (2 * e)). - rewrite rnd_scale by (try nra; lia). reflexivity. - rewrite Hx. replace (2 * e)%Z with (e + e)%Z by lia. rewrite bpow_plus. ring. }
  assert (FR : fval (fmul d d) (q * bpow radix2 (2 * e))). { rewrite <- Res. apply fval_mul; auto. rewrite Res. apply Big; [rewrite Rabs_pos_eq; lra|lia]. }
  apply (fval_inj _ _ (q * bpow radix2 (2 * e))); [|exact FR|apply Rmult_integral_contrapositive_currified; [exact Q0|apply Rgt_not_eq, bpow_gt_0]].
  assert (Hgo : goSquare d = (let '(x1, xe) := goFrexp d in let '(a1, ae) := powLoop 64 2 x1 xe (f_of_Z 1) 0 in goLdexp a1 ae)).
  { destruct d as [s|s| |s m ed]; try (exfalso; apply R0; reflexivity). reflexivity. }
  rewrite Hgo, E. cbv iota zeta beta. rewrite powLoop_sq by lia. cbv zeta. destruct (fltb (fmul f f) fhalf).
  - assert (F2q : fval (fadd (fmul f f) (fmul f f)) (q * bpow radix2 1)).
    { assert (G : rnd (q + q) = q * bpow radix2 1). { replace (q + q) with (q * bpow radix2 1) by (change (bpow radix2 1) with 2; ring). rewrite rnd_scale by (auto; lia). now rewrite Rq. }
      rewrite <- G. apply fval_add; auto. rewrite G. apply Big; [rewrite Rabs_pos_eq; lra|lia]. }
    assert (F1q : fval (fmul (f_of_Z 1) (fadd (fmul f f) (fmul f f))) (q * bpow radix2 1)).
    { assert (G : rnd (1 * (q * bpow radix2 1)) = q * bpow radix2 1) by (rewrite Rmult_1_l; eapply rnd_fmt; exact F2q).
      rewrite <- G. apply fval_mul; [exact fval_one|exact F2q|]. rewrite G. apply Big; [rewrite Rabs_pos_eq; lra|lia]. }
    assert (G : rnd (q * bpow radix2 1 * bpow radix2 (2 * e - 1)) = q * bpow radix2 (2 * e)).
    { rewrite Rmult_assoc, bpow_mul. replace (1 + (2 * e - 1))%Z with (2 * e)%Z by lia. exact Sq. }
    rewrite <- G. apply fval_ldexp; [exact F1q|]. rewrite G. apply Big; [rewrite Rabs_pos_eq; lra|lia].
  - assert (F1q : fval (fmul (f_of_Z 1) (fmul f f)) q).
    { assert (G : rnd (1 * q) = q) by (rewrite Rmult_1_l; exact Rq). rewrite <- G. apply fval_mul; [exact fval_one|exact Fq|]. rewrite G, <- (Rmult_1_r q). apply (Big q 0%Z); [rewrite Rabs_pos_eq; lra|lia]. }
    rewrite <- Sq. apply fval_ldexp; [exact F1q|]. rewrite Sq. apply Big; [rewrite Rabs_pos_eq; lra|lia].
Qed.

Lemma sizes_case : exists lg, log_ok lg /\ forall ex,
  ((fpow2 ex 14 = 16384 /\ fslotsPerData lg ex 7 = 8 /\ fnumDataPerCt lg ex 16384 7 = 2048 /\ frealNumDataPerCt lg ex 16384 7 512 = 512 /\ fnumCtPerBatch lg ex 16384 7 512 = 1) /\
  (fslotsPerData lg ex 20 = 32 /\ fnumDataPerCt lg ex 16384 20 = 512 /\ frealNumDataPerCt lg ex 16384 20 128 = 128 /\ fnumCtPerBatch lg ex 16384 20 128 = 1) /\
  (fnumDataPerCt lg ex 4 7 = 0) /\ fnumCtPerBatch lg ex 16384 7 5000 = 3)%Z.
Proof.
  exists lgW. split; [exact lgW_ok|]. intros ex. change 16384%Z with (2 ^ 14)%Z. change 4%Z with (2 ^ 2)%Z. pose proof lgW_ok as L. unfold frealNumDataPerCt.
  rewrite (fpow2_exact ex 14) by lia. rewrite !(slots_exact lgW ex _ L) by lia.
  rewrite !(cts_exact lgW ex 14 _ L) by (try lia; vm_compute; discriminate).
  rewrite (perCt_exact lgW ex 14 7 L), (perCt_exact lgW ex 14 20 L), (perCt_none lgW ex 2 7 L) by (try lia; vm_compute; easy).
  repeat split; vm_compute; reflexivity.
Qed.
Lemma square_case : finite (f_of_Z 3) /\ fR (f_of_Z 3) = 3 /\ goSquare (f_of_Z 3) = f_of_Z 9 /\ goSquare (fneg (f_of_Z 5)) = f_of_Z 25.
Proof. pose proof (fval_Z 3 ltac:(lia)) as F. destruct (val_finite _ _ F). repeat split; auto; vm_compute; reflexivity. Qed.
