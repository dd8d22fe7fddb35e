(** The float64 side of MultByConst and of scale alignment. *)
From Coq Require Import ZArith Reals Lia Lra Psatz Bool String List.
From Coq.Floats Require Import SpecFloat.
From Flocq Require Import Core BinarySingleNaN.
From Verif Require Import Go GoProofs Lattigo LattigoProofs Arith F64 F64Proofs F64More Utils Maps Params Elements KeySwitch Evaluator SpecEv.
Local Open Scope R_scope.

Lemma trunc_fmt x r : fval x r -> rnd (IZR (Ztrunc r)) = IZR (Ztrunc r).
Proof.
  intros H. destruct (Rle_or_lt 0 r) as [Hr|Hr].
  - rewrite (Ztrunc_floor r Hr). apply (rnd_fmt (ffloor x)). now apply ffloor_spec.
  - pose proof (ffloor_spec _ _ (fval_neg _ _ H)) as F. rewrite <- (Ropp_involutive r), Ztrunc_opp, (Ztrunc_floor (- r)) by lra.
    apply fval_neg in F. rewrite <- opp_IZR in F. exact (rnd_fmt _ _ F).
Qed.
Lemma big_small n : (Z.abs n <= 2 ^ 63)%Z -> Rabs (IZR n) <= bpow radix2 63.
Proof. intros H. rewrite <- abs_IZR, <- IZR_pow2_pos by lia. now apply IZR_le. Qed.
Lemma i64_val c r : fval c r -> exists z, i64_of_f c = z /\ (Z.abs z <= 2 ^ 63)%Z /\ fval (f_of_Z z) (IZR z) /\ ((- 2 ^ 63 <= z < 2 ^ 63)%Z) /\ ((- 2 ^ 63 <= Ztrunc r < 2 ^ 63)%Z -> z = Ztrunc r).
Proof.
  intros H. pose proof (ftrunc_trunc c r H) as T.
  assert (E : i64_of_f c = if (Z.leb (- 2 ^ 63) (Ztrunc r) && Z.ltb (Ztrunc r) (2 ^ 63))%bool then Ztrunc r else (- 2 ^ 63)%Z).
  { unfold i64_of_f. rewrite T. destruct H as (b & -> & F & _). destruct b; try easy; reflexivity. }
  rewrite E. destruct (Z.leb_spec (- 2 ^ 63) (Ztrunc r)); [destruct (Z.ltb_spec (Ztrunc r) (2 ^ 63))|]; cbn [andb].
  - exists (Ztrunc r). split; [reflexivity|]. split; [lia|]. split; [|split; [lia|auto]]. pose proof (fval_of_Z (Ztrunc r)) as FF. rewrite (trunc_fmt c r H) in FF. apply FF. rewrite <- (trunc_fmt c r H). apply (rnd_lt_big _ 63); [lia|lia|]. apply big_small. lia.
  - exists (- 2 ^ 63)%Z. split; [reflexivity|]. split; [lia|]. split; [|split; lia]. assert (X : rnd (IZR (- 2 ^ 63)) = IZR (- 2 ^ 63)).
    { apply round_generic; [typeclasses eauto|]. rewrite opp_IZR. apply generic_format_opp. rewrite IZR_pow2_pos by lia. apply generic_format_bpow. vm_compute. discriminate. }
    rewrite <- X. apply fval_of_Z. apply (rnd_lt_big _ 63); [lia|lia|]. apply big_small. lia.
  - exists (- 2 ^ 63)%Z. split; [reflexivity|]. split; [lia|]. split; [|split; lia]. assert (X : rnd (IZR (- 2 ^ 63)) = IZR (- 2 ^ 63)).
    { apply round_generic; [typeclasses eauto|]. rewrite opp_IZR. apply generic_format_opp. rewrite IZR_pow2_pos by lia. apply generic_format_bpow. vm_compute. discriminate. }
    rewrite <- X. apply fval_of_Z. apply (rnd_lt_big _ 63); [lia|lia|]. apply big_small. lia.
Qed.

(** a constant is not scaled exactly when it is an integer of int64 *)
Lemma needsScale_spec c r : fval c r -> Rabs r <= bpow radix2 1000 -> needsScale c = false <-> exists n, r = IZR n /\ (- 2 ^ 63 <= n < 2 ^ 63)%Z.
Proof.
  intros H Hb. destruct (i64_val c r H) as (z & Ez & Hz & Fz & Rz & Tz). unfold needsScale. rewrite Ez.
  assert (Fs : fval (fsub c (f_of_Z z)) (rnd (r - IZR z))).
  { apply fval_sub; auto. apply (rnd_lt_big _ 1001); [lia|lia|]. eapply Rle_trans; [apply Rabs_triang|]. rewrite Rabs_Ropp.
    pose proof (big_small z Hz). assert (bpow radix2 63 <= bpow radix2 1000) by (apply bpow_le; lia). assert (bpow radix2 1001 = 2 * bpow radix2 1000) as -> by (change 1001%Z with (1 + 1000)%Z; rewrite bpow_plus; reflexivity). lra. }
  destruct (feqb c f0) eqn:E0.
  - cbn. split; [|auto]. intros _. exists 0%Z. split; [|lia]. now apply (feqb_spec c f0 r 0 H fval_f0).
  - cbn [negb andb]. destruct (feqb (fsub c (f_of_Z z)) f0) eqn:E1; cbn [negb]; split; auto; try discriminate.
    + intros _. apply (feqb_spec _ _ _ _ Fs fval_f0) in E1. exists z. split; [|lia]. eapply sub_zero; eauto.
    + intros (n & -> & Hn). exfalso. rewrite Ztrunc_IZR in Tz. rewrite (Tz Hn) in *. assert (X : feqb (fsub c (f_of_Z n)) f0 = true); [|congruence].
      apply (feqb_spec _ _ _ _ Fs fval_f0). rewrite Rminus_diag_eq by reflexivity. apply rnd_0.
Qed.

(** the same for every finite constant *)
Lemma needsScale_big c r : fval c r -> bpow radix2 1000 < Rabs r -> needsScale c = true.
Proof.
  intros H Hb. assert (Hlt : bpow radix2 63 < bpow radix2 1000) by (apply bpow_lt; lia). pose proof (bpow_gt_0 radix2 63) as P.
  assert (R0 : r <> 0) by (intros ->; rewrite Rabs_R0 in Hb; lra).
  destruct (i64_val c r H) as (z & Ez & Hz & Fz & Rz & _). unfold needsScale. rewrite Ez.
  destruct (feqb c f0) eqn:E0. { apply (feqb_spec c f0 r 0 H fval_f0) in E0. contradiction. }
  cbn [negb andb]. destruct (feqb (fsub c (f_of_Z z)) f0) eqn:E1; [exfalso|reflexivity].
  destruct H as (bx & Ex & Fx & Rx). destruct Fz as (by_ & Ey & Fy & Ry). rewrite Ex, Ey, fsub_equiv in E1.
  pose proof (Bminus_correct 53 1024 Hprec Hmax mode_NE bx by_ Fx Fy) as C. destruct (Rlt_bool _ _).
  - destruct C as (C1 & C2 & _). assert (F : fval (B2SF (Bminus mode_NE bx by_)) (B2R (Bminus mode_NE bx by_))) by (eexists; split; [reflexivity|]; split; [exact C2|reflexivity]).
    apply (feqb_spec _ _ _ _ F fval_f0) in E1. rewrite C1, Rx, Ry in E1.
    assert (r = IZR z). { eapply sub_zero; [exists bx; eauto|exists by_; eauto|exact E1]. }
    pose proof (big_small z Hz) as BB. rewrite <- H in BB. lra.
  - destruct C as (C1 & _). rewrite C1 in E1. cbn in E1. destruct (Bsign bx); discriminate.
Qed.
Lemma needsScale_iff c r : fval c r -> needsScale c = false <-> exists n, (- 2 ^ 63 <= n < 2 ^ 63)%Z /\ fval c (IZR n).
Proof.
  intros H. destruct (Rle_or_lt (Rabs r) (bpow radix2 1000)) as [Hb|Hb].
  - rewrite (needsScale_spec c r H Hb). split; intros (n & Hn & F); exists n; split; auto; [subst r; exact H|eapply fval_det; eauto].
  - rewrite (needsScale_big c r H Hb). split; [discriminate|]. intros (n & Hn & F). rewrite (fval_det _ _ _ H F) in Hb. pose proof (big_small n ltac:(lia)).
    assert (Hlt : bpow radix2 63 < bpow radix2 1000) by (apply bpow_lt; lia). lra.
Qed.

Lemma fval_half : fval fhalf (/ 2).
Proof.
  replace (/ 2) with (rnd (1 / 2)). - apply fval_div; try (apply fval_Z; lia); [lra|]. apply (rnd_lt_big _ 0); [lia|lia|]. rewrite Rabs_pos_eq by lra. cbn. lra.
  - replace (1 / 2) with (bpow radix2 (-1)) by (cbn; lra). replace (/ 2) with (bpow radix2 (-1)) by (cbn; lra). apply round_generic; [typeclasses eauto|]. apply generic_format_bpow. vm_compute. discriminate.
Qed.
Lemma fmul_neg c s : fltb c f0 = true -> fmul (fneg s) c = fmul s (fabs c).
Proof. destruct c as [[]|[]| |[] m e]; try discriminate; destruct s as [[]|[]| |[] m' e']; intros _; reflexivity. Qed.
Lemma fmul_nonneg c s : fltb c f0 = false -> feqb c f0 = false -> is_nan c = false -> fmul s c = fmul s (fabs c).
Proof. destruct c as [[]|[]| |[] m e]; try discriminate; reflexivity. Qed.
Lemma scaleUpExact_ok c s q : is_nan c = false -> feqb c f0 = false -> is_nan (fmul s (fabs c)) = false -> (0 < q < W)%Z ->
  exists r, scaleUpExact c s q = Ok r /\ (0 <= r <= q)%Z /\ cong q r (scaled_const c s).
Proof.
  intros Hn H0 Hx Hq. unfold scaleUpExact, scaled_const, bigNewFloat. destruct (fltb c f0) eqn:E.
  - rewrite (fmul_neg c s E), Hx. cbn [bind]. set (a := ftrunc _). pose proof (Z.mod_pos_bound a q ltac:(lia)) as M. eexists. split; [reflexivity|]. unfold wsub. rewrite wrap_small by lia. split; [lia|].
    transitivity (0 - a)%Z; [|apply cong_eq; lia]. apply cong_sub; [exists 1%Z; ring|]. apply cong_mod. lia.
  - rewrite (fmul_nonneg c s E H0 Hn), Hx. cbn [bind]. set (a := ftrunc _). pose proof (Z.mod_pos_bound a q ltac:(lia)) as M. eexists. split; [reflexivity|]. split; [lia|]. apply cong_mod. lia.
Qed.
Lemma fval_not_nan x r : fval x r -> is_nan x = false.
Proof. intros (b & -> & F & _). now destruct b. Qed.

Definition f1 : f64 := f_of_Z 1.
Lemma f1_val : fval f1 1. Proof. apply fval_Z. lia. Qed.
(** integers below 2^52 at scale 1 are not changed *)
Lemma scaled_int c n : fval c (IZR n) -> (Z.abs n < 2 ^ 52)%Z -> scaled_const c f1 = n.
Proof.
  intros H Hn. unfold scaled_const. pose proof (fval_abs _ _ H) as Ha. rewrite <- abs_IZR in Ha.
  assert (R1 : rnd (1 * IZR (Z.abs n)) = IZR (Z.abs n)) by (rewrite Rmult_1_l; apply rnd_IZR; lia).
  assert (Hm : fval (fmul f1 (fabs c)) (IZR (Z.abs n))).
  { rewrite <- R1. apply fval_mul; auto using f1_val. rewrite R1. rewrite <- R1. apply (rnd_lt_big _ 63); [lia|lia|]. rewrite Rmult_1_l. apply big_small. lia. }
  assert (R2 : rnd (IZR (Z.abs n) + / 2) = IZR (Z.abs n) + / 2).
  { apply round_generic; [typeclasses eauto|]. change fx with (FLT_exp (-1074) 53). apply generic_format_FLT. exists (Float radix2 (2 * Z.abs n + 1) (-1)); cbn [Fnum Fexp].
    - unfold F2R. cbn [Fnum Fexp]. rewrite plus_IZR, mult_IZR. cbn. lra.
    - change (Zpower radix2 53) with (2 ^ 53)%Z. lia.
    - lia. }
  assert (Hs : fval (fadd (fmul f1 (fabs c)) fhalf) (IZR (Z.abs n) + / 2)).
  { rewrite <- R2. apply fval_add; auto using fval_half. apply (rnd_lt_big _ 64); [lia|lia|]. rewrite Rabs_pos_eq.
    - pose proof (big_small (Z.abs n) ltac:(lia)) as B. rewrite Rabs_pos_eq in B by (apply IZR_le; lia). assert (bpow radix2 64 = 2 * bpow radix2 63) as -> by (change 64%Z with (1 + 63)%Z; rewrite bpow_plus; reflexivity).
      assert (1 <= bpow radix2 63) by (change 1 with (bpow radix2 0); apply bpow_le; lia). lra.
    - pose proof (IZR_le 0 (Z.abs n) ltac:(lia)). lra. }
  rewrite (ftrunc_floor _ _ Hs) by (pose proof (IZR_le 0 (Z.abs n) ltac:(lia)); lra).
  assert (Zfloor (IZR (Z.abs n) + / 2) = Z.abs n) as ->. { apply Zfloor_imp. rewrite plus_IZR. lra. }
  destruct (fltb c f0) eqn:E.
  - apply (fltb_spec _ _ _ _ H fval_f0) in E. apply lt_IZR in E. lia.
  - assert (~ (n < 0)%Z). { intros X. apply IZR_lt in X. apply (fltb_spec _ _ _ _ H fval_f0) in X. congruence. } lia.
Qed.

(** rounding error of any x *)
Lemma rnd_err2 y : 0 <= y -> Rabs (rnd y - y) <= / 2 * bpow radix2 (-52) * y + bpow radix2 (-1000).
Proof.
  intros Hy. pose proof (bpow_gt_0 radix2 (-1000)) as P. pose proof (bpow_gt_0 radix2 (-52)) as P2. destruct (Rle_or_lt (bpow radix2 (-1000)) y) as [H|H].
  - pose proof (rnd_err y) as E. rewrite (Rabs_pos_eq y Hy) in E. specialize (E (or_intror H)). lra.
  - assert (A1 : 0 <= rnd y) by (rewrite <- rnd_0; now apply rnd_mono). assert (A2 : rnd y <= bpow radix2 (-1000)).
    { replace (bpow radix2 (-1000)) with (rnd (bpow radix2 (-1000))); [apply rnd_mono; lra|]. apply round_generic; [typeclasses eauto|]. apply generic_format_bpow. vm_compute. discriminate. }
    apply Rabs_le. assert (0 <= / 2 * bpow radix2 (-52) * y) by nra. lra.
Qed.
(** the integer is within 1/2 (and float64 rounding) of scale * constant *)
Lemma scaled_err c s r t : fval c r -> fval s t -> 0 <= t -> t * Rabs r <= bpow radix2 1000 ->
  Rabs (IZR (scaled_const c s) - t * r) <= / 2 + 2 * bpow radix2 (-52) * (t * Rabs r + 1).
Proof.
  intros H Ht H0 Hb. pose proof (fval_abs _ _ H) as Ha. set (y := t * Rabs r) in *. assert (Hy : 0 <= y) by (apply Rmult_le_pos; [auto|apply Rabs_pos]).
  pose proof (bpow_gt_0 radix2 (-52)) as P. assert (P52 : bpow radix2 (-52) <= / 4) by (replace (/ 4) with (bpow radix2 (-2)) by (cbn; lra); apply bpow_le; lia).
  assert (Pk : bpow radix2 (-1000) <= / 8 * bpow radix2 (-52)). { replace (/ 8) with (bpow radix2 (-3)) by (cbn; lra). rewrite <- bpow_plus. apply bpow_le. lia. }
  pose proof (rnd_err2 y Hy) as E1. apply Rabs_le_inv in E1. set (x := rnd y) in *.
  assert (Hx : 0 <= x) by (unfold x; rewrite <- rnd_0; now apply rnd_mono).
  assert (Fx : fval (fmul s (fabs c)) x). { apply fval_mul; auto. fold y. apply (rnd_lt_big _ 1000); [lia|lia|]. now rewrite Rabs_pos_eq. }
  assert (P1 : 1 <= bpow radix2 1000) by (change 1 with (bpow radix2 0); apply bpow_le; lia).
  assert (Hxb : x <= 2 * bpow radix2 1000).
  { clear -E1 Hb Hy P P52 Pk P1. revert E1 Hb P P52 Pk P1. generalize (bpow radix2 1000) (bpow radix2 (-52)) (bpow radix2 (-1000)). intros B u k [_ E] Hb P P52 Pk P1.
    assert (/ 2 * u * y <= / 8 * y) by (apply Rmult_le_compat_r; lra). lra. }
  pose proof (rnd_err2 (x + / 2) ltac:(lra)) as E2. apply Rabs_le_inv in E2. set (z := rnd (x + / 2)) in *.
  assert (Fz : fval (fadd (fmul s (fabs c)) fhalf) z). { apply fval_add; auto using fval_half. apply (rnd_lt_big _ 1002); [lia|lia|]. rewrite Rabs_pos_eq by lra.
    assert (bpow radix2 1002 = 4 * bpow radix2 1000) as -> by (change 1002%Z with (2 + 1000)%Z; rewrite bpow_plus; reflexivity). assert (1 <= bpow radix2 1000) by (change 1 with (bpow radix2 0); apply bpow_le; lia). lra. }
  assert (Hz : 0 <= z) by (unfold z; rewrite <- rnd_0; apply rnd_mono; lra). 
  assert (B : Rabs (IZR (Zfloor z) - y) <= / 2 + 2 * bpow radix2 (-52) * (y + 1)). { pose proof (Zfloor_lb z). pose proof (Zfloor_ub z). apply Rabs_le.
    pose proof (bpow_gt_0 radix2 (-1000)) as P0. clear -E1 E2 H1 H2 Hy Hx P P52 Pk P0. revert E1 E2 P P52 Pk P0. generalize (bpow radix2 (-52)) (bpow radix2 (-1000)). intros u k E1 E2 P P52 Pk P0.
    assert (X1 : / 2 * u * x <= / 2 * u * (y + / 8 * y + k)) by (apply Rmult_le_compat_l; [lra|]; assert (/ 2 * u * y <= / 8 * y) by (apply Rmult_le_compat_r; lra); lra).
    assert (X2 : 0 <= u * y) by (apply Rmult_le_pos; lra). assert (X3 : u * k <= / 4 * k) by (apply Rmult_le_compat_r; lra).
    split; lra. }
  unfold scaled_const. rewrite (ftrunc_floor _ _ Fz Hz). destruct (fltb c f0) eqn:E.
  - apply (fltb_spec _ _ _ _ H fval_f0) in E. assert (Ey : y = - (t * r)) by (unfold y; rewrite Rabs_left by auto; ring). rewrite opp_IZR. replace (- IZR (Zfloor z) - t * r) with (- (IZR (Zfloor z) - y)) by lra. now rewrite Rabs_Ropp.
  - assert (0 <= r). { apply Rnot_lt_le. intros X. apply (fltb_spec _ _ _ _ H fval_f0) in X. congruence. } assert (Ey : y = t * r) by (unfold y; now rewrite Rabs_pos_eq by auto). now rewrite <- Ey.
Qed.
Lemma finite_fval c : finite c <-> exists r, fval c r.
Proof.
  split.
  - destruct c as [s|s| |s m e]; cbn; try contradiction.
    + intros _. exists 0. exists (B754_zero s). auto.
    + intros H. eexists. exists (B754_finite s m e H). split; [reflexivity|]. split; reflexivity.
  - intros (r & b & -> & F & _). destruct b; try discriminate; cbn; auto.
Qed.
Lemma fmul_not_nan x y : finite x -> finite y -> is_nan (fmul x y) = false.
Proof.
  intros Hx Hy. apply finite_fval in Hx as (a & bx & -> & Fx & _). apply finite_fval in Hy as (b & b0 & -> & Fy & _). rewrite fmul_equiv.
  pose proof (Bmult_correct 53 1024 Hprec Hmax mode_NE bx b0) as C. destruct (Rlt_bool _ _).
  - destruct C as (_ & C & _). rewrite Fx, Fy in C. destruct (Bmult mode_NE bx b0); try discriminate; reflexivity.
  - rewrite C. reflexivity.
Qed.
Lemma finite_abs c : finite c -> finite (fabs c).
Proof. destruct c; cbn; auto. Qed.
Lemma finite_not_nan c : finite c -> is_nan c = false.
Proof. now destruct c. Qed.
Lemma scaled_zero c s : feqb c f0 = true -> finite s -> scaled_const c s = 0%Z.
Proof.
  intros H Hs. destruct c as [b|b| |b m e]; try discriminate; try (destruct b; discriminate). unfold scaled_const. cbn [fabs SFabs].
  assert (E : exists b', fmul s (S754_zero false) = S754_zero b') by (destruct s as [| | |]; try contradiction; eexists; reflexivity). destruct E as (b' & ->).
  assert (ftrunc (fadd (S754_zero b') fhalf) = 0%Z) as -> by (destruct b'; reflexivity). destruct b; reflexivity.
Qed.
Lemma finite_q q : (Z.abs q <= 2 ^ 63)%Z -> finite (f_of_Z q).
Proof. intros H. apply finite_fval. eexists. apply fval_of_Z. apply (rnd_lt_big _ 63); [lia|lia|]. now apply big_small. Qed.
Lemma finite_q' q : (Z.abs q <= 2 ^ 64)%Z -> finite (f_of_Z q).
Proof. intros H. apply finite_fval. eexists. apply fval_of_Z. apply (rnd_lt_big _ 64); [lia|lia|]. rewrite <- abs_IZR, <- IZR_pow2_pos by lia. now apply IZR_le. Qed.

(** ** quotients of scales *)
Lemma pos_sign (x : bf) : 0 < B2R x -> Bsign x = false.
Proof.
  destruct x as [s|s| |s m e Hb]; cbn [B2R Bsign]; intros H; try (exfalso; exact (Rlt_irrefl _ H)).
  destruct s; auto. exfalso. apply (Rlt_irrefl 0). eapply Rlt_trans; [exact H|]. apply F2R_lt_0. reflexivity.
Qed.
Section Q.
Context (s s' : f64) (a b : R) (Hs : fval s a) (Hs' : fval s' b) (Ha : 0 < a) (Hb : 0 < b).
Hypothesis (Hlt : fltb (fdiv s' s) (f_of_Z (2 ^ 52)) = true).
Lemma quot_val : exists r, fval (fdiv s' s) r /\ r = rnd (b / a) /\ 0 <= r /\ r < IZR (2 ^ 52).
Proof.
  assert (F52 : fval (f_of_Z (2 ^ 52)) (IZR (2 ^ 52))) by (apply fval_Z; lia).
  assert (P : 0 < b / a) by (apply Rdiv_lt_0_compat; auto).
  destruct (Rlt_or_le (Rabs (rnd (b / a))) (bpow radix2 1024)) as [Hf|Hf].
  - pose proof (fval_div _ _ _ _ Hs' Hs ltac:(lra) Hf) as F. exists (rnd (b / a)). split; [exact F|]. split; [reflexivity|]. split; [rewrite <- rnd_0; apply rnd_mono; lra|]. now apply (fltb_spec _ _ _ _ F F52).
  - exfalso. destruct Hs as (bx & Ex & Fx & Rx). destruct Hs' as (by_ & Ey & Fy & Ry). subst s s'. rewrite fdiv_equiv in Hlt.
    pose proof (Bdiv_correct 53 1024 Hprec Hmax mode_NE by_ bx ltac:(lra)) as C. rewrite Rx, Ry in C. rewrite Rlt_bool_false in C by exact Hf. rewrite C in Hlt.
    pose proof (pos_sign by_ ltac:(rewrite Ry; exact Hb)) as S1. pose proof (pos_sign bx ltac:(rewrite Rx; exact Ha)) as S2.
    rewrite S1, S2 in Hlt. cbn in Hlt. discriminate.
Qed.
Lemma quot_floor : exists r, fval (fdiv s' s) r /\ r = rnd (b / a) /\ 0 <= r /\ ftrunc (fdiv s' s) = Zfloor r /\ (0 <= Zfloor r < 2 ^ 52)%Z /\ fval (ffloor (fdiv s' s)) (IZR (Zfloor r)).
Proof.
  destruct quot_val as (r & F & E & H0 & H1). exists r. split; [exact F|]. split; [exact E|]. split; [exact H0|]. split; [rewrite (ftrunc_trunc _ _ F); now apply Ztrunc_floor|].
  split; [|now apply ffloor_spec]. split; [apply Zfloor_lub; exact H0|]. apply lt_IZR. eapply Rle_lt_trans; [apply Zfloor_lb|exact H1].
Qed.
Lemma ratioAbove_spec : ratioAbove s' s = true <-> (2 <= ftrunc (fdiv s' s))%Z.
Proof.
  destruct quot_floor as (r & F & E & H0 & Ht & Hf & Ff). rewrite Ht. unfold ratioAbove. rewrite andb_true_iff, (fltb_spec _ _ _ _ Hs Hs'), (fltb_spec _ _ _ _ f1_val Ff). split.
  - intros [_ H]. change 1 with (IZR 1) in H. apply lt_IZR in H. lia.
  - intros H. assert (H2 : 1 < r) by (apply Rlt_le_trans with (IZR (Zfloor r)); [apply (IZR_lt 1); lia|apply Zfloor_lb]). split; [|change 1 with (IZR 1); apply IZR_lt; lia].
    destruct (Rlt_or_le a b) as [|Hba]; auto. exfalso. assert (b / a <= 1) by (apply Rmult_le_reg_r with a; [auto|]; unfold Rdiv; rewrite Rmult_assoc, Rinv_l; lra).
    assert (rnd (b / a) <= 1). { replace 1 with (rnd 1) by (rewrite (rnd_IZR 1) by lia; reflexivity). now apply rnd_mono. } lra.
Qed.
Lemma ratio_finite : finite (ffloor (fdiv s' s)).
Proof. destruct quot_floor as (r & F & E & H0 & Ht & Hf & Ff). apply finite_fval. eauto. Qed.
Lemma ratio_scaled : needsScale (ffloor (fdiv s' s)) = false /\ scaled_const (ffloor (fdiv s' s)) (f_of_Z 1) = ftrunc (fdiv s' s).
Proof.
  destruct quot_floor as (r & F & E & H0 & Ht & Hf & Ff). rewrite Ht. split; [|apply scaled_int; [exact Ff|lia]]. apply (needsScale_iff _ _ Ff). exists (Zfloor r). split; [lia|exact Ff].
Qed.
Lemma ratio_one : (2 <= ftrunc (fdiv s' s))%Z -> fltb s s' = true.
Proof. intros H. apply ratioAbove_spec in H. unfold ratioAbove in H. now apply andb_prop in H. Qed.
End Q.
