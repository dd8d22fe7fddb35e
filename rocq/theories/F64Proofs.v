(** Real-number semantics of the float64 model, through Flocq. *)
From Coq Require Import ZArith Reals Lia Lra Psatz.
From Coq.Floats Require Import SpecFloat.
From Flocq Require Import Core BinarySingleNaN Relative.
From Verif Require Import Go F64.
Local Open Scope R_scope.

#[global] Instance Hprec : FLX.Prec_gt_0 53 := eq_refl _.
#[global] Instance Hmax : Prec_lt_emax 53 1024 := eq_refl _.
Notation bf := (binary_float 53 1024).
Notation fx := (SpecFloat.fexp 53 1024).
Definition rnd (x : R) : R := round radix2 fx ZnearestE x.

Lemma fx_FLT : forall e, fx e = FLT_exp (-1074) 53 e.
Proof. reflexivity. Qed.

Lemma round_nearest_even_equiv s m l :
  round_nearest_even m l = choice_mode mode_NE s m l.
Proof.
case l; [reflexivity|intro c].
case c; [ | reflexivity..].
now simpl; unfold Round.cond_incr; case Z.even.
Qed.
Lemma binary_round_aux_equiv sx mx ex lx :
  SpecFloat.binary_round_aux 53 1024 sx mx ex lx
  = binary_round_aux 53 1024 mode_NE sx mx ex lx.
Proof.
unfold SpecFloat.binary_round_aux, binary_round_aux.
set (mrse' := shr_fexp _ _ _).
case mrse'; intros mrs' e'; simpl.
now rewrite (round_nearest_even_equiv sx).
Qed.
Lemma binary_round_equiv s m e :
  SpecFloat.binary_round 53 1024 s m e =
  binary_round 53 1024 mode_NE s m e.
Proof.
unfold SpecFloat.binary_round, binary_round, shl_align_fexp.
set (mez := shl_align _ _ _); case mez as [mz ez].
apply binary_round_aux_equiv.
Qed.
Lemma binary_normalize_equiv m e szero :
  SpecFloat.binary_normalize 53 1024 m e szero
  = B2SF (binary_normalize 53 1024 Hprec Hmax mode_NE m e szero).
Proof.
case m as [ | p | p].
- now simpl.
- simpl; rewrite B2SF_SF2B; apply binary_round_equiv.
- simpl; rewrite B2SF_SF2B; apply binary_round_equiv.
Qed.
Lemma fmul_equiv (x y : bf) : fmul (B2SF x) (B2SF y) = B2SF (Bmult mode_NE x y).
Proof.
case x as [sx|sx| |sx mx ex Bx]; case y as [sy|sy| |sy my ey By]; [now trivial.. | ].
simpl. rewrite B2SF_SF2B. apply binary_round_aux_equiv.
Qed.
Lemma fadd_equiv (x y : bf) : fadd (B2SF x) (B2SF y) = B2SF (Bplus mode_NE x y).
Proof.
case x as [sx|sx| |sx mx ex Bx]; case y as [sy|sy| |sy my ey By];
  [now (trivial || simpl; case Bool.eqb).. | ].
apply binary_normalize_equiv.
Qed.
Lemma fdiv_equiv (x y : bf) : fdiv (B2SF x) (B2SF y) = B2SF (Bdiv mode_NE x y).
Proof.
case x as [sx|sx| |sx mx ex Bx]; case y as [sy|sy| |sy my ey By];
  [now (trivial || simpl; case Bool.eqb).. | ].
simpl.
rewrite B2SF_SF2B.
set (melz := SFdiv_core_binary _ _ _ _ _ _).
case melz as [[mz ez] lz].
apply binary_round_aux_equiv.
Qed.

(** [fval x r]: x is a finite float64 of real value r. *)
Definition fval (x : f64) (r : R) : Prop :=
  exists b : bf, x = B2SF b /\ is_finite b = true /\ B2R b = r.

Lemma fval_det x r1 r2 : fval x r1 -> fval x r2 -> r1 = r2.
Proof.
  intros (b1 & E1 & _ & <-) (b2 & E2 & _ & <-). rewrite E1 in E2.
  apply B2SF_inj in E2. now subst.
Qed.
Lemma fval_fmt x r : fval x r -> generic_format radix2 fx r.
Proof. intros (b & _ & _ & <-). apply generic_format_B2R. Qed.

Lemma fval_f0 : fval f0 0.
Proof. exists (B754_zero false). auto. Qed.

Lemma fval_of_Z n : Rabs (rnd (IZR n)) < bpow radix2 1024 -> fval (f_of_Z n) (rnd (IZR n)).
Proof.
  intros H. unfold f_of_Z. rewrite binary_normalize_equiv.
  eexists. split; [reflexivity|].
  pose proof (binary_normalize_correct 53 1024 Hprec Hmax mode_NE n 0 false) as C.
  cbn zeta in C. unfold F2R in C. cbn [Fnum Fexp bpow] in C. rewrite Rmult_1_r in C.
  cbn [round_mode] in C. fold (rnd (IZR n)) in C.
  rewrite Rlt_bool_true in C by exact H. tauto.
Qed.
Lemma fval_div x y a b :
  fval x a -> fval y b -> b <> 0 -> Rabs (rnd (a / b)) < bpow radix2 1024 ->
  fval (fdiv x y) (rnd (a / b)).
Proof.
  intros (bx & -> & Fx & <-) (b0 & -> & Fy & <-) Hb H.
  rewrite fdiv_equiv. eexists. split; [reflexivity|].
  pose proof (Bdiv_correct 53 1024 Hprec Hmax mode_NE bx b0 Hb) as C.
  cbn [round_mode] in C. fold (rnd (B2R bx / B2R b0)) in C.
  rewrite Rlt_bool_true in C by exact H. destruct C as (C1 & C2 & _). rewrite C2. auto.
Qed.
Lemma fval_add x y a b :
  fval x a -> fval y b -> Rabs (rnd (a + b)) < bpow radix2 1024 ->
  fval (fadd x y) (rnd (a + b)).
Proof.
  intros (bx & -> & Fx & <-) (b0 & -> & Fy & <-) H.
  rewrite fadd_equiv. eexists. split; [reflexivity|].
  pose proof (Bplus_correct 53 1024 Hprec Hmax mode_NE bx b0 Fx Fy) as C.
  cbn [round_mode] in C. fold (rnd (B2R bx + B2R b0)) in C.
  rewrite Rlt_bool_true in C by exact H. destruct C as (C1 & C2 & _). auto.
Qed.
Lemma fval_mul x y a b :
  fval x a -> fval y b -> Rabs (rnd (a * b)) < bpow radix2 1024 ->
  fval (fmul x y) (rnd (a * b)).
Proof.
  intros (bx & -> & Fx & <-) (b0 & -> & Fy & <-) H.
  rewrite fmul_equiv. eexists. split; [reflexivity|].
  pose proof (Bmult_correct 53 1024 Hprec Hmax mode_NE bx b0) as C.
  cbn [round_mode] in C. fold (rnd (B2R bx * B2R b0)) in C.
  rewrite Rlt_bool_true in C by exact H. destruct C as (C1 & C2 & _).
  rewrite C2, Fx, Fy. auto.
Qed.

Lemma fleb_spec x y a b : fval x a -> fval y b -> fleb x y = true <-> a <= b.
Proof.
  intros (bx & -> & Fx & <-) (b0 & -> & Fy & <-).
  unfold fleb, SFleb. fold (Bcompare bx b0).
  change (SFcompare (B2SF bx) (B2SF b0)) with (Bcompare bx b0).
  rewrite Bcompare_correct by auto.
  destruct (Rcompare_spec (B2R bx) (B2R b0)); split; intros; try easy; lra.
Qed.
Lemma fltb_spec x y a b : fval x a -> fval y b -> fltb x y = true <-> a < b.
Proof.
  intros (bx & -> & Fx & <-) (b0 & -> & Fy & <-).
  unfold fltb, SFltb.
  change (SFcompare (B2SF bx) (B2SF b0)) with (Bcompare bx b0).
  rewrite Bcompare_correct by auto.
  destruct (Rcompare_spec (B2R bx) (B2R b0)); split; intros; try easy; lra.
Qed.

(** truncation and ceiling *)
Lemma IZR_pow2_pos e : (0 <= e)%Z -> IZR (2 ^ e) = bpow radix2 e.
Proof.
  intros H. rewrite <- IZR_Zpower by exact H. reflexivity.
Qed.

Lemma fin_val m e : (e < 0)%Z -> F2R (Float radix2 (Zpos m) e) = IZR (Zpos m) / IZR (2 ^ (-e)).
Proof.
  intros He. unfold F2R; cbn [Fnum Fexp].
  rewrite IZR_pow2_pos by lia. rewrite bpow_opp. unfold Rdiv. now rewrite Rinv_inv.
Qed.

Lemma Zfloor_div_pos a b : (0 < b)%Z -> Zfloor (IZR a / IZR b) = (a / b)%Z.
Proof.
  intros Hb. apply Zfloor_imp.
  pose proof (Z.div_mod a b ltac:(lia)). pose proof (Z.mod_pos_bound a b Hb).
  assert (0 < IZR b) by now apply IZR_lt.
  split.
  - apply Rmult_le_reg_r with (IZR b); auto. unfold Rdiv.
    rewrite Rmult_assoc, Rinv_l, Rmult_1_r by lra.
    rewrite <- mult_IZR. apply IZR_le. lia.
  - apply Rmult_lt_reg_r with (IZR b); auto. unfold Rdiv.
    rewrite Rmult_assoc, Rinv_l, Rmult_1_r by lra.
    rewrite <- mult_IZR. apply IZR_lt. lia.
Qed.

Lemma ftrunc_floor x r : fval x r -> 0 <= r -> ftrunc x = Zfloor r.
Proof.
  intros (b & -> & F & <-) Hr.
  destruct b as [s|s| |s m e Hb]; cbn [B2SF ftrunc B2R]; try easy.
  - symmetry; apply (Zfloor_IZR 0).
  - destruct s; cbn [B2R cond_Zopp] in *.
    + exfalso. apply (Rlt_not_le _ _ (F2R_lt_0 radix2 (Float radix2 (Zneg m) e) eq_refl)). exact Hr.
    + destruct (Z.leb_spec 0 e).
      * unfold F2R; cbn [Fnum Fexp]. rewrite <- IZR_Zpower by auto.
        rewrite <- mult_IZR, Zfloor_IZR. reflexivity.
      * rewrite fin_val by auto. rewrite Zfloor_div_pos; [reflexivity|].
        apply Z.pow_pos_nonneg; lia.
Qed.

Lemma fceil_ceil x r : fval x r -> 0 <= r -> fceil x = Zceil r.
Proof.
  intros (b & -> & F & <-) Hr.
  destruct b as [s|s| |s m e Hb]; cbn [B2SF fceil B2R]; try easy.
  - symmetry; apply (Zceil_IZR 0).
  - destruct s; cbn [B2R cond_Zopp] in *.
    + exfalso. apply (Rlt_not_le _ _ (F2R_lt_0 radix2 (Float radix2 (Zneg m) e) eq_refl)). exact Hr.
    + destruct (Z.leb_spec 0 e).
      * unfold F2R; cbn [Fnum Fexp]. rewrite <- IZR_Zpower by auto.
        rewrite <- mult_IZR, Zceil_IZR. reflexivity.
      * rewrite fin_val by auto. unfold Zceil.
        replace (- (IZR (Z.pos m) / IZR (2 ^ (- e)))) with (IZR (- Z.pos m) / IZR (2 ^ (- e))).
        2:{ rewrite opp_IZR. field. apply IZR_neq. apply Z.pow_nonzero; lia. }
        rewrite Zfloor_div_pos; [reflexivity|]. apply Z.pow_pos_nonneg; lia.
Qed.

(** rounding facts *)
Lemma rnd_mono x y : x <= y -> rnd x <= rnd y.
Proof. intros. apply round_le; auto; try typeclasses eauto. Qed.
Lemma rnd_0 : rnd 0 = 0.
Proof. apply round_0. typeclasses eauto. Qed.
Lemma fmt_IZR n : (Z.abs n <= 2 ^ 53)%Z -> generic_format radix2 fx (IZR n).
Proof.
  intros H. destruct (Z.eq_dec (Z.abs n) (2^53)) as [E|E].
  - assert (n = 2^53 \/ n = -2^53)%Z as [-> | ->] by lia.
    + change (2^53)%Z with (Zpower radix2 53). rewrite IZR_Zpower by lia.
      apply generic_format_bpow. vm_compute. discriminate.
    + change (-2^53)%Z with (- Zpower radix2 53)%Z. rewrite opp_IZR, IZR_Zpower by lia.
      apply generic_format_opp, generic_format_bpow. vm_compute. discriminate.
  - apply generic_format_FLT with (prec := 53%Z) (emin := (-1074)%Z).
    exists (Float radix2 n 0); cbn [Fnum Fexp].
    + unfold F2R. cbn. ring.
    + change (Zpower radix2 53) with (2^53)%Z. lia.
    + lia.
Qed.
Lemma rnd_IZR n : (Z.abs n <= 2 ^ 53)%Z -> rnd (IZR n) = IZR n.
Proof. intros. apply round_generic; [typeclasses eauto|]. now apply fmt_IZR. Qed.

Lemma rnd_lt_big x n : (0 <= n)%Z -> (n < 1024)%Z -> Rabs x <= bpow radix2 n -> Rabs (rnd x) < bpow radix2 1024.
Proof.
  intros Hn Hn' H.
  apply Rle_lt_trans with (bpow radix2 n).
  - apply abs_round_le_generic; auto; try typeclasses eauto.
    apply generic_format_bpow. unfold SpecFloat.fexp, SpecFloat.emin. lia.
  - apply bpow_lt. auto.
Qed.

(** |rnd x - x| <= 2^-53 |x| when x is 0 or not tiny *)
Lemma rnd_err x : (x = 0 \/ bpow radix2 (-1000) <= Rabs x) ->
  Rabs (rnd x - x) <= / 2 * bpow radix2 (-52) * Rabs x.
Proof.
  intros [-> | H].
  - rewrite rnd_0, Rminus_0_r, Rabs_R0. lra.
  - unfold rnd. change fx with (FLT_exp (-1074) 53).
    pose proof (relative_error_N_FLT radix2 (-1074) 53 ltac:(reflexivity) (fun x => negb (Z.even x)) x) as R.
    change (-53 + 1)%Z with (-52)%Z in R.
    apply R. eapply Rle_trans; [|exact H]. apply bpow_le. lia.
Qed.
