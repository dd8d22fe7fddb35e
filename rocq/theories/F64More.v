(** More real-number semantics of the float64 model: subtraction, floor, int64 conversion, the constants of MultByConst. *)
From Coq Require Import ZArith Reals Lia Lra Psatz Bool.
From Coq.Floats Require Import SpecFloat.
From Flocq Require Import Core BinarySingleNaN Relative Plus_error.
From Verif Require Import Go F64 F64Proofs Utils.
Local Open Scope R_scope.

Lemma fsub_equiv (x y : bf) : fsub (B2SF x) (B2SF y) = B2SF (Bminus mode_NE x y).
Proof.
case x as [sx|sx| |sx mx ex Bx]; case y as [sy|sy| |sy my ey By];
  [now (trivial || simpl; case Bool.eqb).. | ].
unfold fsub, SFsub, Bminus. cbn [B2SF]. cbv zeta. rewrite <- binary_normalize_equiv. f_equal. unfold Fplus_naive. destruct sx, sy; cbn [negb cond_Zopp SpecFloat.cond_Zopp]; lia.
Qed.
Lemma fval_sub x y a b : fval x a -> fval y b -> Rabs (rnd (a - b)) < bpow radix2 1024 -> fval (fsub x y) (rnd (a - b)).
Proof.
  intros (bx & -> & Fx & <-) (b0 & -> & Fy & <-) H.
  rewrite fsub_equiv. eexists. split; [reflexivity|].
  pose proof (Bminus_correct 53 1024 Hprec Hmax mode_NE bx b0 Fx Fy) as C.
  cbn [round_mode] in C. fold (rnd (B2R bx - B2R b0)) in C.
  rewrite Rlt_bool_true in C by exact H. destruct C as (C1 & C2 & _). auto.
Qed.
Lemma fval_abs x r : fval x r -> fval (fabs x) (Rabs r).
Proof.
  intros (b & -> & F & <-). exists (Babs b). split; [destruct b; reflexivity|]. split; [now rewrite is_finite_Babs|]. apply B2R_Babs.
Qed.
Lemma fval_neg x r : fval x r -> fval (fneg x) (- r).
Proof.
  intros (b & -> & F & <-). exists (Bopp b). split; [destruct b; reflexivity|]. split; [now rewrite is_finite_Bopp|]. apply B2R_Bopp.
Qed.
Lemma feqb_spec x y a b : fval x a -> fval y b -> feqb x y = true <-> a = b.
Proof.
  intros (bx & -> & Fx & <-) (b0 & -> & Fy & <-). unfold feqb, SFeqb. change (SFcompare (B2SF bx) (B2SF b0)) with (Bcompare bx b0).
  rewrite Bcompare_correct by auto. destruct (Rcompare_spec (B2R bx) (B2R b0)); split; intros; try easy; lra.
Qed.
Lemma fval_Z n : (Z.abs n <= 2 ^ 53)%Z -> fval (f_of_Z n) (IZR n).
Proof.
  intros H. pose proof (fval_of_Z n) as F. rewrite (rnd_IZR n H) in F. apply F. rewrite <- (rnd_IZR n H). apply (rnd_lt_big _ 53); [lia|lia|]. rewrite <- abs_IZR.
  rewrite <- IZR_pow2_pos by lia. now apply IZR_le.
Qed.
Lemma rnd_fmt x r : fval x r -> rnd r = r.
Proof. intros H. apply round_generic; [typeclasses eauto|]. eapply fval_fmt; eauto. Qed.
Lemma fval_lt x r : fval x r -> Rabs r < bpow radix2 1024.
Proof. intros (b & _ & _ & <-). apply abs_B2R_lt_emax. Qed.

(** floor *)
Lemma mant_lt m e : SpecFloat.bounded 53 1024 m e = true -> (Zpos m < 2 ^ 53)%Z.
Proof.
  intros H. unfold SpecFloat.bounded in H. apply andb_true_iff in H as [H _]. unfold SpecFloat.canonical_mantissa in H. apply Zeq_bool_eq in H.
  assert (D : (Z.pos (SpecFloat.digits2_pos m) <= 53)%Z) by (revert H; unfold SpecFloat.fexp, SpecFloat.emin; lia).
  rewrite Digits.Zpos_digits2_pos in D. pose proof (Digits.Zdigits_correct radix2 (Zpos m)) as [_ C]. eapply Z.lt_le_trans; [exact C|]. change (2 ^ 53)%Z with (Zpower radix2 53). apply Zpower_le. exact D.
Qed.
Lemma ffloor_spec x r : fval x r -> fval (ffloor x) (IZR (Zfloor r)).
Proof.
  intros (b & -> & F & <-). destruct b as [s|s| |s m e Hb]; try easy.
  - cbn [B2SF ffloor B2R]. rewrite (Zfloor_IZR 0). exists (B754_zero s). auto.
  - cbn [B2SF ffloor B2R]. destruct (Z.leb_spec 0 e) as [He|He].
    + exists (B754_finite s m e Hb). split; [reflexivity|]. split; [reflexivity|]. cbn [B2R]. unfold F2R. cbn [Fnum Fexp]. rewrite <- IZR_Zpower by auto. now rewrite <- mult_IZR, Zfloor_IZR.
    + pose proof (mant_lt m e Hb) as HM. assert (P : (0 < 2 ^ (- e))%Z) by (apply Z.pow_pos_nonneg; lia).
      assert (E : Zfloor (F2R (Float radix2 (cond_Zopp s (Zpos m)) e)) = ((if s then - Zpos m else Zpos m) / 2 ^ (- e))%Z).
      { destruct s; cbn [cond_Zopp].
        - change (Z.opp (Z.pos m)) with (Zneg m). rewrite (F2R_Zopp radix2 (Zpos m) e : F2R (Float radix2 (Zneg m) e) = _), fin_val by auto.
          replace (- (IZR (Z.pos m) / IZR (2 ^ (- e)))) with (IZR (Z.neg m) / IZR (2 ^ (- e))). { now apply Zfloor_div_pos. }
          change (Zneg m) with (- Zpos m)%Z. rewrite opp_IZR. field. apply IZR_neq. lia.
        - rewrite fin_val by auto. now apply Zfloor_div_pos. }
      rewrite E. destruct s; apply fval_Z.
      * change (- Z.pos m)%Z with (Z.neg m). assert (- Zpos m <= (- Zpos m) / 2 ^ (- e) <= 0)%Z. { split; [apply Z.div_le_lower_bound; nia|apply Z.div_le_upper_bound; nia]. } change (Z.neg m) with (- Z.pos m)%Z. lia.
      * assert (0 <= Zpos m / 2 ^ (- e) <= Zpos m)%Z. { split; [apply Z.div_pos; lia|apply Z.div_le_upper_bound; nia]. } lia.
Qed.

(** truncation towards zero of any finite float *)
Lemma ftrunc_trunc x r : fval x r -> ftrunc x = Ztrunc r.
Proof.
  intros H. destruct (Rle_or_lt 0 r) as [Hr|Hr]. { rewrite (ftrunc_floor x r H Hr). symmetry. now apply Ztrunc_floor. }
  pose proof (fval_neg x r H) as H'. pose proof (ftrunc_floor _ _ H' ltac:(lra)) as E. assert (ftrunc (fneg x) = - ftrunc x)%Z as E2 by (destruct x as [| | |[] m e]; cbn; lia).
  rewrite <- (Ropp_involutive r), Ztrunc_opp, (Ztrunc_floor (- r)) by lra. lia.
Qed.

(** needsScale: false exactly for the integers of int64 *)
Lemma sub_zero x y a b : fval x a -> fval y b -> rnd (a - b) = 0 -> a = b.
Proof.
  intros H1 H2 H. destruct (Req_dec (a - b) 0) as [|Hn]; [lra|]. exfalso. unfold Rminus in *. revert H. unfold rnd. change fx with (FLT_exp (-1074) 53).
  apply (round_plus_neq_0 radix2 (FLT_exp (-1074) 53) ZnearestE a (- b)); auto; try typeclasses eauto.
  - exact (fval_fmt x a H1).
  - apply generic_format_opp. exact (fval_fmt y b H2).
Qed.
