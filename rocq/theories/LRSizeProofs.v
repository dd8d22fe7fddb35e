(** The float64 sizes of lr_minibatch.go: math.Pow, math.Log2 and math.Ceil on the values they are called with. *)
From Coq Require Import ZArith Reals Lia Lra Psatz Bool List.
From Coq.Floats Require Import SpecFloat.
From Flocq Require Import Core BinarySingleNaN.
From Verif Require Import Go GoProofs F64 F64Proofs F64More Utils EvFloat LRSize DecomposeProofs BasisExt SpecEv SpecLREnc LREncProofs SpecSize.
Local Open Scope R_scope.

Lemma fval_inj x y r : fval x r -> fval y r -> r <> 0 -> x = y.
Proof.
  intros (bx & -> & Fx & Rx) (by_ & -> & Fy & Ry) H. f_equal. apply B2R_inj; [| |congruence].
  - destruct bx; try easy. cbn in Rx. congruence.
  - destruct by_; try easy. cbn in Ry. congruence.
Qed.
Lemma fval_frexp x r : fval x r -> r <> 0 -> exists f e, goFrexp x = (f, e) /\ e = mag radix2 r /\ fval f (r * bpow radix2 (- mag radix2 r)) /\ / 2 <= Rabs (r * bpow radix2 (- mag radix2 r)) < 1.
Proof.
  intros (b & -> & F & Rb) H. assert (Fs : is_finite_strict b = true). { destruct b; try easy. cbn in Rb. congruence. }
  pose proof (Bfrexp_correct 53 1024 Hprec b Fs) as C.
  assert (E : goFrexp (B2SF b) = (B2SF (fst (Bfrexp b)), snd (Bfrexp b))).
  { destruct b as [| | |s m e B]; try discriminate. cbn [Bfrexp fst snd]. rewrite B2SF_SF2B. unfold goFrexp, SFfrexp, Ffrexp_core_binary. cbn [B2SF].
    change (Zlt_bool (- (53)) (SpecFloat.emin 53 1024)) with false. cbv iota. destruct (_ <=? _)%positive; reflexivity. }
  destruct (Bfrexp b) as [z e] eqn:Ez. cbn [fst snd] in E. destruct C as (C1 & C2). destruct (C2 ltac:(lia)) as (C3 & C4). rewrite Rb in *.
  assert (Ev : B2R z = r * bpow radix2 (- mag radix2 r)). { rewrite C1 at 1. rewrite Rmult_assoc, <- C4, <- bpow_plus. replace (e + - e)%Z with 0%Z by lia. cbn. ring. }
  exists (B2SF z), e. rewrite E. split; [reflexivity|]. split; [exact C4|]. rewrite <- Ev. split; [|exact C3].
  exists z. split; [reflexivity|]. split; [|reflexivity]. destruct z; try easy; cbn in C3; rewrite Rabs_R0 in C3; lra.
Qed.
Lemma fval_ldexp x r e : fval x r -> Rabs (rnd (r * bpow radix2 e)) < bpow radix2 1024 -> fval (goLdexp x e) (rnd (r * bpow radix2 e)).
Proof.
  intros (b & -> & F & Rb) H. pose proof (Bldexp_correct 53 1024 Hprec Hmax mode_NE b e) as C. rewrite Rb in C.
  rewrite Rlt_bool_true in C by exact H. destruct C as (C1 & C2 & _). exists (Bldexp mode_NE b e). split; [|split; [congruence|exact C1]].
  destruct b; try reflexivity. cbn [Bldexp goLdexp B2SF SFldexp]. rewrite B2SF_SF2B. unfold goLdexp. cbn [SFldexp]. apply binary_round_equiv.
Qed.
Lemma rnd_bpow e : (-1074 <= e)%Z -> rnd (bpow radix2 e) = bpow radix2 e.
Proof. intros H. apply round_generic; [typeclasses eauto|]. apply generic_format_bpow. rewrite fx_FLT. unfold FLT_exp. lia. Qed.
Lemma bpow_lt' e : (e < 1024)%Z -> Rabs (bpow radix2 e) < bpow radix2 1024.
Proof. intros H. rewrite Rabs_pos_eq by apply bpow_ge_0. now apply bpow_lt. Qed.
Lemma bpow_mul a b : bpow radix2 a * bpow radix2 b = bpow radix2 (a + b). Proof. symmetry. apply bpow_plus. Qed.

Lemma half_facts : goFrexp (f_of_Z 2) = (fhalf, 2%Z) /\ fltb (fmul fhalf fhalf) fhalf = true /\ fadd (fmul fhalf fhalf) (fmul fhalf fhalf) = fhalf.
Proof. repeat split; vm_compute; reflexivity. Qed.
Lemma fval_half' : fval fhalf (bpow radix2 (-1)). Proof. exact fval_half. Qed.

Lemma powLoop_2 : forall fuel i p c a1 ae, (0 <= i < 2 ^ Z.of_nat fuel)%Z -> (0 <= c)%Z -> (c + Z.of_nat fuel <= 100)%Z -> (1 <= p)%Z -> (p * i <= 2000)%Z ->
  fval a1 (bpow radix2 (- c)) ->
  exists r e c', powLoop fuel i fhalf (p + 1) a1 ae = (r, e) /\ fval r (bpow radix2 (- c')) /\ (0 <= c' <= c + Z.of_nat fuel)%Z /\ (e - c' = ae - c + p * i)%Z.
Proof.
  destruct half_facts as (_ & H1 & H2). induction fuel as [|fuel IH]; intros i p c a1 ae Hi Hc Hcf Hp Hpi Ha.
  { cbn [powLoop]. exists a1, ae, c. change (2 ^ Z.of_nat 0)%Z with 1%Z in Hi. assert (i = 0%Z) by lia. subst i. repeat split; auto; lia. }
  cbn [powLoop]. destruct (Z.eqb_spec i 0) as [->|Hn]. { exists a1, ae, c. repeat split; auto; lia. }
  assert (Hp2 : (p <= 2000)%Z) by nia.
  destruct (Z.ltb_spec (p + 1) (- 4096)); [lia|]. destruct (Z.ltb_spec 4096 (p + 1)); [lia|]. cbn [orb]. rewrite H1, H2.
  assert (Hi' : (0 <= i / 2 < 2 ^ Z.of_nat fuel)%Z).
  { rewrite Nat2Z.inj_succ, Z.pow_succ_r in Hi by lia. split; [apply Z.div_pos; lia|apply Z.div_lt_upper_bound; lia]. }
  pose proof (Z.div_mod i 2 ltac:(lia)) as Hdm. pose proof (Zmod_odd i) as Hodd.
  replace (2 * (p + 1) - 1)%Z with (2 * p + 1)%Z by ring.
  destruct (Z.odd i).
  - destruct (IH (i / 2)%Z (2 * p)%Z (c + 1)%Z (fmul a1 fhalf) (ae + (p + 1))%Z) as (r & e & c' & E & F & R & S); try lia; try nia.
    + replace (bpow radix2 (- (c + 1))) with (rnd (bpow radix2 (- c) * bpow radix2 (-1))).
      * apply fval_mul; [exact Ha|exact fval_half'|]. rewrite bpow_mul, rnd_bpow by lia. apply bpow_lt'. lia.
      * rewrite bpow_mul, rnd_bpow by lia. f_equal. lia.
    + exists r, e, c'. rewrite E. repeat split; auto; first [lia|nia].
  - destruct (IH (i / 2)%Z (2 * p)%Z c a1 ae) as (r & e & c' & E & F & R & S); try lia; try nia; [exact Ha|].
    exists r, e, c'. rewrite E. repeat split; auto; first [lia|nia].
Qed.

Lemma IZR_half k : IZR k <> / 2.
Proof. intros H. assert (X : IZR (2 * k) = IZR 1) by (rewrite mult_IZR; lra). apply eq_IZR in X. lia. Qed.
Lemma feqb_false x y a b : fval x a -> fval y b -> a <> b -> feqb x y = false.
Proof. intros X Y H. destruct (feqb x y) eqn:E; [|reflexivity]. apply (feqb_spec _ _ _ _ X Y) in E. contradiction. Qed.
Lemma feqb_true x y a : fval x a -> fval y a -> feqb x y = true.
Proof. intros X Y. now apply (feqb_spec _ _ _ _ X Y). Qed.
Lemma fval_one : fval (f_of_Z 1) 1. Proof. apply (fval_Z 1). lia. Qed.

Lemma pow_2 ex y k : fval y (IZR k) -> (Z.abs k <= 1000)%Z -> fval (goPow ex (f_of_Z 2) y) (bpow radix2 k).
Proof.
  intros Hy Hk. unfold goPow. pose proof fval_one as F1. assert (F2 : fval (f_of_Z 2) 2) by (apply (fval_Z 2); lia).
  rewrite (feqb_false (f_of_Z 2) (f_of_Z 1) 2 1 F2 F1) by lra. rewrite orb_false_r.
  destruct (Z.eq_dec k 0) as [->|K0]. { rewrite (feqb_true y f0 0 Hy fval_f0). exact F1. }
  rewrite (feqb_false y f0 _ 0 Hy fval_f0) by (now apply not_0_IZR).
  destruct (Z.eq_dec k 1) as [->|K1]. { rewrite (feqb_true y (f_of_Z 1) 1 Hy F1). exact F2. }
  rewrite (feqb_false y (f_of_Z 1) _ 1 Hy F1) by (intros X; apply (eq_IZR k 1) in X; contradiction).
  rewrite (feqb_false y fhalf _ _ Hy fval_half) by apply IZR_half.
  rewrite (feqb_false y (fneg fhalf) _ _ Hy (fval_neg _ _ fval_half)) by (intros X; apply (IZR_half (- k)); rewrite opp_IZR; lra).
  pose proof (ffloor_spec _ _ (fval_abs _ _ Hy)) as Fi. rewrite <- abs_IZR, Zfloor_IZR in Fi.
  pose proof (fval_abs _ _ Hy) as Fa. rewrite <- abs_IZR in Fa.
  assert (Ff : fval (fsub (fabs y) (ffloor (fabs y))) 0).
  { assert (X : rnd (IZR (Z.abs k) - IZR (Z.abs k)) = 0) by (rewrite Rminus_diag_eq by reflexivity; apply rnd_0).
    pose proof (fval_sub _ _ _ _ Fa Fi) as G. rewrite X, Rabs_R0 in G. apply G, bpow_gt_0. }
  cbv zeta. rewrite (feqb_true _ f0 0 Ff fval_f0). destruct half_facts as (-> & _).
  assert (Ei : i64_of_f (ffloor (fabs y)) = Z.abs k).
  { destruct (i64_val _ _ Fi) as (z & Ez & _ & _ & _ & T). rewrite Ez, Ztrunc_IZR in *. apply T. split; [lia|]. apply Z.le_lt_trans with 1000%Z; [lia|reflexivity]. }
  rewrite Ei. destruct (powLoop_2 64 (Z.abs k) 1 0 (f_of_Z 1) 0) as (r & e & c' & E & F & R & S); try lia.
  { exact F1. }
  change (1 + 1)%Z with 2%Z in E. rewrite E. change (Z.of_nat 64) with 64%Z in R.
  assert (Ee : (e = c' + Z.abs k)%Z) by lia.
  destruct (fltb y f0) eqn:El.
  - apply (fltb_spec _ _ _ _ Hy fval_f0) in El. apply (lt_IZR k 0) in El.
    assert (Fd : fval (fdiv (f_of_Z 1) r) (bpow radix2 c')).
    { assert (X : 1 / bpow radix2 (- c') = bpow radix2 c'). { unfold Rdiv. rewrite Rmult_1_l, bpow_opp, Rinv_inv. reflexivity. }
      rewrite <- (rnd_bpow c'), <- X by lia. apply fval_div; auto. - apply Rgt_not_eq, bpow_gt_0. - rewrite X, rnd_bpow by lia. apply bpow_lt'. lia. }
    replace (bpow radix2 k) with (rnd (bpow radix2 c' * bpow radix2 (- e))).
    + apply fval_ldexp; [exact Fd|]. rewrite bpow_mul, rnd_bpow by lia. apply bpow_lt'. lia.
    + rewrite bpow_mul, rnd_bpow by lia. f_equal. lia.
  - assert (Kp : (0 < k)%Z). { destruct (Z.lt_total k 0) as [X|[X|X]]; [|lia|lia]. apply (IZR_lt k 0) in X. apply (fltb_spec _ _ _ _ Hy fval_f0) in X. congruence. }
    replace (bpow radix2 k) with (rnd (bpow radix2 (- c') * bpow radix2 e)).
    + apply fval_ldexp; [exact F|]. rewrite bpow_mul, rnd_bpow by lia. apply bpow_lt'. lia.
    + rewrite bpow_mul, rnd_bpow by lia. f_equal. lia.
Qed.

(** ** math.Log2 *)
Lemma goCeil_val x v k : fval x v -> (0 <= k < 2 ^ 62)%Z -> 0 <= v -> IZR (k - 1) < v <= IZR k -> goCeil x = k.
Proof.
  intros F Hk Hv Hb. assert (E : fceil x = k). { rewrite (fceil_ceil x v F Hv). apply Zceil_imp. exact Hb. }
  assert (X : goCeil x = if ((- 2 ^ 63 <=? fceil x) && (fceil x <? 2 ^ 63))%Z then fceil x else (- 2 ^ 63)%Z). { destruct F as (b & -> & Fb & _). destruct b; try easy; reflexivity. }
  rewrite X, E. destruct (Z.leb_spec (- 2 ^ 63) k); [|lia]. destruct (Z.ltb_spec k (2 ^ 63)); [reflexivity|lia].
Qed.
Lemma ln2_bounds : 0 < ln 2 <= 1.
Proof. split; [rewrite <- ln_1; apply ln_increasing; lra|]. rewrite <- (ln_exp 1). left. apply ln_increasing; [lra|]. pose proof (exp_ineq1 1 ltac:(lra)). lra. Qed.
Lemma ln_le x : 0 < x -> ln x <= x - 1.
Proof. intros H. destruct (Req_dec (ln x) 0) as [E|E]. - rewrite E. apply (f_equal exp) in E. rewrite exp_ln, exp_0 in E by exact H. lra. - pose proof (exp_ineq1 _ E) as X. rewrite exp_ln in X by exact H. lra. Qed.
(** the binary logarithm of a fraction at distance t from both ends of (1/2, 1) is at distance t from both ends of (-1, 0) *)
Lemma log_inside f t : 0 < t -> / 2 + t <= f -> f <= 1 - t -> -1 + t <= ln f / ln 2 <= - t.
Proof.
  intros Ht H1 H2. destruct ln2_bounds as (L1 & L2). assert (Hf : 0 < f) by lra.
  assert (A : ln f <= - t) by (pose proof (ln_le f Hf); lra).
  assert (B : t <= ln (2 * f)).
  { pose proof (ln_le (/ (2 * f)) ltac:(apply Rinv_0_lt_compat; lra)) as X. rewrite ln_Rinv in X by lra.
    assert (Y : / (2 * f) <= 1 - t). { apply Rmult_le_reg_r with (2 * f); [lra|]. rewrite Rinv_l by lra. nra. } lra. }
  rewrite ln_mult in B by lra.
  split.
  - apply Rmult_le_reg_r with (ln 2); [lra|]. unfold Rdiv. rewrite Rmult_assoc, Rinv_l by lra. nra.
  - apply Rmult_le_reg_r with (ln 2); [lra|]. unfold Rdiv. rewrite Rmult_assoc, Rinv_l by lra. nra.
Qed.

Lemma fR_val' x : finite x -> fval x (fR x).
Proof. intros H. apply finite_fval in H as (r & F). now rewrite (fR_fval x r F). Qed.
Lemma val_finite x r : fval x r -> finite x /\ fR x = r.
Proof. intros F. split; [apply finite_fval; eauto|apply (fR_fval x r F)]. Qed.

Lemma rnd_above e : (1 <= e <= 40)%Z -> IZR e - 1 < rnd (IZR e - 1 + bpow radix2 (-41)).
Proof.
  intros He. assert (E : IZR e - 1 + bpow radix2 (-41) = F2R (Float radix2 ((e - 1) * 2 ^ 41 + 1) (-41))).
  { unfold F2R. cbn [Fnum Fexp]. rewrite plus_IZR, mult_IZR, minus_IZR, IZR_pow2_pos by lia. rewrite Rmult_plus_distr_r, Rmult_assoc, bpow_mul. change (bpow radix2 (41 + -41)) with 1. generalize (bpow radix2 (-41)). intros b. ring. }
  assert (G : rnd (IZR e - 1 + bpow radix2 (-41)) = IZR e - 1 + bpow radix2 (-41)).
  { apply round_generic; [typeclasses eauto|]. rewrite E. apply generic_format_FLT. exists (Float radix2 ((e - 1) * 2 ^ 41 + 1) (-41)); [reflexivity| |cbn; lia].
    cbn [Fnum]. change (Zpower radix2 53) with (2 ^ 53)%Z. rewrite Z.abs_eq by nia. apply Z.le_lt_trans with (39 * 2 ^ 41 + 1)%Z; [nia|reflexivity]. }
  rewrite G. pose proof (bpow_gt_0 radix2 (-41)). lra.
Qed.

Lemma log2_val lg n : log_ok lg -> (1 <= n <= 2 ^ 40)%Z ->
  exists v, fval (goLog2 lg (f_of_Z n)) v /\ 0 <= v /\ IZR (Z.log2_up n - 1) < v <= IZR (Z.log2_up n) /\ (forall k, (0 <= k)%Z -> n = (2 ^ k)%Z -> v = IZR k).
Proof.
  intros Hlg Hn. assert (Fn : fval (f_of_Z n) (IZR n)) by (apply fval_Z; lia).
  assert (N0 : IZR n <> 0) by (apply not_0_IZR; lia). destruct (fval_frexp _ _ Fn N0) as (f & e & E & Ee & Ff & Bf).
  rewrite <- Ee in Ff, Bf. set (x := IZR n * bpow radix2 (- e)) in *.
  assert (Px : 0 <= x) by (unfold x; apply Rmult_le_pos; [apply IZR_le; lia|apply bpow_ge_0]).
  rewrite Rabs_pos_eq in Bf by exact Px.
  assert (Hx : IZR n = x * bpow radix2 e). { unfold x. rewrite Rmult_assoc, bpow_mul. replace (- e + e)%Z with 0%Z by lia. cbn. ring. }
  assert (Hlo : (2 ^ (e - 1) <= n)%Z /\ (1 <= e)%Z).
  { assert (e1 : (1 <= e)%Z). { destruct (Z.le_gt_cases 1 e); [assumption|]. exfalso. assert (bpow radix2 e <= 1) by (change 1 with (bpow radix2 0); apply bpow_le; lia). pose proof (bpow_gt_0 radix2 e). pose proof (IZR_le 1 n ltac:(lia)). nra. }
    split; [|exact e1]. apply le_IZR. rewrite IZR_pow2_pos by lia. rewrite Hx. replace e with ((e - 1) + 1)%Z at 2 by lia. rewrite bpow_plus. change (bpow radix2 1) with 2. pose proof (bpow_gt_0 radix2 (e - 1)). nra. }
  destruct Hlo as (Hlo & e1).
  assert (Hhi : (n < 2 ^ e)%Z). { apply lt_IZR. rewrite IZR_pow2_pos by lia. rewrite Hx. pose proof (bpow_gt_0 radix2 e). nra. }
  assert (He : (e <= 41)%Z). { destruct (Z.le_gt_cases e 41); [assumption|]. exfalso. assert (2 ^ 41 <= 2 ^ (e - 1))%Z by (apply Z.pow_le_mono_r; lia). lia. }
  unfold goLog2. rewrite E. destruct (Z.eq_dec n (2 ^ (e - 1))) as [En|En].
  - assert (x = / 2). { unfold x. rewrite En, IZR_pow2_pos, bpow_mul by lia. replace (e - 1 + - e)%Z with (-1)%Z by lia. reflexivity. }
    rewrite (feqb_true f fhalf (/ 2)) by (try exact fval_half; congruence).
    exists (IZR (e - 1)). assert (F : fval (f_of_Z (e - 1)) (IZR (e - 1))) by (apply fval_Z; lia).
    assert (El : Z.log2_up n = (e - 1)%Z) by (rewrite En; apply Z.log2_up_pow2; lia).
    rewrite El. split; [exact F|]. split; [apply IZR_le; lia|]. split; [split; [apply IZR_lt; lia|lra]|].
    intros k Hk Ek. f_equal. apply (Z.pow_inj_r 2); lia.
  - assert (He40 : (e <= 40)%Z). { destruct (Z.eq_dec e 41) as [->|]; [|lia]. change (41 - 1)%Z with 40%Z in *. lia. }
    assert (Hxh : / 2 + bpow radix2 (- e) <= x <= 1 - bpow radix2 (- e)).
    { assert (A : (2 ^ (e - 1) + 1 <= n)%Z) by lia. assert (B : (n <= 2 ^ e - 1)%Z) by lia. apply IZR_le in A, B. rewrite plus_IZR, IZR_pow2_pos in A by lia. rewrite minus_IZR, IZR_pow2_pos in B by lia.
      pose proof (bpow_gt_0 radix2 (- e)) as P. assert (Q : bpow radix2 e * bpow radix2 (- e) = 1) by (rewrite bpow_mul; replace (e + - e)%Z with 0%Z by lia; reflexivity).
      assert (Q' : bpow radix2 (e - 1) * bpow radix2 (- e) = / 2) by (rewrite bpow_mul; replace (e - 1 + - e)%Z with (-1)%Z by lia; reflexivity).
      unfold x. split; nra. }
    assert (Px' : bpow radix2 (- e) > 0) by apply bpow_gt_0.
    rewrite (feqb_false f fhalf x (/ 2) Ff fval_half) by lra.
    destruct (val_finite f x Ff) as (Fin & Rf). destruct (Hlg f Fin) as (Hl1 & Hl2); [rewrite Rf; lra|]. rewrite Rf in Hl2.
    apply fR_val' in Hl1. set (l := fR (lg f)) in *.
    destruct (log_inside x (bpow radix2 (- e)) Px' (proj1 Hxh) (proj2 Hxh)) as (I1 & I2).
    assert (B40 : bpow radix2 (-40) <= bpow radix2 (- e)) by (apply bpow_le; lia).
    assert (B41 : bpow radix2 (-40) = 2 * bpow radix2 (-41)). { change (-40)%Z with (1 + -41)%Z. rewrite bpow_plus. reflexivity. }
    assert (B45 : / 2 ^ 45 <= bpow radix2 (-41)). { change (bpow radix2 (-41)) with (/ IZR (2 ^ 41)). rewrite pow_IZR. apply Rinv_le_contravar; [apply IZR_lt; reflexivity|]. apply IZR_le. change (Z.of_nat 45) with 45%Z. vm_compute. discriminate. }
    assert (Bh : bpow radix2 (- e) <= / 2). { change (/ 2) with (bpow radix2 (-1)). apply bpow_le. lia. }
    pose proof (bpow_gt_0 radix2 (-41)) as P41.
    apply Rabs_le_inv in Hl2.
    assert (Fe : fval (f_of_Z e) (IZR e)) by (apply fval_Z; lia).
    assert (Re : rnd (IZR e) = IZR e) by (apply rnd_IZR; lia).
    assert (V1 : rnd (l + IZR e) <= IZR e). { rewrite <- Re at 2. apply rnd_mono. lra. }
    assert (V2 : IZR e - 1 < rnd (l + IZR e)). { eapply Rlt_le_trans; [apply (rnd_above e); lia|]. apply rnd_mono. lra. }
    pose proof (IZR_le 1 e e1) as e1'. pose proof (IZR_le e 40 He40) as e40'.
    exists (rnd (l + IZR e)). split.
    { apply fval_add; auto. rewrite Rabs_pos_eq by lra. eapply Rle_lt_trans; [exact V1|]. apply Rle_lt_trans with (bpow radix2 10); [cbn; lra|apply bpow_lt; lia]. }
    assert (El : Z.log2_up n = e). { apply Z.log2_up_unique; [lia|]. split; [|lia]. replace (Z.pred e) with (e - 1)%Z by lia. lia. }
    rewrite El. split; [lra|]. split; [rewrite minus_IZR; lra|].
    intros k Hk Ek. exfalso. rewrite Ek in Hlo, Hhi, En. apply Z.pow_lt_mono_r_iff in Hhi; [|lia..]. apply Z.pow_le_mono_r_iff in Hlo; [|lia..]. apply En. f_equal. lia.
Qed.
