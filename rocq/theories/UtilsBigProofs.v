(** scaleUpVecExactBigFloat, through Flocq. *)
From Coq Require Import ZArith Znumtheory Reals Lia Lra Psatz Bool String List.
From Coq.Floats Require Import SpecFloat.
From Flocq Require Import Core BinarySingleNaN Relative.
From Verif Require Import Spec SpecProofs Go GoProofs Arith Lattigo LattigoProofs F64 F64Proofs F64More Utils UtilsBig SpecEv EvFloat UtilFloat.
Import ListNotations.
Local Open Scope R_scope.
Local Notation length := List.length.

(** * rounding to prec bits *)
Section G.
Context (prec emax : Z) (Hpp : FLX.Prec_gt_0 prec) (Hpm : Prec_lt_emax prec emax).
Lemma raux_equiv sx mx ex lx : SpecFloat.binary_round_aux prec emax sx mx ex lx = binary_round_aux prec emax mode_NE sx mx ex lx.
Proof.
  unfold SpecFloat.binary_round_aux, binary_round_aux. set (mrse' := shr_fexp _ _ _ _ _). case mrse'; intros mrs' e'; simpl. now rewrite (round_nearest_even_equiv sx).
Qed.
Lemma round_equiv s m e : SpecFloat.binary_round prec emax s m e = binary_round prec emax mode_NE s m e.
Proof. unfold SpecFloat.binary_round, binary_round, shl_align_fexp. set (mez := shl_align _ _ _); case mez as [mz ez]. apply raux_equiv. Qed.
Lemma normalize_equiv m e z : SpecFloat.binary_normalize prec emax m e z = B2SF (binary_normalize prec emax Hpp Hpm mode_NE m e z).
Proof. destruct m as [|m|m]; [reflexivity| |]; simpl; rewrite B2SF_SF2B; apply round_equiv. Qed.
End G.

Definition emx : Z := bigEmax.
Lemma emx_big : (2 ^ 31 <= emx)%Z. Proof. unfold emx, bigEmax. lia. Qed.
Lemma emx_eq : bigEmax = emx. Proof. reflexivity. Qed.
Opaque emx.
Section P.
Context (p : Z) (Hp0 : (53 <= p <= 2 ^ 30)%Z).
Local Instance Hpp : FLX.Prec_gt_0 p. Proof. unfold FLX.Prec_gt_0. lia. Qed.
Local Instance Hpm : Prec_lt_emax p emx. Proof. pose proof emx_big. unfold Prec_lt_emax. lia. Qed.
Notation fp := (SpecFloat.fexp p emx).
Definition rp (x : R) : R := round radix2 fp ZnearestE x.
Notation V := (SF2R radix2).

Lemma bround_val s m e : Rabs (rp (F2R (Float radix2 (cond_Zopp s (Zpos m)) e))) < bpow radix2 emx ->
  is_finite_SF (bigRound p s m e) = true /\ V (bigRound p s m e) = rp (F2R (Float radix2 (cond_Zopp s (Zpos m)) e)) /\ sign_SF (bigRound p s m e) = s.
Proof.
  intros H. unfold bigRound. rewrite emx_eq, round_equiv. destruct (binary_round_correct p emx Hpp Hpm mode_NE s m e) as [_ C]. cbv zeta in C.
  unfold rp in H. change (round_mode mode_NE) with ZnearestE in C. rewrite Rlt_bool_true in C by exact H. tauto.
Qed.
Lemma fp_FLT e : fp e = FLT_exp (3 - emx - p) p e. Proof. reflexivity. Qed.
Lemma rp_err x : Rabs (rp x - x) <= bpow radix2 (- p) * (Rabs x + / 8).
Proof.
  pose proof (bpow_gt_0 radix2 (- p)) as Hu. pose proof (Rabs_pos x) as Hx. unfold rp. destruct (Rle_lt_dec (bpow radix2 (3 - emx - p + p - 1)) (Rabs x)) as [H|H].
  - pose proof (relative_error_N_FLT radix2 (3 - emx - p) p ltac:(lia) (fun x => negb (Z.even x)) x H) as E. change (round radix2 fp ZnearestE x) with (round radix2 (FLT_exp (3 - emx - p) p) ZnearestE x).
    eapply Rle_trans; [exact E|]. rewrite bpow_plus. change (bpow radix2 1) with 2. apply Rle_trans with (bpow radix2 (- p) * Rabs x); [right; field|]. apply Rmult_le_compat_l; lra.
  - pose proof (error_le_half_ulp radix2 fp (fun x => negb (Z.even x)) x) as E.
    assert (HU : ulp radix2 fp x = bpow radix2 (3 - emx - p)). { change fp with (FLT_exp (3 - emx - p) p). apply ulp_FLT_small; [apply Hpp|]. eapply Rlt_le_trans; [exact H|]. apply bpow_le. lia. }
    rewrite HU in E. eapply Rle_trans; [exact E|]. apply Rle_trans with (bpow radix2 (- p - 3)).
    + apply Rle_trans with (bpow radix2 (3 - emx - p)); [pose proof (bpow_gt_0 radix2 (3 - emx - p)); lra|]. pose proof emx_big. apply bpow_le. lia.
    + unfold Zminus. rewrite bpow_plus. change (bpow radix2 (- (3))) with (/ 8). apply Rmult_le_compat_l; lra.
Qed.
Lemma rp_mono x y : x <= y -> rp x <= rp y. Proof. apply round_le; typeclasses eauto. Qed.
Lemma rp_0 : rp 0 = 0. Proof. apply round_0. typeclasses eauto. Qed.
Lemma rp_opp x : rp (- x) = - rp x. Proof. apply round_NE_opp. Qed.
Lemma rp_abs_le x n : (n <= emx - 1)%Z -> (- 100 <= n)%Z -> Rabs x <= bpow radix2 n -> Rabs (rp x) <= bpow radix2 n.
Proof.
  intros H1 H2 H. unfold rp. rewrite <- round_NE_abs by typeclasses eauto. rewrite <- (round_generic radix2 fp ZnearestE (bpow radix2 n)).
  - apply round_le; [typeclasses eauto|typeclasses eauto|exact H].
  - apply generic_format_bpow. rewrite fp_FLT. pose proof emx_big. unfold FLT_exp. lia.
Qed.
Lemma rp_fx x : generic_format radix2 fx x -> rp x = x.
Proof.
  intros H. apply round_generic; [typeclasses eauto|]. change fp with (FLT_exp (3 - emx - p) p). change fx with (FLT_exp (-1074) 53) in H.
  apply (generic_inclusion_mag radix2 (FLT_exp (-1074) 53)); [|exact H]. intros _. pose proof emx_big. unfold FLT_exp. lia.
Qed.
Lemma F2R_mult m0 e0 m1 e1 : F2R (Float radix2 m0 e0) * F2R (Float radix2 m1 e1) = F2R (Float radix2 (m0 * m1) (e0 + e1)).
Proof. unfold F2R. cbn [Fnum Fexp]. rewrite mult_IZR, bpow_plus. ring. Qed.
Lemma newfloat x t : fval x t -> Rabs t < bpow radix2 1024 -> exists y, ringNewFloat x p = Ok y /\ is_finite_SF y = true /\ V y = t.
Proof.
  intros Hx Ht. pose proof (fval_fmt _ _ Hx) as Hf. destruct Hx as (b & -> & Fb & Hb). destruct b as [s|s| |s m e B]; try discriminate; cbn [B2SF ringNewFloat] in *.
  - exists (S754_zero s). cbn in Hb. auto.
  - cbn in Hb. assert (HV : rp (F2R (Float radix2 (cond_Zopp s (Zpos m)) e)) = t) by (rewrite Hb; now apply rp_fx).
    destruct (bround_val s m e) as (H1 & H2 & _). { rewrite HV. eapply Rlt_le_trans; [exact Ht|]. apply bpow_le. pose proof emx_big. lia. }
    eexists. split; [reflexivity|]. split; [exact H1|]. now rewrite H2.
Qed.
Lemma bmul_val x y : is_finite_SF x = true -> is_finite_SF y = true -> Rabs (rp (V x * V y)) < bpow radix2 emx ->
  exists z, bigMul p x y = Ok z /\ is_finite_SF z = true /\ V z = rp (V x * V y).
Proof.
  intros Fx Fy H. destruct x as [s0|s0| |s0 m0 e0]; destruct y as [s1|s1| |s1 m1 e1]; try discriminate; cbn [SF2R] in *.
  1-3: eexists; split; [reflexivity|]; split; [reflexivity|]; cbn [SF2R]; rewrite ?Rmult_0_l, ?Rmult_0_r, rp_0; reflexivity.
  assert (E : F2R (Float radix2 (cond_Zopp s0 (Zpos m0)) e0) * F2R (Float radix2 (cond_Zopp s1 (Zpos m1)) e1) = F2R (Float radix2 (cond_Zopp (xorb s0 s1) (Zpos (m0 * m1))) (e0 + e1))).
  { rewrite F2R_mult. do 2 f_equal. destruct s0, s1; cbn [cond_Zopp xorb]; rewrite Pos2Z.inj_mul; ring. }
  rewrite E in *. destruct (bround_val (xorb s0 s1) (m0 * m1) (e0 + e1) H) as (H1 & H2 & _). eexists. split; [reflexivity|]. auto.
Qed.
Lemma norm_val m e z : Rabs (rp (F2R (Float radix2 m e))) < bpow radix2 emx ->
  is_finite_SF (SpecFloat.binary_normalize p emx m e z) = true /\ V (SpecFloat.binary_normalize p emx m e z) = rp (F2R (Float radix2 m e)).
Proof.
  intros H. rewrite (normalize_equiv p emx Hpp Hpm). pose proof (binary_normalize_correct p emx Hpp Hpm mode_NE m e z) as C. cbv zeta in C. change (round_mode mode_NE) with ZnearestE in C.
  rewrite Rlt_bool_true in C by exact H. destruct C as (C1 & C2 & _). rewrite is_finite_SF_B2SF, SF2R_B2SF. split; [exact C2|exact C1].
Qed.
Lemma align_val (s0 s1 : bool) m0 e0 m1 e1 : let ez := Z.min e0 e1 in
  F2R (Float radix2 (cond_Zopp s0 (Zpos (fst (shl_align m0 e0 ez)))) ez) = F2R (Float radix2 (cond_Zopp s0 (Zpos m0)) e0) /\
  F2R (Float radix2 (cond_Zopp s1 (Zpos (fst (shl_align m1 e1 ez)))) ez) = F2R (Float radix2 (cond_Zopp s1 (Zpos m1)) e1).
Proof.
  intros ez. assert (G : forall s m e, (ez <= e)%Z -> F2R (Float radix2 (cond_Zopp s (Zpos (fst (shl_align m e ez)))) ez) = F2R (Float radix2 (cond_Zopp s (Zpos m)) e)).
  { intros s m e He. pose proof (shl_align_correct' m e ez He) as C1. destruct (shl_align m e ez) as [m' e']. destruct C1 as [C1 C2]. cbn [fst] in *. subst e'. destruct s; cbn [cond_Zopp]; [change (Zneg ?x) with (- Zpos x)%Z; rewrite !F2R_Zopp; f_equal|]; exact C1. }
  split; apply G; lia.
Qed.
Lemma badd_val (sub : bool) x y h : is_finite_SF x = true -> is_finite_SF y = true -> V y = h -> h <> 0 -> rp h = h -> let r := if sub then V x - h else V x + h in
  Rabs (rp r) < bpow radix2 emx -> let z := if sub then bigSub p x y else bigAdd p x y in is_finite_SF z = true /\ V z = rp r.
Proof.
  intros Fx Fy Hh Hn Hr r H z. destruct y as [s1|s1| |s1 m1 e1]; try discriminate; [cbn in Hh; lra|]. destruct x as [s0|s0| |s0 m0 e0]; try discriminate.
  - unfold z, r. destruct sub; cbn [bigSub bigAdd SFsub SFadd SF2R is_finite_SF] in *.
    + split; [reflexivity|]. rewrite Rminus_0_l, rp_opp, Hr, <- Hh. destruct s1; cbn [negb cond_Zopp]; rewrite <- F2R_Zopp; reflexivity.
    + split; [reflexivity|]. now rewrite Rplus_0_l, Hr.
  - destruct (align_val s0 s1 m0 e0 m1 e1) as [A0 A1]. cbv zeta in A0, A1. cbn [SF2R] in Hh. unfold z, r in *. cbn [SF2R] in *. rewrite <- Hh in *. destruct sub; unfold bigSub, bigAdd; rewrite emx_eq; cbn [SFsub SFadd].
    + assert (E : F2R (Float radix2 (cond_Zopp s0 (Zpos m0)) e0) - F2R (Float radix2 (cond_Zopp s1 (Zpos m1)) e1) = F2R (Float radix2 (cond_Zopp s0 (Zpos (fst (shl_align m0 e0 (Z.min e0 e1)))) - cond_Zopp s1 (Zpos (fst (shl_align m1 e1 (Z.min e0 e1))))) (Z.min e0 e1))).
      { rewrite <- A0, <- A1. unfold F2R. cbn [Fnum Fexp]. rewrite minus_IZR. ring. }
      rewrite E in *. now apply norm_val.
    + assert (E : F2R (Float radix2 (cond_Zopp s0 (Zpos m0)) e0) + F2R (Float radix2 (cond_Zopp s1 (Zpos m1)) e1) = F2R (Float radix2 (cond_Zopp s0 (Zpos (fst (shl_align m0 e0 (Z.min e0 e1)))) + cond_Zopp s1 (Zpos (fst (shl_align m1 e1 (Z.min e0 e1))))) (Z.min e0 e1))).
      { rewrite <- A0, <- A1. unfold F2R. cbn [Fnum Fexp]. rewrite plus_IZR. ring. }
      rewrite E in *. now apply norm_val.
Qed.

Lemma ftrunc_val x : is_finite_SF x = true -> (0 <= V x -> ftrunc x = Zfloor (V x)) /\ (V x <= 0 -> ftrunc x = (- Zfloor (- V x))%Z).
Proof.
  assert (G : forall m e, (if (0 <=? e)%Z then (Zpos m * 2 ^ e)%Z else (Zpos m / 2 ^ (- e))%Z) = Zfloor (F2R (Float radix2 (Zpos m) e))).
  { intros m e. destruct (Z.leb_spec 0 e).
    - unfold F2R; cbn [Fnum Fexp]. rewrite <- IZR_Zpower by auto. rewrite <- mult_IZR, Zfloor_IZR. reflexivity.
    - rewrite fin_val by auto. rewrite Zfloor_div_pos; [reflexivity|]. apply Z.pow_pos_nonneg; lia. }
  intros Fx. destruct x as [s0|s0| |s0 m0 e0]; try discriminate; cbn [ftrunc SF2R].
  - split; intros _; [symmetry; apply (Zfloor_IZR 0)|]. rewrite Ropp_0. rewrite (Zfloor_IZR 0). reflexivity.
  - rewrite G. assert (HP : 0 < F2R (Float radix2 (Zpos m0) e0)) by (now apply F2R_gt_0). destruct s0; cbn [cond_Zopp]; [change (Zneg m0) with (- Zpos m0)%Z; rewrite F2R_Zopp|]; split; intros H; try lra; auto. now rewrite Ropp_involutive.
Qed.
(** one value *)
Lemma up1 sc hf v old t : is_finite_SF sc = true -> V sc = t -> 0 <= t -> is_finite_SF hf = true -> V hf = / 2 -> is_finite_SF v = true -> t * Rabs (V v) <= bpow radix2 (2 ^ 30) ->
  exists z, bigUp1 p sc hf v old = Ok z /\ Rabs (IZR z - t * V v) <= / 2 + 4 * bpow radix2 (- p) * (t * Rabs (V v) + 1).
Proof.
  intros Fs Vs Ht Fh Vh Fv Hb. pose proof emx_big as HE. set (y := t * Rabs (V v)) in *.
  assert (Hy : Rabs (t * V v) = y) by (rewrite Rabs_mult, (Rabs_pos_eq t) by auto; reflexivity).
  assert (Hy0 : 0 <= y) by (rewrite <- Hy; apply Rabs_pos).
  pose proof (bpow_gt_0 radix2 (- p)) as Hu0. assert (Hu1 : bpow radix2 (- p) <= / 8). { apply Rle_trans with (bpow radix2 (- (3))); [apply bpow_le; lia|right; reflexivity]. }
  assert (Hx1 : Rabs (rp (t * V v)) <= bpow radix2 (2 ^ 30)). { apply rp_abs_le; [lia|lia|]. now rewrite Hy. }
  destruct (bmul_val sc v Fs Fv) as (x & Ex & Fx & Vx). { rewrite Vs. eapply Rle_lt_trans; [exact Hx1|]. apply bpow_lt. lia. }
  rewrite Vs in Vx. unfold bigUp1. rewrite Ex. cbn [bind].
  pose proof (rp_err (t * V v)) as E1. rewrite Hy in E1. rewrite <- Vx in E1, Hx1.
  assert (Hh : rp (/ 2) = / 2). { unfold rp. apply round_generic; [typeclasses eauto|]. change (/ 2) with (bpow radix2 (-1)). apply generic_format_bpow. change fp with (FLT_exp (3 - emx - p) p). unfold FLT_exp. lia. }
  set (sub := fltb v f0). set (r := if sub then V x - / 2 else V x + / 2).
  assert (Hr : Rabs r <= bpow radix2 (2 ^ 30 + 1)).
  { rewrite bpow_plus. change (bpow radix2 1) with 2. assert (1 <= bpow radix2 (2 ^ 30)). { change 1 with (bpow radix2 0). apply bpow_le. lia. } apply Rabs_le_inv in Hx1. unfold r. destruct sub; apply Rabs_le; lra. }
  assert (Hr2 : Rabs (rp r) < bpow radix2 emx). { eapply Rle_lt_trans; [apply (rp_abs_le r (2 ^ 30 + 1)); [lia|lia|exact Hr]|]. apply bpow_lt. lia. }
  destruct (badd_val sub x hf (/ 2) Fx Fh Vh ltac:(lra) Hh Hr2) as (Fz & Vz). fold r in Vz.
  set (z := if sub then bigSub p x hf else bigAdd p x hf) in *. exists (bigInt z old). split; [reflexivity|].
  assert (bigInt z old = ftrunc z) as -> by (destruct z; try discriminate; reflexivity).
  pose proof (rp_err r) as E2. rewrite <- Vz in E2.
  assert (Hsgn : (sub = true -> V v <= 0) /\ (sub = false -> 0 <= V v)).
  { unfold sub. destruct v as [b|b| |b m e]; try discriminate; cbn; [split; intros; apply Rle_refl|]. destruct b; cbn; split; intros H; try discriminate; left; [now apply F2R_lt_0|now apply F2R_gt_0]. }
  destruct Hsgn as [S1 S2]. destruct (ftrunc_val z Fz) as [T1 T2].
  assert (Ryx : Rabs (V x) <= y + bpow radix2 (- p) * (y + / 8)). { replace (V x) with (t * V v + (V x - t * V v)) by ring. eapply Rle_trans; [apply Rabs_triang|]. rewrite Hy. lra. }
  assert (Hfin : Rabs (V z - r) + Rabs (V x - t * V v) <= 4 * bpow radix2 (- p) * (y + 1)).
  { assert (Rabs r <= Rabs (V x) + / 2). { unfold r. destruct sub; [unfold Rminus; eapply Rle_trans; [apply Rabs_triang|]; rewrite Rabs_Ropp, (Rabs_pos_eq (/ 2)) by lra; lra|]. eapply Rle_trans; [apply Rabs_triang|]. rewrite (Rabs_pos_eq (/ 2)) by lra. lra. }
    set (u := bpow radix2 (- p)) in *. apply Rle_trans with (u * (Rabs r + / 8) + u * (y + / 8)); [lra|]. apply Rle_trans with (u * (y + u * (y + / 8) + / 2 + / 8) + u * (y + / 8)).
    2: { assert (Q1 : u * (y + / 8) <= 1 * (y + / 8)) by (apply Rmult_le_compat_r; lra). replace (4 * u * (y + 1)) with (u * (4 * (y + 1))) by ring. rewrite <- Rmult_plus_distr_l. apply Rmult_le_compat_l; lra. }
    apply Rplus_le_compat_r. apply Rmult_le_compat_l; lra. }
  destruct sub.
  - assert (Hx0 : V x <= 0). { rewrite Vx, <- rp_0. apply rp_mono. specialize (S1 eq_refl). nra. }
    assert (Hz0 : V z <= 0). { rewrite Vz, <- rp_0. apply rp_mono. unfold r. lra. }
    rewrite (T2 Hz0), opp_IZR. pose proof (Zfloor_lb (- V z)). pose proof (Zfloor_ub (- V z)). unfold r in *.
    pose proof (Rle_abs (V z - (V x - / 2))). pose proof (Rle_abs (- (V z - (V x - / 2)))). pose proof (Rle_abs (V x - t * V v)). pose proof (Rle_abs (- (V x - t * V v))). rewrite Rabs_Ropp in *. apply Rabs_le. lra.
  - assert (Hx0 : 0 <= V x). { rewrite Vx, <- rp_0. apply rp_mono. specialize (S2 eq_refl). nra. }
    assert (Hz0 : 0 <= V z). { rewrite Vz, <- rp_0. apply rp_mono. unfold r. lra. }
    rewrite (T1 Hz0). pose proof (Zfloor_lb (V z)). pose proof (Zfloor_ub (V z)). unfold r in *.
    pose proof (Rle_abs (V z - (V x + / 2))). pose proof (Rle_abs (- (V z - (V x + / 2)))). pose proof (Rle_abs (V x - t * V v)). pose proof (Rle_abs (- (V x - t * V v))). rewrite Rabs_Ropp in *. apply Rabs_le. lra.
Qed.
End P.

(** * the loops *)
Local Open Scope Z_scope.
Lemma word_range v z q : 0 < q <= 2 ^ 63 -> cong q (bigWord v z q) z /\ if fltb v f0 then q <= bigWord v z q < 2 * q else 0 <= bigWord v z q < q.
Proof.
  intros Hq. unfold bigWord. pose proof (Z.mod_pos_bound z q ltac:(lia)) as B. assert (C : cong q (z mod q) z) by (apply cong_mod; lia).
  destruct (fltb v f0); rewrite Z.mod_small by (rewrite W_val; lia); split; auto; try lia. rewrite <- C at 2. exists 1. ring.
Qed.
Section L.
Context (L : nat) (c0 : list (list Z)) (ms : list Z) (up : spec_float -> Z -> res Z).
Context (Hms : (length ms <= length c0)%nat).
Lemma big_loop : forall vs k c x0, shape L c0 c -> (k + length vs <= L)%nat -> (forall v old, In v vs -> exists z, up (bg_v v) old = Ok z) ->
  exists c' x' (z : nat -> Z), foldM (fun '(coeffs, xInt) '(i, v) => let* xInt := up (bg_v v) xInt in
      let* coeffs := foldM (fun coeffs '(j, q) => set2 coeffs j i (bigWord (bg_v v) xInt q)) (combine (seq 0 (length ms)) ms) coeffs in
      Ok (coeffs, xInt)) (combine (seq k (length vs)) vs) (c, x0) = Ok (c', x') /\ shape L c0 c' /\
    (forall i v, nth_error vs i = Some v -> up (bg_v v) (match i with O => x0 | S i => z i end) = Ok (z i)) /\
    (forall j i v q, nth_error vs i = Some v -> nth_error ms j = Some q -> entry c' j (k + i) = Some (bigWord (bg_v v) (z i) q)) /\
    (forall j i, (length ms <= j \/ i < k \/ k + length vs <= i)%nat -> entry c' j i = entry c j i).
Proof.
  induction vs as [|v vs IH]; intros k c x0 Hc Hk Hu.
  - exists c, x0, (fun _ => 0). split; [reflexivity|]. split; [auto|]. split; [intros [|i] v E; discriminate|]. split; [intros j [|i] v q E; discriminate|]. auto.
  - cbn [length] in *. destruct (Hu v x0 ltac:(now left)) as (z0 & E0). cbn [length seq combine foldM]. rewrite E0. cbn [bind].
    destruct (inner_loop L c0 (fun q => Ok (bigWord (bg_v v) z0 q)) (fun q => bigWord (bg_v v) z0 q) k ltac:(lia) ms 0 c Hc ltac:(lia) ltac:(auto)) as (c1 & E1 & S1 & N1).
    cbn [bind] in E1. rewrite E1. cbn [bind].
    destruct (IH (S k) c1 z0 S1 ltac:(lia)) as (c' & x' & z & E & S' & Z1 & N2 & N3). { intros v' old Hin. apply Hu. now right. }
    exists c', x', (fun i => match i with O => z0 | S i => z i end). split; [exact E|]. split; [exact S'|]. split; [|split].
    + intros [|i] v' Ev; cbn in Ev; [injection Ev as <-; exact E0|]. specialize (Z1 i v' Ev). destruct i; exact Z1.
    + intros j [|i] v' q Ev Eq; cbn in Ev.
      * injection Ev as <-. rewrite Nat.add_0_r, N3 by lia. rewrite N1. assert (j < length ms)%nat by (apply nth_error_Some; congruence). rewrite Nat.eqb_refl. cbn [andb Nat.leb]. change (0 + length ms)%nat with (length ms).
        destruct (Nat.ltb_spec j (length ms)); [|lia]. rewrite Nat.sub_0_r. now rewrite (nth_error_nth _ _ 0 Eq).
      * replace (k + S i)%nat with (S k + i)%nat by lia. eauto.
    + intros j i Hji. rewrite N3 by lia. rewrite N1. destruct (Nat.eqb_spec i k); cbn [andb]; [|reflexivity]. cbn [Nat.leb andb]. change (0 + length ms)%nat with (length ms). destruct (Nat.ltb_spec j (length ms)); [lia|reflexivity].
Qed.
End L.

Theorem big_float L values v0 scale t moduli coeffs : nth_error values 0 = Some v0 -> let p := effPrec (bg_prec v0) in 53 <= p <= 2 ^ 30 ->
  fval scale t -> (0 <= t)%R -> (forall v, In v values -> is_finite_SF (bg_v v) = true /\ (t * Rabs (SF2R radix2 (bg_v v)) <= bpow radix2 (2 ^ 30))%R) ->
  Forall (fun row => length row = L) coeffs -> (length values <= L)%nat -> (length moduli <= length coeffs)%nat -> Forall (fun q => 0 < q <= 2 ^ 63) moduli ->
  exists c z, scaleUpVecExactBigFloat values scale moduli coeffs = Ok c /\ length c = length coeffs /\ Forall (fun row => length row = L) c /\
    (forall i v, nth_error values i = Some v -> let y := (t * SF2R radix2 (bg_v v))%R in (Rabs (IZR (z i) - y) <= / 2 + 4 * bpow radix2 (- p) * (Rabs y + 1))%R) /\
    (forall j i v q, nth_error values i = Some v -> nth_error moduli j = Some q ->
       exists w, entry c j i = Some w /\ cong q w (z i) /\ if fltb (bg_v v) f0 then q <= w < 2 * q else 0 <= w < q) /\
    (forall j i, (length moduli <= j \/ length values <= i)%nat -> entry c j i = entry coeffs j i).
Proof.
  intros E0 p Hp Hs Ht HV HF HL Hm HQ. unfold scaleUpVecExactBigFloat, idx. rewrite E0. cbn [bind]. fold p.
  assert (Hb : forall x r, fval x r -> (Rabs r < bpow radix2 1024)%R). { intros x r (b & _ & _ & <-). apply abs_B2R_lt_emax. }
  destruct (newfloat p Hp scale t Hs (Hb _ _ Hs)) as (sc & -> & Fs & Vs). cbn [bind].
  destruct (newfloat p Hp fhalf (/ 2) fval_half (Hb _ _ fval_half)) as (hf & -> & Fh & Vh). cbn [bind].
  destruct (big_loop L coeffs moduli (bigUp1 p sc hf) Hm values 0 coeffs 0) as (c & x & z & -> & [S1 S2] & Z1 & N2 & N3); [split; auto|lia| |].
  { intros v old Hin. destruct (HV v Hin) as [Fv Hv]. destruct (up1 p Hp sc hf (bg_v v) old t Fs Vs Ht Fh Vh Fv Hv) as (z & E & _). eauto. }
  cbn [bind]. exists c, z. split; [reflexivity|]. split; [exact S1|]. split; [exact S2|]. split; [|split].
  - intros i v Ev. pose proof (Z1 i v Ev) as Eo. set (old := match i with O => 0 | S i => z i end) in *. destruct (HV v (nth_error_In _ _ Ev)) as [Fv Hv]. destruct (up1 p Hp sc hf (bg_v v) old t Fs Vs Ht Fh Vh Fv Hv) as (z' & E & H). rewrite Eo in E. injection E as <-.
    cbv zeta. rewrite Rabs_mult, (Rabs_pos_eq t) by auto. exact H.
  - intros j i v q Ev Eq. rewrite Forall_forall in HQ. destruct (word_range (bg_v v) (z i) q (HQ q (nth_error_In _ _ Eq))) as [C1 C2]. eexists. split; [exact (N2 j i v q Ev Eq)|]. auto.
  - intros j i Hji. apply N3. lia.
Qed.
Lemma big_empty scale moduli coeffs : scaleUpVecExactBigFloat [] scale moduli coeffs = Panic PIndex.
Proof. reflexivity. Qed.
(** an infinite value is written with the integer of the value before it *)
Theorem big_infinite L v b scale t moduli coeffs : let p := effPrec (bg_prec v) in 53 <= p <= 2 ^ 30 ->
  fval scale t -> (0 < t)%R -> is_finite_SF (bg_v v) = true -> (t * Rabs (SF2R radix2 (bg_v v)) <= bpow radix2 (2 ^ 30))%R -> fltb (bg_v v) f0 = false ->
  Forall (fun row => length row = L) coeffs -> (2 <= L)%nat -> (length moduli <= length coeffs)%nat ->
  exists c, scaleUpVecExactBigFloat [v; mkBig (S754_infinity false) b] scale moduli coeffs = Ok c /\ forall j, (j < length moduli)%nat -> entry c j 1 = entry c j 0 /\ entry c j 0 <> None.
Proof.
  intros p Hp Hs Ht Fv Hv Hn HF HL Hm. unfold scaleUpVecExactBigFloat, idx. cbn [nth_error bind]. fold p.
  assert (Hb : forall x r, fval x r -> (Rabs r < bpow radix2 1024)%R). { intros x r (y & _ & _ & <-). apply abs_B2R_lt_emax. }
  destruct (newfloat p Hp scale t Hs (Hb _ _ Hs)) as (sc & -> & Fs & Vs). cbn [bind].
  destruct (newfloat p Hp fhalf (/ 2)%R fval_half (Hb _ _ fval_half)) as (hf & -> & Fh & Vh). cbn [bind].
  assert (Hinf : forall old, bigUp1 p sc hf (S754_infinity false) old = Ok old).
  { intros old. destruct sc as [s0|s0| |s0 m0 e0]; try discriminate; [cbn in Vs; lra|]. destruct s0; [cbn in Vs; exfalso; assert (F2R (Float radix2 (Zneg m0) e0) < 0)%R by (now apply F2R_lt_0); lra|].
    destruct hf as [s1|s1| |s1 m1 e1]; try discriminate; reflexivity. }
  destruct (big_loop L coeffs moduli (bigUp1 p sc hf) Hm [v; mkBig (S754_infinity false) b] 0 coeffs 0) as (c & x & z & -> & _ & Z1 & N2 & _); [split; auto|cbn; lia| |].
  { intros v' old [<-|[<-|[]]]; [|cbn [bg_v]; eauto]. destruct (up1 p Hp sc hf (bg_v v) old t Fs Vs ltac:(lra) Fh Vh Fv Hv) as (z & E & _). eauto. }
  cbn [bind]. exists c. split; [reflexivity|]. intros j Hj. destruct (nth_error moduli j) as [q|] eqn:Eq; [|apply nth_error_None in Eq; lia].
  pose proof (N2 j 0%nat v q eq_refl Eq) as A0. pose proof (N2 j 1%nat _ q eq_refl Eq) as A1. cbn [Nat.add bg_v] in *. rewrite A0, A1.
  pose proof (Z1 1%nat _ eq_refl) as Q1. cbn [bg_v] in Q1. rewrite Hinf in Q1. injection Q1 as Q1. unfold bigWord. rewrite Hn, Q1. split; [reflexivity|discriminate].
Qed.

Definition big_half_5 : bigf := mkBig (S754_finite false 5 (-1)) 64.
Definition big_neg_3_2 : bigf := mkBig (S754_finite true 3 (-1)) 64.
Lemma big_case : effPrec (bg_prec big_half_5) = 64 /\ fval (f_of_Z 2) 2 /\ SF2R radix2 (bg_v big_half_5) = (5 / 2)%R /\ SF2R radix2 (bg_v big_neg_3_2) = (- 3 / 2)%R /\
  (forall v, In v [big_half_5; big_neg_3_2] -> is_finite_SF (bg_v v) = true /\ (2 * Rabs (SF2R radix2 (bg_v v)) <= bpow radix2 (2 ^ 30))%R) /\
  scaleUpVecExactBigFloat [big_half_5; big_neg_3_2] (f_of_Z 2) [5; 7] [[9; 9; 9]; [9; 9; 9]; [9; 9; 9]] = Ok [[0; 7; 9]; [5; 11; 9]; [9; 9; 9]].
Proof.
  assert (A : SF2R radix2 (bg_v big_half_5) = (5 / 2)%R) by (cbn; unfold F2R; cbn; lra). assert (B : SF2R radix2 (bg_v big_neg_3_2) = (- 3 / 2)%R) by (cbn; unfold F2R; cbn; lra).
  assert (C : (8 <= bpow radix2 (2 ^ 30))%R). { change 8%R with (bpow radix2 3). apply bpow_le. lia. }
  split; [reflexivity|]. split; [|split; [exact A|split; [exact B|split; [|vm_compute; reflexivity]]]].
  - replace 2%R with (rnd (IZR 2)) by (rewrite rnd_IZR by lia; reflexivity). apply fval_of_Z. rewrite rnd_IZR by lia. rewrite Rabs_pos_eq by lra. change 2%R with (bpow radix2 1). apply bpow_lt. lia.
  - intros v [<-|[<-|[]]]; (split; [reflexivity|]); rewrite ?A, ?B; eapply Rle_trans; [|exact C| |exact C]; [rewrite Rabs_pos_eq by lra; lra|]. rewrite Rabs_left by lra. lra.
Qed.
