(** Rounding errors of the constants. *)
From Coq Require Import ZArith List Reals Lia Lra Psatz.
From Coq.Floats Require Import SpecFloat.
From Flocq Require Import Core BinarySingleNaN Relative.
From Verif Require Import Go GoProofs F64 F64Proofs F64More EvFloat Utils LR LRData LRRel SpecEv SpecLREnc LREncProofs LRConst SpecLRConst.
Import ListNotations.
Local Open Scope R_scope.

Definition u : R := / 2 ^ 53.
Lemma u_small : 0 < u < / 1000000. Proof. unfold u. split; [apply Rinv_0_lt_compat|apply Rinv_lt_contravar]; lra. Qed.
Lemma bpow_u : bpow radix2 (-53) = u.
Proof. unfold u. change (bpow radix2 (-53)) with (/ IZR (Z.pow_pos 2 53)). f_equal. rewrite (pow_IZR 2 53). reflexivity. Qed.
Lemma rnd_err r : Rabs (rnd r - r) <= u * Rabs r + u.
Proof.
  destruct (error_N_FLT radix2 (-1074) 53 ltac:(lia) (fun x => negb (Z.even x)) r) as (eps & eta & H1 & H2 & _ & E).
  change (round radix2 (FLT_exp (-1074) 53) (Znearest (fun x => negb (Z.even x))) r) with (rnd r) in E. rewrite E.
  replace (r * (1 + eps) + eta - r) with (eps * r + eta) by ring. eapply Rle_trans; [apply Rabs_triang|]. rewrite Rabs_mult. apply Rplus_le_compat.
  - apply Rmult_le_compat_r; [apply Rabs_pos|]. eapply Rle_trans; [exact H1|]. change (- (53) + 1)%Z with (-53 + 1)%Z. rewrite bpow_plus, bpow_u. cbn [bpow]. change (IZR (Z.pow_pos radix2 1)) with 2. lra.
  - eapply Rle_trans; [exact H2|]. assert (bpow radix2 (-1074) <= bpow radix2 (-53)) by (apply bpow_le; lia). rewrite bpow_u in H. pose proof (bpow_gt_0 radix2 (-1074)). lra.
Qed.
Definition big (M : R) : Prop := 1 <= M <= 2 ^ 400.
Definition apx (x : f64) (r M k : R) : Prop := exists v, fval x v /\ Rabs (v - r) <= k * u * M /\ Rabs r <= M.
Lemma rnd_fits r M : big M -> Rabs r <= 2 * M -> Rabs (rnd r) < bpow radix2 1024.
Proof.
  intros [_ H2] Hr. apply (rnd_lt_big _ 401); [lia|lia|]. eapply Rle_trans; [exact Hr|]. rewrite bpow_powerRZ. change (powerRZ (IZR radix2) 401) with (2 ^ 401). change (2 ^ 401) with (2 * 2 ^ 400). lra.
Qed.
(** rounding a value v' within k u M of r *)
Lemma apx_rnd x v r M k : big M -> 0 <= k <= 1000 -> fval x (rnd v) -> Rabs (v - r) <= k * u * M -> Rabs r <= M -> apx x r M (k + 3).
Proof.
  intros [HM HM2] Hk Hx Hv Hr. exists (rnd v). split; [exact Hx|]. split; [|exact Hr]. pose proof u_small as Hu. pose proof (rnd_err v) as He.
  assert (Hv2 : Rabs v <= M + k * u * M). { replace v with (r + (v - r)) by ring. eapply Rle_trans; [apply Rabs_triang|]. lra. }
  assert (Hku : k * u <= 1 / 100) by nra. assert (k * u * M <= 1 / 100 * M) by (apply Rmult_le_compat_r; lra).
  assert (u * Rabs v <= u * (1.01 * M)) by (apply Rmult_le_compat_l; lra). assert (u <= u * M) by nra.
  replace (rnd v - r) with ((rnd v - v) + (v - r)) by ring. eapply Rle_trans; [apply Rabs_triang|]. nra.
Qed.
Lemma apx_mul x y r s M L k j : big M -> big L -> big (M * L) -> 0 <= k <= 100 -> 0 <= j <= 100 -> apx x r M k -> apx y s L j -> apx (fmul x y) (r * s) (M * L) (k + j + 4).
Proof.
  intros HM HL HML Hk Hj (v & Fv & Ev & Br) (w & Fw & Ew & Bs). pose proof u_small as Hu. destruct HM as [HM _], HL as [HL _].
  assert (Hab : Rabs (v * w - r * s) <= (k + j + 1) * u * (M * L)).
  { replace (v * w - r * s) with (r * (w - s) + s * (v - r) + (v - r) * (w - s)) by ring.
    eapply Rle_trans; [apply Rabs_triang|]. eapply Rle_trans; [apply Rplus_le_compat_r, Rabs_triang|]. rewrite !Rabs_mult.
    assert (A1 : Rabs r * Rabs (w - s) <= M * (j * u * L)) by (apply Rmult_le_compat; auto using Rabs_pos).
    assert (A2 : Rabs s * Rabs (v - r) <= L * (k * u * M)) by (apply Rmult_le_compat; auto using Rabs_pos).
    assert (A3 : Rabs (v - r) * Rabs (w - s) <= (k * u * M) * (j * u * L)) by (apply Rmult_le_compat; auto using Rabs_pos).
    assert (A4 : (k * u * M) * (j * u * L) <= u * (M * L)).
    { replace ((k * u * M) * (j * u * L)) with ((k * j * u) * (u * (M * L))) by ring. rewrite <- (Rmult_1_l (u * (M * L))) at 2. assert (0 <= u * (M * L)) by (apply Rmult_le_pos; [lra|apply Rmult_le_pos; lra]). apply Rmult_le_compat_r; [lra|]. assert (0 <= k * j <= 10000) by (split; [apply Rmult_le_pos; lra|]; replace 10000 with (100 * 100) by ring; apply Rmult_le_compat; lra). clear - H0 Hu. nra. }
    lra. }
  assert (Hrs : Rabs (r * s) <= M * L) by (rewrite Rabs_mult; apply Rmult_le_compat; auto using Rabs_pos).
  replace (k + j + 4) with (k + j + 1 + 3) by ring. apply (apx_rnd _ (v * w)); [exact HML|lra| |exact Hab|exact Hrs].
  apply fval_mul; auto. apply (rnd_fits _ (M * L)); [exact HML|].
  replace (v * w) with (r * s + (v * w - r * s)) by ring. eapply Rle_trans; [apply Rabs_triang|]. assert ((k + j + 1) * u * (M * L) <= 1 * (M * L)) by (apply Rmult_le_compat_r; [apply Rmult_le_pos; lra|clear - Hk Hj Hu; nra]). lra.
Qed.
Lemma apx_div x n r M k : big M -> 0 <= k <= 100 -> (0 < n)%nat -> (Z.of_nat n <= 2 ^ 53)%Z -> apx x r M k -> apx (fdiv x (f_of_Z (Z.of_nat n))) (r / INR n) M (k + 3).
Proof.
  intros HM Hk Hn Hn2 (v & Fv & Ev & Br). pose proof u_small as Hu. assert (Hn1 : 1 <= INR n). { change 1 with (INR 1). apply le_INR. lia. }
  assert (Hi : 0 < / INR n <= 1). { split; [apply Rinv_0_lt_compat; lra|]. rewrite <- Rinv_1. apply Rinv_le_contravar; lra. }
  assert (A : forall z, Rabs (z / INR n) <= Rabs z). { intros z. unfold Rdiv. rewrite Rabs_mult, (Rabs_pos_eq (/ INR n)) by lra. pose proof (Rabs_pos z). nra. }
  assert (E : Rabs (v / INR n - r / INR n) <= k * u * M). { replace (v / INR n - r / INR n) with ((v - r) / INR n) by (field; lra). eapply Rle_trans; [apply A|exact Ev]. }
  assert (Fn : fval (f_of_Z (Z.of_nat n)) (INR n)). { rewrite INR_IZR_INZ. apply fval_Z. lia. }
  apply (apx_rnd _ (v / INR n)); [exact HM|lra| |exact E|eapply Rle_trans; [apply A|exact Br]].
  apply fval_div; auto; [lra|]. apply (rnd_fits _ M); [exact HM|]. eapply Rle_trans; [apply A|]. replace v with (r + (v - r)) by ring. eapply Rle_trans; [apply Rabs_triang|]. destruct HM as [HM _].
  assert (k * u * M <= 1 * M) by (apply Rmult_le_compat_r; nra). lra.
Qed.
Lemma apx_neg x r M k : apx x r M k -> apx (fneg x) (- r) M k.
Proof. intros (v & Fv & Ev & Br). exists (- v). split; [now apply fval_neg|]. replace (- v - - r) with (- (v - r)) by ring. rewrite !Rabs_Ropp. auto. Qed.
Lemma within_fval G x : within G x -> fval x (fR x) /\ Rabs (fR x) <= G.
Proof. intros [Hf HG]. destruct (proj1 (finite_fval _) Hf) as (r & Fr). rewrite (fR_fval _ _ Fr) in *. auto. Qed.
Lemma apx_exact G x : within G x -> apx x (fR x) G 0.
Proof. intros H. destruct (within_fval _ _ H) as [F B]. exists (fR x). split; [exact F|]. split; [|exact B]. replace (fR x - fR x) with 0 by ring. rewrite Rabs_R0. lra. Qed.
Lemma apx_sub x y G : big (2 * G) -> within G x -> within G y -> apx (fsub x y) (fR x - fR y) (2 * G) 3.
Proof.
  intros HG Hx Hy. destruct (within_fval _ _ Hx) as [Fx Bx]. destruct (within_fval _ _ Hy) as [Fy By].
  assert (B : Rabs (fR x - fR y) <= 2 * G). { unfold Rminus. eapply Rle_trans; [apply Rabs_triang|]. rewrite Rabs_Ropp. lra. }
  replace 3 with (0 + 3) by ring. apply (apx_rnd _ (fR x - fR y)); [exact HG|lra| | |exact B].
  - apply fval_sub; auto. apply (rnd_fits _ (2 * G)); [exact HG|]. destruct HG. lra.
  - replace (fR x - fR y - (fR x - fR y)) with 0 by ring. rewrite Rabs_R0. lra.
Qed.
Lemma apx_near x r M k d : apx x r M k -> k * u * M <= d -> finite x /\ Rabs (fR x - r) <= d.
Proof. intros (v & Fv & Ev & _) Hd. split; [apply finite_fval; eauto|]. rewrite (fR_fval _ _ Fv). lra. Qed.

Section K.
Context (G : R) (HG : 1 <= G <= 2 ^ 100) (gamma : f64) (n : nat) (c0 c1 c3 : f64) (etas mask : list f64) (y : Z -> f64).
Context (Hg : within G gamma) (H0 : within G c0) (H3 : within G c3) (Hc1 : within G c1) (H3n : fR c3 <> 0) (H13 : Rabs (fR c1 / fR c3) <= G ^ 3) (He : Forall (within G) etas) (Hm : Forall finite mask) (Hy : forall i, within G (y i)).
Context (Hn : (0 < n)%nat) (Hn2 : (Z.of_nat n <= 2 ^ 53)%Z).
Lemma bigs : big G /\ big (2 * G) /\ big (G * G) /\ big (2 * G * G) /\ big (G * (2 * G)) /\ big (2 * G * G * (2 * G)) /\ big (2 * G * G * G).
Proof.
  destruct HG as [H1 H2]. set (T := 2 ^ 100) in *. assert (ET : 2 ^ 400 = T * T * T * T). { unfold T. rewrite <- !pow_add. reflexivity. }
  assert (HT : 10 <= T). { unfold T. replace 100%nat with (4 + 96)%nat by lia. rewrite pow_add. assert (1 <= 2 ^ 96) by (apply pow_R1_Rle; lra). lra. }
  unfold big. rewrite ET. clearbody T. assert (G * G <= T * T) by nra. assert (1 <= G * G) by nra. assert (G * G * G <= T * T * T) by nra. assert (1 <= G * G * G) by nra.
  assert (100 <= T * T) by nra. assert (1000 <= T * T * T) by nra. assert (10 * (T * T * T) <= T * T * T * T) by nra. assert (10 * (T * T) <= T * T * T) by nra.
  repeat split; nra.
Qed.
Lemma fval_1 : within G f1.
Proof. assert (F : fval f1 1) by (apply (fval_Z 1); lia). split; [apply finite_fval; eauto|]. rewrite (fR_fval _ _ F), Rabs_R1. lra. Qed.
Lemma fR_1 : fR f1 = 1. Proof. apply fR_fval. apply (fval_Z 1). lia. Qed.
Lemma step_apx : apx (fstep gamma n) (- (fR gamma / INR n)) G 3.
Proof.
  destruct bigs as (B1 & _). replace (- (fR gamma / INR n)) with (- fR gamma / INR n) by (unfold Rdiv; ring). replace 3 with (0 + 3) by ring. apply apx_div; auto; [lra|]. apply apx_neg. now apply apx_exact.
Qed.
Lemma step2_apx eta : within G eta -> apx (fstep2 gamma n eta) (- (1 - fR eta) * (fR gamma / INR n)) (2 * G * G) 10.
Proof.
  intros Heta. destruct bigs as (B1 & B2 & B3 & B4 & _). replace (- (1 - fR eta) * (fR gamma / INR n)) with (- (1 - fR eta) * fR gamma / INR n) by (unfold Rdiv; ring). replace 10 with (3 + 0 + 4 + 3) by ring.
  apply apx_div; auto; [lra|]. apply apx_mul; auto; try lra; [|now apply apx_exact]. apply apx_neg. rewrite <- fR_1. apply apx_sub; auto using fval_1.
Qed.
Lemma near_apx x r M k : apx x r M k -> k * M <= 68 * G ^ 3 -> finite x /\ Rabs (fR x - r) <= const_err G.
Proof.
  intros H Hk. apply (apx_near _ _ _ _ _ H). unfold const_err. assert (E : 17 / 2 ^ 51 = 68 * u) by (unfold u; replace (2 ^ 53) with (4 * 2 ^ 51) by (cbn; ring); field; apply pow_nonzero; lra). rewrite E. pose proof u_small as Hu.
  replace (k * u * M) with (u * (k * M)) by ring. replace (68 * u * G ^ 3) with (u * (68 * G ^ 3)) by ring. apply Rmult_le_compat_l; lra.
Qed.
Lemma err_pos : 0 <= const_err G. Proof. unfold const_err. apply Rmult_le_pos; [|apply pow_le; lra]. unfold Rdiv. apply Rmult_le_pos; [lra|]. left. apply Rinv_0_lt_compat, pow_lt. lra. Qed.
Lemma c13_apx : apx (fdiv c1 c3) (fR c1 / fR c3) (G ^ 3) 3.
Proof.
  destruct (within_fval _ _ Hc1) as [F1 _]. destruct (within_fval _ _ H3) as [F3 _]. destruct bigs as (_ & _ & _ & _ & _ & [_ B] & _).
  assert (BG : big (G ^ 3)). { split; [nra|]. eapply Rle_trans; [|exact B]. nra. }
  rewrite <- (Rplus_0_l 3). apply (apx_rnd _ (fR c1 / fR c3)); [exact BG|lra| | |exact H13].
  - apply fval_div; auto. apply (rnd_fits _ (G ^ 3)); [exact BG|]. destruct BG. lra.
  - rewrite Rminus_diag_eq, Rabs_R0 by reflexivity. lra.
Qed.
Lemma near_exact x : finite x -> finite x /\ Rabs (fR x - fR x) <= const_err G.
Proof. intros H. split; [exact H|]. replace (fR x - fR x) with 0 by ring. rewrite Rabs_R0. apply err_pos. Qed.
Lemma F2_map {A B C D} (P : B -> C -> Prop) (f : A -> B) (h : D -> C) (g : A -> D) (Q : A -> Prop) l : Forall Q l -> (forall a, Q a -> P (f a) (h (g a))) -> Forall2 P (map f l) (map h (map g l)).
Proof. intros H HP. induction H; cbn; constructor; auto. Qed.
Lemma F2_map' {A B C D} (P : B -> C -> Prop) (f : D -> B) (h : A -> C) (g : A -> D) (Q : A -> Prop) l : Forall Q l -> (forall a, Q a -> P (f (g a)) (h a)) -> Forall2 P (map f (map g l)) (map h l).
Proof. intros H HP. induction H; cbn; constructor; auto. Qed.
Theorem const_near : const_refine (near (const_err G)) (near (const_err G)) (exact_const gamma n c0 c1 c3 etas mask y) (fconst gamma n c0 c1 c3 etas mask y).
Proof.
  destruct bigs as (B1 & B2 & B3 & B4 & B5 & B6 & B7). assert (HGp : G * G <= G ^ 3) by nra. assert (HG1 : G <= G ^ 3) by nra.
  unfold exact_const. constructor; cbn [k_mask k_1 k_2 k_3 k_4 k_5 k_6 k_7 k_8 k_9 vconst fconst].
  - intros i. unfold ofList. replace (nth (Z.to_nat i) (map fR mask) 0) with (fR (nth (Z.to_nat i) mask f0)) by exact (eq_sym (map_nth fR mask f0 (Z.to_nat i))). apply near_exact. destruct (Nat.lt_ge_cases (Z.to_nat i) (length mask)) as [L|L].
    + rewrite Forall_forall in Hm. apply Hm. now apply nth_In.
    + rewrite nth_overflow by exact L. exact I.
  - intros i. apply (near_apx _ _ (G * (2 * G)) (3 + 3 + 4)); [|nra]. apply apx_mul; auto; try lra; [apply step_apx|apply apx_sub; auto].
  - apply (F2_map' _ _ _ fR (within G)); [exact He|]. intros eta Heta i. apply (near_apx _ _ (2 * G * G * (2 * G)) (10 + 3 + 4)); [|nra]. apply apx_mul; auto; try lra; [now apply step2_apx|apply apx_sub; auto].
  - intros i. apply (near_apx _ _ (G * G) (3 + 0 + 4)); [|nra]. apply apx_mul; auto; try lra; [apply step_apx|now apply apx_exact].
  - apply (F2_map' _ _ _ fR (within G)); [exact He|]. intros eta Heta i. apply (near_apx _ _ (2 * G * G * G) (10 + 0 + 4)); [|nra]. apply apx_mul; auto; try lra; [now apply step2_apx|now apply apx_exact].
  - intros i. apply (near_apx _ _ (G ^ 3) 3); [exact c13_apx|]. assert (1 <= G ^ 3) by nra. lra.
  - apply (F2_map' _ _ _ fR (within G)); [exact He|]. intros eta Heta i. apply (near_apx _ _ (2 * G) 3); [|nra]. rewrite <- fR_1. apply apx_sub; auto using fval_1.
  - apply (F2_map' _ _ _ fR (within G)); [exact He|]. intros eta Heta i. apply near_exact. apply Heta.
  - intros i. apply near_exact. apply H3.
  - intros i. apply near_exact. apply H0.
Qed.
End K.
