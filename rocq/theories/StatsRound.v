(** Rounding errors of the column statistics: means, deviations and normalised values in float64. *)
From Coq Require Import Reals ZArith List Lia Lra Psatz Bool.
From Coq.Floats Require Import SpecFloat.
From Flocq Require Import Core BinarySingleNaN.
From Verif Require Import Spec Go F64 F64Proofs F64More SpecEnc SpecLREnc LRData SpecData SpecLRConst EvFloat LREncProofs LREncLR LRDataProofs LRNorm Stats StatsProofs LRConstProofs.
Import ListNotations.
Local Open Scope R_scope.

Definition nmax : R := 1048576.
Lemma Ku K : 0 <= K <= nmax -> 0 <= K * u <= / 1000000.
Proof.
  unfold nmax. intros [H1 H2]. pose proof u_small as Hu. split; [apply Rmult_le_pos; lra|]. apply Rle_trans with (1048576 * u); [apply Rmult_le_compat_r; lra|].
  unfold u. replace (2 ^ 53) with (1048576 * 8589934592) by (cbn; lra). rewrite Rinv_mult. lra.
Qed.
Lemma fits z : Rabs z <= 2 ^ 400 -> Rabs (rnd z) < bpow radix2 1024.
Proof. intros H. apply (rnd_lt_big _ 400); [lia|lia|]. eapply Rle_trans; [exact H|]. rewrite bpow_powerRZ. change (powerRZ (IZR radix2) 400) with (2 ^ 400). lra. Qed.
Lemma tri a b A B : Rabs a <= A -> Rabs b <= B -> Rabs (a + b) <= A + B.
Proof. intros. eapply Rle_trans; [apply Rabs_triang|]. lra. Qed.
Lemma rnd_pos z : 0 <= z -> 0 <= rnd z.
Proof. intros H. rewrite <- rnd_0. now apply rnd_mono. Qed.

Lemma sum_err (t : nat -> f64) (v : nat -> R) M : 1 <= M <= 2 ^ 300 -> forall k, INR k <= nmax -> (forall i, (i < k)%nat -> fval (t i) (v i) /\ Rabs (v i) <= M) ->
  exists s, fval (fold_left (fun a i => fadd a (t i)) (seq 0 k) f0) s /\ Rabs (s - rsum k v) <= 2 * (INR k * INR k * (u * M)) /\ Rabs (rsum k v) <= INR k * M /\ ((forall i, (i < k)%nat -> 0 <= v i) -> 0 <= s).
Proof.
  intros HM. induction k as [|k IH]; intros Hk Ht.
  { exists 0. cbn [seq fold_left rsum INR]. split; [apply fval_f0|]. rewrite Rminus_0_r, Rabs_R0. split; [lra|]. split; [lra|]. intros; lra. }
  rewrite S_INR in Hk |- *. set (K := INR k) in *. assert (HK : 0 <= K) by apply pos_INR.
  destruct IH as (s & Fs & Es & Bs & Ps); [lra|intros; apply Ht; lia|]. destruct (Ht k ltac:(lia)) as [Fv Bv].
  pose proof (Ku K ltac:(lra)) as HKu. pose proof u_small as Hu. set (w := u * M) in *. assert (Hw : u <= w) by (unfold w; nra).
  assert (A0 : 2 * (K * K * w) <= K * M). { unfold w. replace (2 * (K * K * (u * M))) with (2 * (K * u) * (K * M)) by ring. assert (0 <= K * M) by (apply Rmult_le_pos; lra). nra. }
  assert (A1 : Rabs (s + v k) <= (2 * K + 1) * M). { replace (s + v k) with (rsum k v + (s - rsum k v) + v k) by ring. replace ((2 * K + 1) * M) with (K * M + K * M + M) by ring. apply tri; [|exact Bv]. apply tri; lra. }
  exists (rnd (s + v k)). rewrite seq_S, fold_left_app. cbn [fold_left plus rsum]. split; [|split; [|split]].
  - apply fval_add; auto. apply fits. eapply Rle_trans; [exact A1|]. apply Rle_trans with (2 ^ 100 * 2 ^ 300); [|rewrite <- pow_add; apply Rle_refl]. apply Rmult_le_compat; try lra. unfold nmax in Hk. replace (2 ^ 100) with (2 ^ 22 * 2 ^ 78) by (rewrite <- pow_add; reflexivity). assert (1 <= 2 ^ 78) by (apply pow_R1_Rle; lra). replace (2 ^ 22) with 4194304 by (cbn; lra). lra.
  - pose proof (rnd_err (s + v k)) as E. replace (rnd (s + v k) - (rsum k v + v k)) with ((rnd (s + v k) - (s + v k)) + (s - rsum k v)) by ring.
    eapply Rle_trans; [apply tri; [exact E|exact Es]|]. assert (u * Rabs (s + v k) <= u * ((2 * K + 1) * M)) by (apply Rmult_le_compat_l; lra). replace (u * ((2 * K + 1) * M)) with (2 * (K * w) + w) in H by (unfold w; ring). assert (0 <= K * w) by (apply Rmult_le_pos; lra). nra.
  - replace ((K + 1) * M) with (K * M + M) by ring. now apply tri.
  - intros P. apply rnd_pos. assert (0 <= s) by (apply Ps; intros; apply P; lia). pose proof (P k ltac:(lia)). lra.
Qed.

Lemma fsqrt_equiv (x : bf) : SFsqrt 53 1024 (B2SF x) = B2SF (Bsqrt mode_NE x).
Proof.
  destruct x as [sx|sx| |sx mx ex Bx]; [now (trivial || destruct sx)..|]. destruct sx; [reflexivity|]. simpl. rewrite B2SF_SF2B. set (melz := SFsqrt_core_binary _ _ _ _). destruct melz as [[mz ez] lz]. apply binary_round_aux_equiv.
Qed.
Lemma fval_sqrt x r : fval x r -> 0 <= r -> Rabs (rnd (sqrt r)) < bpow radix2 1024 -> fval (SFsqrt 53 1024 x) (rnd (sqrt r)).
Proof.
  intros (b & -> & Fb & <-) Hr H. rewrite fsqrt_equiv. eexists. split; [reflexivity|]. pose proof (Bsqrt_correct 53 1024 Hprec Hmax mode_NE b) as (C1 & C2 & _). split; [|exact C1]. rewrite C2.
  destruct b as [s|s| |s m e Hb]; try discriminate; [reflexivity|]. destruct s; [|reflexivity]. exfalso. cbn [B2R] in Hr. apply F2R_ge_0_inv in Hr || idtac. revert Hr. apply Rlt_not_le. apply F2R_lt_0. reflexivity.
Qed.

Section Col.
Context (G : R) (HG : 1 <= G <= 2 ^ 100) (n : nat) (Hn : (0 < n)%nat) (Hn2 : INR n <= nmax) (x : nat -> f64) (Hx : forall i, (i < n)%nat -> within G (x i)).
Let r i := fR (x i).
Let N := INR n.
Let mu := rsum n r / N.
Lemma N1 : 1 <= N. Proof. unfold N. change 1 with (INR 1). apply le_INR. lia. Qed.
Lemma NuB : 0 < N * u <= / 1000000.
Proof. pose proof N1. pose proof u_small. pose proof (Ku N ltac:(split; [lra|exact Hn2])). split; [apply Rmult_lt_0_compat|]; lra. Qed.
Lemma fval_n : fval (f_of_Z (Z.of_nat n)) N.
Proof. unfold N. rewrite INR_IZR_INZ. apply fval_Z. unfold nmax in Hn2. rewrite INR_IZR_INZ in Hn2. apply le_IZR in Hn2. lia. Qed.
Lemma divN z : Rabs (z / N) = Rabs z / N.
Proof. pose proof N1. unfold Rdiv. rewrite Rabs_mult, (Rabs_pos_eq (/ N)); [reflexivity|]. left. apply Rinv_0_lt_compat. lra. Qed.
Lemma bigG z : z <= 1000 * (G * G) -> z <= 2 ^ 400.
Proof.
  intros H. assert (E : G * G <= 2 ^ 200) by (replace (2 ^ 200) with (2 ^ 100 * 2 ^ 100) by (rewrite <- pow_add; reflexivity); apply Rmult_le_compat; lra). replace (2 ^ 400) with (2 ^ 10 * 2 ^ 190 * 2 ^ 200) by (rewrite <- !pow_add; reflexivity).
  assert (1 <= 2 ^ 190) by (apply pow_R1_Rle; lra). assert (0 < 2 ^ 200) by (apply pow_lt; lra). replace (2 ^ 10) with 1024 by (cbn; lra). nra.
Qed.
Lemma GG : G <= G * G. Proof. nra. Qed.
Lemma mu_bound : Rabs mu <= G.
Proof.
  pose proof N1 as H1. unfold mu. rewrite divN. destruct (sum_err x r G ltac:(split; [lra|]; eapply Rle_trans; [apply HG|]; apply Rle_pow; [lra|lia]) n Hn2) as (s & _ & _ & B & _). { intros i Hi. apply within_fval. now apply Hx. }
  fold N in B. apply Rmult_le_reg_r with N; [lra|]. unfold Rdiv. rewrite Rmult_assoc, Rinv_l by lra. lra.
Qed.
(** the mean *)
Lemma mean_err : exists m, fval (fdiv (fold_left (fun a i => fadd a (x i)) (seq 0 n) f0) (f_of_Z (Z.of_nat n))) m /\ Rabs (m - mu) <= 5 * (N * u * G).
Proof.
  pose proof N1 as H1. pose proof NuB as HNu. pose proof u_small as Hu. pose proof GG as HGG.
  destruct (sum_err x r G ltac:(split; [lra|]; eapply Rle_trans; [apply HG|]; apply Rle_pow; [lra|lia]) n Hn2) as (s & Fs & Es & B & _). { intros i Hi. apply within_fval. now apply Hx. }
  fold N in B, Es. assert (Hd : Rabs (s / N - mu) <= 2 * (N * u * G)).
  { unfold mu. replace (s / N - rsum n r / N) with ((s - rsum n r) / N) by (field; lra). rewrite divN. apply Rmult_le_reg_r with N; [lra|]. unfold Rdiv. rewrite Rmult_assoc, Rinv_l by lra. lra. }
  pose proof mu_bound as Bm. assert (A : N * u * G <= G * / 1000000) by (rewrite Rmult_comm; apply Rmult_le_compat_l; lra).
  assert (Bs : Rabs (s / N) <= 2 * G). { replace (s / N) with (mu + (s / N - mu)) by ring. eapply Rle_trans; [apply tri; [exact Bm|exact Hd]|]. lra. }
  exists (rnd (s / N)). split.
  - apply fval_div; auto using fval_n; [lra|]. apply fits. apply bigG. lra.
  - replace (rnd (s / N) - mu) with ((rnd (s / N) - s / N) + (s / N - mu)) by ring. eapply Rle_trans; [apply tri; [apply rnd_err|exact Hd]|].
    assert (u * Rabs (s / N) <= u * (2 * G)) by (apply Rmult_le_compat_l; lra). assert (u * G <= N * u * G) by (rewrite Rmult_assoc; assert (0 < u * G) by nra; nra). assert (u <= u * G) by nra. lra.
Qed.

Context (m : R) (mf : f64) (Fm : fval mf m) (Em : Rabs (m - mu) <= 5 * (N * u * G)).
Lemma m_bound : Rabs m <= 1.001 * G.
Proof.
  pose proof mu_bound as Bm. pose proof NuB as HNu. assert (A : N * u * G <= G * / 1000000) by (rewrite Rmult_comm; apply Rmult_le_compat_l; lra).
  replace m with (mu + (m - mu)) by ring. eapply Rle_trans; [apply tri; [exact Bm|exact Em]|]. lra.
Qed.
(** a difference from the mean, of any value within G *)
Lemma diff_err y : within G y -> exists d, fval (fsub y mf) d /\ Rabs (d - (fR y - mu)) <= 9 * (N * u * G) /\ Rabs d <= 2.1 * G.
Proof.
  intros Hy. pose proof N1 as H1. pose proof NuB as HNu. pose proof u_small as Hu. pose proof GG as HGG. destruct (within_fval _ _ Hy) as [Fy By]. pose proof m_bound as Bm.
  assert (A : N * u * G <= G * / 1000000) by (rewrite Rmult_comm; apply Rmult_le_compat_l; lra). assert (B : u * G <= N * u * G) by (rewrite Rmult_assoc; assert (0 < u * G) by nra; nra).
  assert (Bd : Rabs (fR y - m) <= 2.001 * G). { unfold Rminus. replace (2.001 * G) with (G + 1.001 * G) by lra. apply tri; [exact By|now rewrite Rabs_Ropp]. }
  pose proof (rnd_err (fR y - m)) as E. assert (u * Rabs (fR y - m) <= u * (2.001 * G)) by (apply Rmult_le_compat_l; lra). assert (u <= u * G) by nra.
  exists (rnd (fR y - m)). split; [|split].
  - apply fval_sub; auto. apply fits, bigG. lra.
  - replace (rnd (fR y - m) - (fR y - mu)) with ((rnd (fR y - m) - (fR y - m)) + - (m - mu)) by ring. eapply Rle_trans; [apply tri; [exact E|rewrite Rabs_Ropp; exact Em]|]. lra.
  - replace (rnd (fR y - m)) with ((rnd (fR y - m) - (fR y - m)) + (fR y - m)) by ring. eapply Rle_trans; [apply tri; [exact E|exact Bd]|]. lra.
Qed.
Let sq i := fmul (fsub (x i) mf) (fsub (x i) mf).
Let dev i := (r i - mu) * (r i - mu).
Lemma sq_err i : (i < n)%nat -> exists v, fval (sq i) v /\ 0 <= v <= 5 * (G * G) /\ Rabs (v - dev i) <= 60 * (N * u * (G * G)).
Proof.
  intros Hi. pose proof N1 as H1. pose proof NuB as HNu. pose proof u_small as Hu. pose proof GG as HGG. pose proof mu_bound as Bm. destruct (diff_err _ (Hx i Hi)) as (d & Fd & Ed & Bd). fold (r i) in Ed.
  destruct (within_fval _ _ (Hx i Hi)) as [_ By]. fold (r i) in By.
  assert (Bdd : 0 <= d * d <= 4.5 * (G * G)). { split; [apply Rle_0_sqr|]. rewrite <- (Rabs_pos_eq (d * d)) by apply Rle_0_sqr. rewrite Rabs_mult. apply Rle_trans with (2.1 * G * (2.1 * G)); [apply Rmult_le_compat; auto using Rabs_pos|assert (0 <= G * G) by nra; lra]. }
  pose proof (rnd_err (d * d)) as E. rewrite (Rabs_pos_eq (d * d)) in E by lra. assert (E2 : Rabs (rnd (d * d) - d * d) <= 6 * (u * (G * G))).
  { eapply Rle_trans; [exact E|]. assert (u * (d * d) <= u * (4.5 * (G * G))) by (apply Rmult_le_compat_l; lra). assert (u * 1 <= u * (G * G)) by (apply Rmult_le_compat_l; nra). lra. }
  assert (Q : u * (G * G) <= N * u * (G * G)). { rewrite Rmult_assoc. assert (0 < u * (G * G)) by (apply Rmult_lt_0_compat; nra). nra. }
  assert (Q2 : u * (G * G) <= / 1000 * (G * G)) by (apply Rmult_le_compat_r; nra).
  exists (rnd (d * d)). split; [|split; [split|]].
  - apply fval_mul; auto. apply fits, bigG. rewrite Rabs_pos_eq by lra. lra.
  - apply rnd_pos. lra.
  - apply Rabs_le_inv in E2. lra.
  - unfold dev. replace (rnd (d * d) - (r i - mu) * (r i - mu)) with ((rnd (d * d) - d * d) + (d - (r i - mu)) * (d + (r i - mu))) by ring.
    apply Rle_trans with (6 * (u * (G * G)) + 9 * (N * u * G) * (5 * G)).
    + apply tri; [exact E2|]. rewrite Rabs_mult. apply Rmult_le_compat; auto using Rabs_pos. apply Rle_trans with (2.1 * G + (G + G)); [|lra]. apply tri; [exact Bd|]. unfold Rminus. apply tri; [exact By|now rewrite Rabs_Ropp].
    + assert (E9 : 9 * (N * u * G) * (5 * G) = 45 * (N * u * (G * G))) by ring. assert (0 < u * (G * G)) by (apply Rmult_lt_0_compat; nra). lra.
Qed.
Let q := rsum n dev.
Lemma q_bound : 0 <= q <= N * (4 * (G * G)).
Proof.
  split; [apply rsum_pos; intros; apply Rle_0_sqr|]. unfold q, N. assert (H : forall k, (k <= n)%nat -> rsum k dev <= INR k * (4 * (G * G))); [|now apply H].
  induction k as [|k IH]; intros Hk; [cbn; lra|]. cbn [rsum]. rewrite S_INR. specialize (IH ltac:(lia)). pose proof mu_bound as Bm. destruct (within_fval _ _ (Hx k ltac:(lia))) as [_ By]. fold (r k) in By.
  assert (dev k <= 4 * (G * G)). { unfold dev. rewrite <- (Rabs_pos_eq ((r k - mu) * (r k - mu)) (Rle_0_sqr (r k - mu))). rewrite Rabs_mult. apply Rle_trans with ((G + G) * (G + G)); [|lra]. apply Rmult_le_compat; auto using Rabs_pos; unfold Rminus; apply tri; auto; now rewrite Rabs_Ropp. }
  lra.
Qed.
(** the variance with divisor D (N or N - 1) and the deviation *)
Context (D : R) (df : f64) (FD : fval df D) (HD : N <= 2 * D).
Let V := q / D.
Lemma rsum_close k (f g : nat -> R) e : (forall i, (i < k)%nat -> Rabs (f i - g i) <= e) -> Rabs (rsum k f - rsum k g) <= INR k * e.
Proof.
  induction k as [|k IH]; intros H; [cbn; rewrite Rminus_0_r, Rabs_R0; lra|]. cbn [rsum]. rewrite S_INR. replace (rsum k f + f k - (rsum k g + g k)) with ((rsum k f - rsum k g) + (f k - g k)) by ring.
  replace ((INR k + 1) * e) with (INR k * e + e) by ring. apply tri; auto.
Qed.
Lemma V_pos : 0 <= V <= 8 * (G * G).
Proof.
  pose proof N1. pose proof q_bound as [Q1 Q2]. unfold V, Rdiv. assert (0 < / D) by (apply Rinv_0_lt_compat; lra). split; [apply Rmult_le_pos; lra|]. apply Rmult_le_reg_r with D; [lra|]. rewrite Rmult_assoc, Rinv_l by lra. assert (0 < G * G) by nra. nra.
Qed.
Lemma var_err : exists W, fval (fdiv (fold_left (fun a i => fadd a (sq i)) (seq 0 n) f0) df) W /\ 0 <= W <= 9 * (G * G) /\ Rabs (W - V) <= 160 * (N * u * (G * G)).
Proof.
  pose proof N1 as H1. pose proof NuB as HNu. pose proof u_small as Hu. assert (HGG : 1 <= G * G) by nra.
  assert (CH : forall k, (k <= n)%nat -> exists v, forall i, (i < k)%nat -> fval (sq i) (v i) /\ 0 <= v i <= 5 * (G * G) /\ Rabs (v i - dev i) <= 60 * (N * u * (G * G))).
  { induction k as [|k IH]; intros Hk; [exists (fun _ => 0); intros; lia|]. destruct (IH ltac:(lia)) as (v & Hv). destruct (sq_err k ltac:(lia)) as (vk & Hvk). exists (fun i => if Nat.eqb i k then vk else v i). intros i Hi. destruct (Nat.eqb_spec i k) as [->|]; [exact Hvk|apply Hv; lia]. }
  destruct (CH n (Nat.le_refl _)) as (v & Hv).
  assert (HM : 1 <= 5 * (G * G) <= 2 ^ 300). { split; [lra|]. assert (E : G * G <= 2 ^ 200) by (replace (2 ^ 200) with (2 ^ 100 * 2 ^ 100) by (rewrite <- pow_add; reflexivity); apply Rmult_le_compat; lra). replace (2 ^ 300) with (2 ^ 4 * 2 ^ 96 * 2 ^ 200) by (rewrite <- !pow_add; reflexivity). assert (1 <= 2 ^ 96) by (apply pow_R1_Rle; lra). assert (0 < 2 ^ 200) by (apply pow_lt; lra). replace (2 ^ 4) with 16 by (cbn; lra). nra. }
  destruct (sum_err sq v (5 * (G * G)) HM n Hn2) as (s & Fs & Es & _ & Ps). { intros i Hi. destruct (Hv i Hi) as (F & B & _). split; [exact F|]. rewrite Rabs_pos_eq; lra. }
  fold N in Es. specialize (Ps (fun i Hi => proj1 (proj1 (proj2 (Hv i Hi))))).
  assert (Ec : Rabs (rsum n v - q) <= N * (60 * (N * u * (G * G)))) by (apply rsum_close; intros i Hi; apply Hv; exact Hi).
  set (w := N * u * (G * G)) in *. assert (Hw : u * (G * G) <= w). { unfold w. rewrite Rmult_assoc. assert (0 < u * (G * G)) by (apply Rmult_lt_0_compat; nra). nra. }
  assert (Hw2 : w <= / 1000000 * (G * G)) by (unfold w; apply Rmult_le_compat_r; lra). assert (Hw0 : 0 < w) by (assert (0 < u * (G * G)) by (apply Rmult_lt_0_compat; nra); lra).
  assert (Es2 : Rabs (s - q) <= N * (70 * w)). { replace (s - q) with ((s - rsum n v) + (rsum n v - q)) by ring. eapply Rle_trans; [apply tri; [exact Es|exact Ec]|]. replace (2 * (N * N * (u * (5 * (G * G))))) with (N * (10 * w)) by (unfold w; ring). lra. }
  assert (HD0 : 0 < D) by lra. assert (Hi : 0 < / D) by (now apply Rinv_0_lt_compat).
  assert (Ed : Rabs (s / D - V) <= 140 * w).
  { unfold V. replace (s / D - q / D) with ((s - q) / D) by (field; lra). unfold Rdiv. rewrite Rabs_mult, (Rabs_pos_eq (/ D)) by lra. apply Rmult_le_reg_r with D; [lra|]. rewrite Rmult_assoc, Rinv_l by lra. nra. }
  pose proof V_pos as BV. assert (Psd : 0 <= s / D) by (apply Rmult_le_pos; lra). assert (Bsd : s / D <= 8.5 * (G * G)) by (apply Rabs_le_inv in Ed; lra).
  pose proof (rnd_err (s / D)) as E. rewrite (Rabs_pos_eq (s / D)) in E by exact Psd. assert (E2 : Rabs (rnd (s / D) - s / D) <= 10 * w).
  { eapply Rle_trans; [exact E|]. assert (u * (s / D) <= u * (8.5 * (G * G))) by (apply Rmult_le_compat_l; lra). assert (u * 1 <= u * (G * G)) by (apply Rmult_le_compat_l; lra). lra. }
  exists (rnd (s / D)). split; [|split; [split|]].
  - apply fval_div; auto; [lra|]. apply fits, bigG. rewrite Rabs_pos_eq by exact Psd. lra.
  - now apply rnd_pos.
  - apply Rabs_le_inv in E2. lra.
  - replace (rnd (s / D) - V) with ((rnd (s / D) - s / D) + (s / D - V)) by ring. eapply Rle_trans; [apply tri; [exact E2|exact Ed]|]. lra.
Qed.
(** the deviation *)
Let std := SFsqrt 53 1024 (fdiv (fold_left (fun a i => fadd a (sq i)) (seq 0 n) f0) df).
Let sig := sqrt V.
Lemma std_err : exists z, fval std z /\ 0 <= z <= 4 * G /\ Rabs (z * z - V) <= 190 * (N * u * (G * G)).
Proof.
  destruct var_err as (W & FW & BW & EW). pose proof N1 as H1. pose proof NuB as HNu. pose proof u_small as Hu. assert (HGG : 1 <= G * G) by nra.
  assert (Bs : 0 <= sqrt W <= 3 * G). { split; [apply sqrt_pos|]. rewrite <- (sqrt_square (3 * G)) by lra. apply sqrt_le_1_alt. lra. }
  pose proof (rnd_err (sqrt W)) as E. rewrite (Rabs_pos_eq (sqrt W)) in E by lra. assert (E2 : Rabs (rnd (sqrt W) - sqrt W) <= 4 * (u * G)). { eapply Rle_trans; [exact E|]. assert (u * sqrt W <= u * (3 * G)) by (apply Rmult_le_compat_l; lra). assert (u <= u * G) by nra. lra. }
  assert (Bz : 0 <= rnd (sqrt W) <= 3.1 * G). { split; [apply rnd_pos; lra|]. apply Rabs_le_inv in E2. assert (u * G <= / 1000 * G) by (apply Rmult_le_compat_r; lra). lra. }
  exists (rnd (sqrt W)). split; [|split; [lra|]].
  - apply fval_sqrt; [exact FW|lra|]. apply fits, bigG. rewrite Rabs_pos_eq by lra. pose proof GG. lra.
  - replace (rnd (sqrt W) * rnd (sqrt W) - V) with ((rnd (sqrt W) - sqrt W) * (rnd (sqrt W) + sqrt W) + (W - V)). 2: { rewrite <- (sqrt_sqrt W) at 5 by lra. ring. }
    apply Rle_trans with (4 * (u * G) * (7 * G) + 160 * (N * u * (G * G))).
    + apply tri; [|exact EW]. rewrite Rabs_mult. apply Rmult_le_compat; auto using Rabs_pos. rewrite Rabs_pos_eq by lra. lra.
    + assert (Q : u * (G * G) <= N * u * (G * G)). { rewrite Rmult_assoc. assert (0 < u * (G * G)) by (apply Rmult_lt_0_compat; nra). nra. } nra.
Qed.
Lemma sig_bound : 0 <= sig /\ sig * sig = V /\ sig <= 3 * G.
Proof.
  pose proof V_pos as BV. unfold sig. split; [apply sqrt_pos|]. split; [apply sqrt_sqrt; lra|]. rewrite <- (sqrt_square (3 * G)) by lra. apply sqrt_le_1_alt. nra.
Qed.
Lemma std_dist : exists z, fval std z /\ 0 <= z <= 4 * G /\ Rabs (z - sig) * sig <= 190 * (N * u * (G * G)) /\ Rabs (z - sig) * Rabs (z - sig) <= 190 * (N * u * (G * G)).
Proof.
  destruct std_err as (z & Fz & Bz & Ez). destruct sig_bound as (S1 & S2 & S3). exists z. split; [exact Fz|]. split; [exact Bz|].
  assert (E : Rabs (z - sig) * (z + sig) <= 190 * (N * u * (G * G))). { rewrite <- (Rabs_pos_eq (z + sig)) by lra. rewrite <- Rabs_mult. replace ((z - sig) * (z + sig)) with (z * z - V) by (rewrite <- S2; ring). exact Ez. }
  pose proof (Rabs_pos (z - sig)) as P. split.
  - eapply Rle_trans; [|exact E]. apply Rmult_le_compat_l; lra.
  - eapply Rle_trans; [|exact E]. apply Rmult_le_compat_l; [exact P|]. apply Rabs_le. lra.
Qed.
(** a normalised value *)
Lemma norm_err y : within G y -> 0 < sig -> 1024 * (N * u * (G * G)) <= sig * sig ->
  exists z, fval (fdiv (fsub y mf) std) z /\ Rabs (z - (fR y - mu) / sig) * (sig * sig * sig) <= 640 * (N * u * (G * G * G)).
Proof.
  intros Hy HS HB. pose proof N1 as H1. pose proof NuB as HNu. pose proof u_small as Hu. assert (HGG : 1 <= G * G) by nra. destruct (diff_err y Hy) as (d & Fd & Ed & Bd). destruct std_dist as (z & Fz & Bz & Ez & _). destruct sig_bound as (_ & S2 & S3). clearbody std sig.
  destruct (within_fval _ _ Hy) as [_ By]. pose proof mu_bound as Bm. set (dl := fR y - mu) in *. assert (Bdl : Rabs dl <= 2 * G) by (unfold dl, Rminus; replace (2 * G) with (G + G) by ring; apply tri; [exact By|now rewrite Rabs_Ropp]).
  set (w := N * u * (G * G)) in *. assert (Hz : 0.8 * sig <= z).
  { assert (0 < sig * sig) by (apply Rmult_lt_0_compat; lra). assert (A : Rabs (z - sig) * sig <= 0.19 * sig * sig) by lra. apply Rmult_le_reg_r in A; [|exact HS]. apply Rabs_le_inv in A. lra. }
  assert (Hz0 : 0 < z) by lra.
  assert (Y1 : Rabs (d / z - dl / sig) * (sig * sig * sig) <= 565 * (w * G)).
  { replace (d / z - dl / sig) with (((d - dl) * sig - dl * (z - sig)) / (sig * z)) by (field; lra). unfold Rdiv. rewrite Rabs_mult, (Rabs_pos_eq (/ (sig * z))) by (left; apply Rinv_0_lt_compat, Rmult_lt_0_compat; lra).
    apply Rle_trans with ((9 * (N * u * G) * sig + 2 * G * Rabs (z - sig)) * / (sig * z) * (sig * sig * sig)).
    - apply Rmult_le_compat_r; [apply Rmult_le_pos; [apply Rmult_le_pos|]; lra|]. apply Rmult_le_compat_r; [left; apply Rinv_0_lt_compat, Rmult_lt_0_compat; lra|].
      unfold Rminus at 1. apply tri; [rewrite Rabs_mult, (Rabs_pos_eq sig) by lra; apply Rmult_le_compat_r; lra|]. rewrite Rabs_Ropp, Rabs_mult. apply Rmult_le_compat_r; [apply Rabs_pos|exact Bdl].
    - apply Rmult_le_reg_r with z; [exact Hz0|]. replace ((9 * (N * u * G) * sig + 2 * G * Rabs (z - sig)) * / (sig * z) * (sig * sig * sig) * z) with ((9 * (N * u * G) * (sig * sig) + 2 * G * (Rabs (z - sig) * sig)) * sig) by (field; lra).
      assert (A1 : 9 * (N * u * G) * (sig * sig) <= 9 * (N * u * G) * (8 * (G * G))). { apply Rmult_le_compat_l; [assert (0 <= N * u * G) by (apply Rmult_le_pos; lra); lra|]. pose proof V_pos. lra. }
      assert (A2 : 2 * G * (Rabs (z - sig) * sig) <= 2 * G * (190 * w)) by (apply Rmult_le_compat_l; lra).
      replace (9 * (N * u * G) * (8 * (G * G))) with (72 * (w * G)) in A1 by (unfold w; ring). assert (P : 0 <= w * G) by (unfold w; apply Rmult_le_pos; [apply Rmult_le_pos|]; lra).
      apply Rle_trans with (452 * (w * G) * sig); [apply Rmult_le_compat_r; lra|]. assert (452 * (w * G) * sig <= 452 * (w * G) * (1.25 * z)) by (apply Rmult_le_compat_l; lra). lra. }
  assert (Bq : Rabs (d / z) * sig <= 2.7 * G).
  { unfold Rdiv. rewrite Rabs_mult, (Rabs_pos_eq (/ z)) by (left; now apply Rinv_0_lt_compat). apply Rmult_le_reg_r with z; [exact Hz0|]. replace (Rabs d * / z * sig * z) with (Rabs d * sig) by (field; lra). pose proof (Rabs_pos d). apply Rle_trans with (2.1 * G * (1.25 * z)); [apply Rmult_le_compat; lra|]. assert (0 <= G * z) by (apply Rmult_le_pos; lra). lra. }
  pose proof (rnd_err (d / z)) as E. exists (rnd (d / z)). split.
  - apply fval_div; auto; [lra|]. apply fits. set (a := Rabs (d / z)) in *. assert (0 <= a) by apply Rabs_pos.
    assert (A1 : a * a * (sig * sig) <= 8 * (G * G)). { replace (a * a * (sig * sig)) with ((a * sig) * (a * sig)) by ring. apply Rle_trans with (2.7 * G * (2.7 * G)); [apply Rmult_le_compat; try (apply Rmult_le_pos); lra|nra]. }
    assert (A2 : a * a * (1024 * u * (G * G)) <= 8 * (G * G)). { eapply Rle_trans; [|exact A1]. apply Rmult_le_compat_l; [nra|]. eapply Rle_trans; [|exact HB]. unfold w. assert (0 < u * (G * G)) by (apply Rmult_lt_0_compat; lra). nra. }
    assert (A3 : a * a * u <= 1). { apply Rmult_le_reg_r with (1024 * (G * G)); [lra|]. lra. }
    assert (A4 : a * a <= 2 ^ 53). { apply Rmult_le_reg_r with u; [lra|]. unfold u at 2. rewrite Rinv_r by (apply pow_nonzero; lra). exact A3. }
    apply Rle_trans with (2 ^ 53); [|apply Rle_pow; [lra|lia]]. destruct (Rle_or_lt 1 a) as [Ha|Ha]; [nra|]. apply Rle_trans with 1; [lra|]. apply pow_R1_Rle. lra.
  - apply Rle_trans with ((u * Rabs (d / z) + u) * (sig * sig * sig) + 565 * (w * G)).
    + eapply Rle_trans; [|apply Rplus_le_compat_l; exact Y1]. rewrite <- Rmult_plus_distr_r. apply Rmult_le_compat_r; [apply Rmult_le_pos; [apply Rmult_le_pos|]; lra|]. replace (rnd (d / z) - dl / sig) with ((rnd (d / z) - d / z) + (d / z - dl / sig)) by ring. apply tri; [exact E|apply Rle_refl].
    + assert (S4 : sig * sig <= 8 * (G * G)) by (pose proof V_pos; lra). assert (S5 : sig * sig * sig <= 24 * (G * G * G)). { apply Rle_trans with (8 * (G * G) * (3 * G)); [apply Rmult_le_compat; nra|lra]. }
      assert (Q1 : Rabs (d / z) * (sig * sig * sig) <= 22 * (G * G * G)). { replace (Rabs (d / z) * (sig * sig * sig)) with (Rabs (d / z) * sig * (sig * sig)) by ring. apply Rle_trans with (2.7 * G * (8 * (G * G))); [apply Rmult_le_compat; try (apply Rmult_le_pos); try lra; apply Rabs_pos|]. assert (0 <= G * G * G) by (apply Rmult_le_pos; lra). lra. }
      replace ((u * Rabs (d / z) + u) * (sig * sig * sig)) with (u * (Rabs (d / z) * (sig * sig * sig) + sig * sig * sig)) by ring.
      apply Rle_trans with (u * (46 * (G * G * G)) + 565 * (w * G)); [apply Rplus_le_compat_r; apply Rmult_le_compat_l; lra|]. assert (Q : u * (G * G * G) <= N * u * (G * G * G)). { rewrite Rmult_assoc. assert (0 < u * (G * G * G)) by (apply Rmult_lt_0_compat; [lra|apply Rmult_lt_0_compat; lra]). nra. }
      replace (w * G) with (N * u * (G * G * G)) by (unfold w; ring). assert (0 < u * (G * G * G)) by (apply Rmult_lt_0_compat; [lra|apply Rmult_lt_0_compat; lra]). lra.
Qed.
End Col.
