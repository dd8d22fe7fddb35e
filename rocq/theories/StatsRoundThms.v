(** Rounding errors of StandardDeviation and of the normalised tables. *)
From Coq Require Import Reals ZArith List Lia Lra Psatz Bool.
From Coq.Floats Require Import SpecFloat.
From Flocq Require Import Core BinarySingleNaN.
From Verif Require Import Spec Go F64 F64Proofs F64More SpecEnc SpecLR SpecLREnc LRData SpecData SpecLRConst SpecStats EvFloat LREncProofs LREncLR LRDataProofs LRNorm Stats StatsProofs LRConstProofs StatsRound.
Import ListNotations.
Local Open Scope R_scope.

Lemma fold_seq {X Y} (h : Y -> X -> Y) (d : X) l : forall z, fold_left h l z = fold_left (fun a i => h a (nth i l d)) (seq 0 (length l)) z.
Proof.
  induction l as [|x l IH] using rev_ind; intros z; [reflexivity|]. rewrite app_length, Nat.add_1_r, seq_S, !fold_left_app. cbn [fold_left length plus]. rewrite (app_nth2 l [x]), Nat.sub_diag by lia. cbn [nth]. f_equal. rewrite IH.
  assert (G : forall s z, (forall i, In i s -> (i < length l)%nat) -> fold_left (fun a i => h a (nth i l d)) s z = fold_left (fun a i => h a (nth i (l ++ [x]) d)) s z).
  { induction s as [|i s IHs]; intros z0 Hs; [reflexivity|]. cbn [fold_left]. rewrite (app_nth1 l [x]) by (apply Hs; now left). apply IHs. intros; apply Hs; now right. }
  apply G. intros i Hi. apply in_seq in Hi. lia.
Qed.
Lemma u_bpow : u = / 2 ^ 53. Proof. reflexivity. Qed.
Lemma stdR vec sc : vec <> [] -> StandardDeviation Rnum Rmult vec sc = deviation (length vec) (INR (length vec)) (fun i => nth i vec 0) * sc.
Proof.
  intros Hv. unfold StandardDeviation, deviation. cbn [nofnat ndiv nadd nsq nsub nsqrt n0 Rnum]. rewrite (lsum_fold (fun c => c)), lsum_rsum, Rplus_0_l. set (mu := rsum _ _ / _). rewrite (lsum_fold (fun c => (c - mu) * (c - mu))), lsum_rsum, Rplus_0_l. reflexivity.
Qed.
Theorem std_rounding : forall G S vec scale, 1 <= G <= 2 ^ 100 -> 1 <= S <= 2 ^ 100 -> vec <> [] -> INR (length vec) <= 2 ^ 20 -> Forall (within G) vec -> within S scale ->
  let n := INR (length vec) in let x := StandardDeviationF vec scale in let s := StandardDeviation Rnum Rmult (map fR vec) (fR scale) in let d := StandardDeviation Rnum Rmult (map fR vec) 1 in
  finite x /\ Rabs (fR x - s) <= 10 * sqrt n / 2 ^ 26 * G * S /\ Rabs (fR x - s) * d <= 256 * n / 2 ^ 53 * G * G * S.
Proof.
  intros G S vec scale HG HS Hv Hl HF Hs n x s d. assert (Hm : INR (length vec) <= nmax) by (unfold nmax; replace 1048576 with (2 ^ 20) by (cbn; lra); exact Hl).
  assert (Hp : (0 < length vec)%nat) by (destruct vec; [congruence|cbn; lia]).
  set (xs := fun i => nth i vec f0). assert (Hx : forall i, (i < length vec)%nat -> within G (xs i)) by (intros i Hi; rewrite Forall_forall in HF; apply HF, nth_In, Hi).
  destruct (mean_err G HG _ Hp Hm xs Hx) as (m & Fm & Em). set (mf := fdiv (fold_left (fun a i => fadd a (xs i)) (seq 0 (length vec)) f0) (f_of_Z (Z.of_nat (length vec)))) in *.
  pose proof (fval_n _ Hp Hm) as Fn. fold n in Fn, Em. assert (H1 : 1 <= n) by (apply N1; exact Hp).
  destruct (std_dist G HG _ Hp Hm xs Hx m mf Fm Em n _ Fn ltac:(fold n; lra)) as (z & Fz & Bz & Ez1 & Ez2). fold n in Ez1, Ez2.
  destruct (sig_bound G HG _ Hp Hm xs Hx n ltac:(fold n; lra)) as (S1 & _ & S3). fold n in S1, S3.
  assert (Edev : deviation (length (map fR vec)) (INR (length (map fR vec))) (fun i => nth i (map fR vec) 0) = deviation (length vec) n (fun i => fR (xs i))).
  { rewrite map_length. fold n. unfold deviation, xs. assert (E : forall i, (i < length vec)%nat -> nth i (map fR vec) 0 = fR (nth i vec f0)) by (intros i Hi; rewrite (nth_indep _ 0 (fR f0)) by (now rewrite map_length); apply map_nth).
    rewrite (rsum_ext (length vec) (fun i => nth i (map fR vec) 0) _ E). f_equal. f_equal. apply rsum_ext. intros i Hi. now rewrite E. }
  assert (Hv' : map fR vec <> []) by (destruct vec; [congruence|discriminate]).
  set (sig := deviation (length vec) n (fun i => fR (xs i))) in *. change (sqrt _) with sig in Ez1, Ez2, S1, S3.
  assert (Es : s = sig * fR scale) by (unfold s; rewrite stdR by exact Hv'; now rewrite Edev). assert (Ed : d = sig) by (unfold d; rewrite stdR by exact Hv'; rewrite Edev; ring). rewrite Es, Ed. clearbody sig.
  assert (Ex : x = fmul (SFsqrt 53 1024 (fdiv (fold_left (fun a i => fadd a (fmul (fsub (xs i) mf) (fsub (xs i) mf))) (seq 0 (length vec)) f0) (f_of_Z (Z.of_nat (length vec))))) scale).
  { unfold x, StandardDeviationF, StandardDeviation. cbn [nofnat ndiv nadd nsq nsub nsqrt n0 f64num]. rewrite (fold_seq (fun m c => fadd m c) f0 vec f0). rewrite (fold_seq _ f0 vec f0). reflexivity. }
  rewrite Ex. set (st := SFsqrt _ _ _) in *. clearbody st. clear Ex x. destruct (within_fval _ _ Hs) as [Fsc Bsc]. pose proof u_small as Hu. pose proof (Rabs_pos (z - sig)) as Pz.
  assert (Bp : Rabs (z * fR scale) <= 4 * G * S) by (rewrite Rabs_mult; apply Rmult_le_compat; auto using Rabs_pos; rewrite Rabs_pos_eq; lra).
  assert (HGS : 1 <= G * S) by nra.
  assert (Fx : fval (fmul st scale) (rnd (z * fR scale))). { apply fval_mul; auto. apply fits. eapply Rle_trans; [exact Bp|]. replace (2 ^ 400) with (2 ^ 2 * 2 ^ 198 * (2 ^ 100 * 2 ^ 100)) by (rewrite <- !pow_add; reflexivity). assert (1 <= 2 ^ 198) by (apply pow_R1_Rle; lra). assert (G * S <= 2 ^ 100 * 2 ^ 100) by (apply Rmult_le_compat; lra). replace (2 ^ 2) with 4 by (cbn; lra). nra. }
  split; [apply finite_fval; eauto|]. rewrite (fR_fval _ _ Fx).
  assert (E5 : Rabs (rnd (z * fR scale) - z * fR scale) <= 5 * (u * (G * S))). { eapply Rle_trans; [apply rnd_err|]. assert (u * Rabs (z * fR scale) <= u * (4 * G * S)) by (apply Rmult_le_compat_l; lra). assert (u * 1 <= u * (G * S)) by (apply Rmult_le_compat_l; lra). lra. }
  assert (E6 : Rabs (rnd (z * fR scale) - sig * fR scale) <= 5 * (u * (G * S)) + Rabs (z - sig) * S).
  { replace (rnd (z * fR scale) - sig * fR scale) with ((rnd (z * fR scale) - z * fR scale) + (z - sig) * fR scale) by ring. apply tri; [exact E5|]. rewrite Rabs_mult. apply Rmult_le_compat_l; auto. }
  assert (P26 : 2 ^ 26 = 67108864) by (cbn; lra). assert (U26 : u = / (2 * (67108864 * 67108864))) by (unfold u; f_equal; cbn; lra). split.
  - assert (Q0 : 1 <= sqrt n) by (rewrite <- sqrt_1; apply sqrt_le_1_alt; exact H1). assert (Q1 : sqrt n * sqrt n = n) by (apply sqrt_sqrt; lra).
    assert (Q2 : Rabs (z - sig) <= 49 / 5 * (sqrt n / 67108864 * G)).
    { apply Rsqr_incr_0_var; [|assert (0 <= sqrt n * G) by (apply Rmult_le_pos; lra); unfold Rdiv; nra]. unfold Rsqr. eapply Rle_trans; [exact Ez2|].
      replace (49 / 5 * (sqrt n / 67108864 * G) * (49 / 5 * (sqrt n / 67108864 * G))) with ((49 * 49) / (5 * 5) * 2 * ((sqrt n * sqrt n) * / (2 * (67108864 * 67108864)) * (G * G))) by field. rewrite Q1, <- U26. assert (0 <= n * u * (G * G)) by (apply Rmult_le_pos; [apply Rmult_le_pos|]; nra). lra. }
    eapply Rle_trans; [exact E6|]. rewrite P26. assert (Q3 : Rabs (z - sig) * S <= 49 / 5 * (sqrt n / 67108864 * G) * S) by (apply Rmult_le_compat_r; lra).
    assert (Q4 : 5 * (u * (G * S)) <= 1 / 5 * (sqrt n / 67108864 * G) * S).
    { replace (1 / 5 * (sqrt n / 67108864 * G) * S) with (1 / 5 / 67108864 * (sqrt n * (G * S))) by field. replace (5 * (u * (G * S))) with (5 * u * (G * S)) by ring. assert (G * S <= sqrt n * (G * S)) by nra. apply Rle_trans with (1 / 5 / 67108864 * (G * S)); [apply Rmult_le_compat_r; [lra|]; rewrite U26; lra|]. apply Rmult_le_compat_l; [lra|exact H]. }
    replace (10 * sqrt n / 67108864 * G * S) with (49 / 5 * (sqrt n / 67108864 * G) * S + 1 / 5 * (sqrt n / 67108864 * G) * S) by field. lra.
  - apply Rle_trans with ((5 * (u * (G * S)) + Rabs (z - sig) * S) * sig); [apply Rmult_le_compat_r; lra|].
    replace ((5 * (u * (G * S)) + Rabs (z - sig) * S) * sig) with (5 * (u * (G * S)) * sig + Rabs (z - sig) * sig * S) by ring.
    assert (R1 : 5 * (u * (G * S)) * sig <= 5 * (u * (G * S)) * (3 * G)) by (apply Rmult_le_compat_l; [nra|exact S3]). assert (R2 : Rabs (z - sig) * sig * S <= 190 * (n * u * (G * G)) * S) by (apply Rmult_le_compat_r; lra).
    assert (R3 : 0 <= u * (G * G * S)) by (apply Rmult_le_pos; [lra|]; apply Rmult_le_pos; nra). assert (R4 : u * (G * G * S) <= n * (u * (G * G * S))) by nra.
    replace (256 * n / 2 ^ 53 * G * G * S) with (256 * (n * (u * (G * G * S)))) by (unfold u; field; apply pow_nonzero; lra). nra.
Qed.

(** ** normalised tables *)
Lemma entry_map tab n d i j : table tab n d -> (i < n)%nat -> (j < d)%nat -> entry 0 (map (map fR) tab) i j = fR (entry f0 tab i j).
Proof.
  intros [H1 H2] Hi Hj. unfold entry. change (@nil R) with (map fR []). rewrite map_nth. rewrite (nth_indep _ 0 (fR f0)); [apply map_nth|]. rewrite map_length. specialize (H2 i Hi). lia.
Qed.
Lemma table_map tab n d : table tab n d -> table (map (map fR) tab) n d.
Proof. intros [H1 H2]. split; [now rewrite map_length|]. intros i Hi. change (@nil R) with (map fR []). rewrite map_nth, map_length. auto. Qed.
Lemma normalise_rounding G numData d m tab dvf D : 1 <= G <= 2 ^ 100 -> table tab numData d -> (0 < m <= numData)%nat -> INR m <= 2 ^ 20 -> fval dvf D -> INR m <= 2 * D ->
  (forall i j, (i < numData)%nat -> (j < d)%nat -> within G (entry f0 tab i j)) ->
  exists tab' tabR, normalise f64num numData d m dvf tab = Ok tab' /\ normalise Rnum numData d m D (map (map fR) tab) = Ok tabR /\ table tab' numData d /\
    (forall i j, (i < numData)%nat -> (j < d)%nat -> kept j -> entry f0 tab' i j = entry f0 tab i j) /\
    forall j, (j < d)%nat -> ~ kept j -> let sd := deviation m D (fun i => fR (entry f0 tab i j)) in 2 ^ 10 * INR m / 2 ^ 53 * G ^ 2 <= sd ^ 2 ->
      forall i, (i < numData)%nat -> finite (entry f0 tab' i j) /\ Rabs (fR (entry f0 tab' i j) - entry 0 tabR i j) * sd ^ 3 <= 640 * INR m / 2 ^ 53 * G ^ 3.
Proof.
  intros HG Ht Hm Hm2 FD HD HW. assert (Hmx : INR m <= nmax) by (unfold nmax; replace 1048576 with (2 ^ 20) by (cbn; lra); exact Hm2).
  destruct (normalise_cells f64num numData d m dvf tab Ht ltac:(lia)) as (t' & E & _ & Tt & C & _). destruct (normalise_cells Rnum numData d m D _ (table_map _ _ _ Ht) ltac:(lia)) as (tr & Er & _ & _ & Cr & _). cbn [n0 f64num Rnum ndiv nsub] in C, Cr.
  exists t', tr. split; [exact E|]. split; [exact Er|]. split; [exact Tt|].
  assert (KS : forall j, kept j <-> scaled j = false). { intros j. unfold kept, scaled. destruct (Nat.eqb_spec j 1), (Nat.eqb_spec j 3), (Nat.eqb_spec j 5), (Nat.ltb_spec j 17); cbn; split; intros; try congruence; try lia; try discriminate; auto. }
  split. { intros i j Hi Hj Hk. rewrite C by auto. apply KS in Hk. now rewrite Hk. }
  intros j Hj Hk sd HB i Hi. assert (Hs : scaled j = true) by (destruct (scaled j) eqn:Es; [reflexivity|]; exfalso; apply Hk, KS, Es).
  rewrite C, Cr, Hs by auto. set (xs := fun i => entry f0 tab i j). assert (Hx : forall i, (i < m)%nat -> within G (xs i)) by (intros; apply HW; lia).
  destruct (mean_err G HG m ltac:(lia) Hmx xs Hx) as (mm & Fm & Em). pose proof u_small as Hu. assert (H1 : 1 <= INR m) by (apply N1; lia).
  assert (Esd : sd * sd = sd ^ 2) by ring. assert (HB2 : 1024 * (INR m * u * (G * G)) <= sd * sd). { rewrite Esd. eapply Rle_trans; [|exact HB]. right. replace (2 ^ 10) with 1024 by (cbn; lra). unfold u. field. }
  assert (Psd : 0 < sd). { destruct (Rle_lt_or_eq_dec 0 sd) as [H|H]; [apply sqrt_pos|exact H|]. exfalso. rewrite <- H in HB2. assert (0 < INR m * u * (G * G)) by (apply Rmult_lt_0_compat; nra). lra. }
  destruct (norm_err G HG m ltac:(lia) Hmx xs Hx mm _ Fm Em D dvf FD HD (entry f0 tab i j) (HW i j Hi Hj) Psd HB2) as (z & Fz & Ez).
  change (meanOf f64num tab m j) with (fdiv (fold_left (fun a i => fadd a (xs i)) (seq 0 m) f0) (f_of_Z (Z.of_nat m))). set (mf := fdiv (fold_left _ _ _) _) in *.
  change (stdOf f64num tab m dvf j) with (SFsqrt 53 1024 (fdiv (fold_left (fun a i => fadd a (fmul (fsub (xs i) mf) (fsub (xs i) mf))) (seq 0 m) f0) dvf)).
  split; [apply finite_fval; eauto|]. rewrite (fR_fval _ _ Fz). rewrite (entry_map tab numData d i j Ht Hi Hj).
  assert (Emu : meanOf Rnum (map (map fR) tab) m j = rsum m (fun i => fR (xs i)) / INR m).
  { unfold meanOf. cbn [n0 ndiv nadd nofnat Rnum]. rewrite (rsum_fold m (fun i => entry 0 (map (map fR) tab) i j)). f_equal. apply rsum_ext. intros k Hk'. apply (entry_map tab numData d); auto; lia. }
  assert (Est : stdOf Rnum (map (map fR) tab) m D j = sd).
  { unfold stdOf. cbn [n0 ndiv nadd nsub nsq nsqrt Rnum]. rewrite Emu. rewrite (rsum_fold m (fun i => (entry 0 (map (map fR) tab) i j - _) * (entry 0 (map (map fR) tab) i j - _))). unfold sd, deviation. cbv zeta. f_equal. f_equal. apply rsum_ext. intros k Hk'. rewrite (entry_map tab numData d) by (auto; lia). reflexivity. }
  rewrite Emu, Est. replace (sd ^ 3) with (sd * sd * sd) by ring. eapply Rle_trans; [exact Ez|]. right. unfold u. field.
Qed.
Theorem normalise_rounding_toy G numData d m tab : 1 <= G <= 2 ^ 100 -> table tab numData d -> (0 < m <= numData)%nat -> INR m <= 2 ^ 20 ->
  (forall i j, (i < numData)%nat -> (j < d)%nat -> within G (entry f0 tab i j)) ->
  exists tab' tabR, normaliseToy f64num numData d m tab = Ok tab' /\ normaliseToy Rnum numData d m (map (map fR) tab) = Ok tabR /\ table tab' numData d /\
    (forall i j, (i < numData)%nat -> (j < d)%nat -> kept j -> entry f0 tab' i j = entry f0 tab i j) /\
    forall j, (j < d)%nat -> ~ kept j -> let sd := deviation m (INR m) (fun i => fR (entry f0 tab i j)) in 2 ^ 10 * INR m / 2 ^ 53 * G ^ 2 <= sd ^ 2 ->
      forall i, (i < numData)%nat -> finite (entry f0 tab' i j) /\ Rabs (fR (entry f0 tab' i j) - entry 0 tabR i j) * sd ^ 3 <= 640 * INR m / 2 ^ 53 * G ^ 3.
Proof.
  intros HG Ht Hm Hm2. assert (Hmx : INR m <= nmax) by (unfold nmax; replace 1048576 with (2 ^ 20) by (cbn; lra); exact Hm2). assert (H1 : 1 <= INR m) by (apply N1; lia). apply normalise_rounding; auto; [apply fval_n; [lia|exact Hmx]|lra].
Qed.
Theorem normalise_rounding_minibatch_toy G numData d m tab : 1 <= G <= 2 ^ 100 -> table tab numData d -> (1 < m <= numData)%nat -> INR m <= 2 ^ 20 ->
  (forall i j, (i < numData)%nat -> (j < d)%nat -> within G (entry f0 tab i j)) ->
  exists tab' tabR, normaliseMinibatchToy f64num numData d m tab = Ok tab' /\ normaliseMinibatchToy Rnum numData d m (map (map fR) tab) = Ok tabR /\ table tab' numData d /\
    (forall i j, (i < numData)%nat -> (j < d)%nat -> kept j -> entry f0 tab' i j = entry f0 tab i j) /\
    forall j, (j < d)%nat -> ~ kept j -> let sd := deviation m (INR m - 1) (fun i => fR (entry f0 tab i j)) in 2 ^ 10 * INR m / 2 ^ 53 * G ^ 2 <= sd ^ 2 ->
      forall i, (i < numData)%nat -> finite (entry f0 tab' i j) /\ Rabs (fR (entry f0 tab' i j) - entry 0 tabR i j) * sd ^ 3 <= 640 * INR m / 2 ^ 53 * G ^ 3.
Proof.
  intros HG Ht Hm Hm2. assert (Hmx : INR m <= nmax) by (unfold nmax; replace 1048576 with (2 ^ 20) by (cbn; lra); exact Hm2). assert (H1 : 2 <= INR m) by (change 2 with (INR 2); apply le_INR; lia). apply normalise_rounding; auto; [lia| |cbn [nsub nofnat Rnum INR]; lra].
  cbn [nsub nofnat Rnum f64num]. change (INR 1) with 1. assert (E : INR m - 1 = IZR (Z.of_nat m - 1)) by (rewrite minus_IZR, <- INR_IZR_INZ; reflexivity). assert (B : (Z.abs (Z.of_nat m - 1) <= 2 ^ 53)%Z). { unfold nmax in Hmx. rewrite INR_IZR_INZ in Hmx. apply le_IZR in Hmx. lia. }
  rewrite E, <- (rnd_IZR (Z.of_nat m - 1)) by exact B. rewrite minus_IZR, <- INR_IZR_INZ. apply fval_sub; [apply fval_n; [lia|exact Hmx]|apply (fval_Z 1); lia|]. rewrite E, rnd_IZR by exact B. apply Rle_lt_trans with (bpow radix2 53); [|apply bpow_lt; lia]. rewrite <- IZR_pow2_pos by lia. rewrite <- abs_IZR. now apply IZR_le.
Qed.
Lemma fR_Z k : (Z.abs k <= 2 ^ 53)%Z -> fR (f_of_Z k) = IZR k /\ finite (f_of_Z k).
Proof. intros H. pose proof (fval_Z k H) as F. split; [now apply fR_fval|]. apply finite_fval. eauto. Qed.
Lemma within_Z k g : (Z.abs k <= g)%Z -> (g <= 2 ^ 53)%Z -> within (IZR g) (f_of_Z k).
Proof. intros H1 H2. destruct (fR_Z k ltac:(lia)) as [E _]. pose proof (fval_Z k ltac:(lia)) as F. split; [apply finite_fval; eauto|]. rewrite E, <- abs_IZR. now apply IZR_le. Qed.
Lemma rounding_case : let tab := [[f_of_Z 1; f_of_Z 5]; [f_of_Z 3; f_of_Z 6]; [f_of_Z 4; f_of_Z 7]] in table tab 3 2 /\ (1 < 2 <= 3)%nat /\ ~ kept 0 /\
  (forall i j, (i < 3)%nat -> (j < 2)%nat -> within 8 (entry f0 tab i j)) /\ 2 ^ 10 * INR 2 / 2 ^ 53 * 8 ^ 2 <= deviation 2 (INR 2) (fun i => fR (entry f0 tab i 0)) ^ 2.
Proof.
  cbv zeta. split; [|split; [lia|split; [unfold kept; lia|split]]].
  - split; [reflexivity|]. intros i Hi. destruct i as [|[|[|i]]]; [cbn; lia..|lia].
  - intros i j Hi Hj. destruct i as [|[|[|i]]]; [..|lia]; (destruct j as [|[|j]]; [..|lia]); unfold entry; cbn [nth]; (apply within_Z; lia).
  - unfold deviation, entry. cbn [rsum nth INR]. rewrite (proj1 (fR_Z 1 ltac:(lia))), (proj1 (fR_Z 3 ltac:(lia))). replace (sqrt _) with (sqrt 1); [rewrite sqrt_1; lra|f_equal; field].
Qed.
Lemma std_rounding_case : let vec := [f_of_Z 1; f_of_Z 3; f_of_Z 4] in vec <> [] /\ INR (length vec) <= 2 ^ 20 /\ Forall (within 8) vec /\ within 2 (f_of_Z 2).
Proof.
  cbv zeta. split; [discriminate|]. split; [cbn [length INR]; lra|]. split; [repeat (constructor; [apply within_Z; lia|]); constructor|apply within_Z; lia].
Qed.
