(** The gadget decomposition: NewDecomposer tables and DecomposeAndSplit. *)
From Coq Require Import ZArith Znumtheory List Lia Setoid Morphisms Permutation Bool Reals Lra.
From Flocq Require Import Core.
From Verif Require Import Go GoProofs Lattigo LattigoProofs Arith F64 F64Proofs ModUpFloat BasisExt BasisExtProofs ModDownProofs.
Import ListNotations.
Local Open Scope Z_scope.

(** ceilings computed in float64 are exact below 2^53 *)
Theorem ceil_div_f_exact a b : 0 <= a < 2 ^ 53 -> 0 < b < 2 ^ 53 -> ceil_div_f a b = (a + b - 1) / b.
Proof.
  intros Ha Hb.
  assert (Hx : forall n, 0 <= n < 2^53 -> fval (f_of_Z n) (IZR n)).
  { intros n Hn. rewrite <- (rnd_IZR n) by lia. apply fval_small_Z. lia. }
  assert (Hbp : (0 < IZR b)%R) by (apply IZR_lt; lia).
  assert (Hap : (0 <= IZR a)%R) by (apply IZR_le; lia).
  assert (Hq0 : (0 <= IZR a / IZR b)%R) by (apply Rmult_le_pos; [auto|left; now apply Rinv_0_lt_compat]).
  assert (Hqa : (IZR a / IZR b <= IZR a)%R).
  { assert (1 <= IZR b)%R by (apply IZR_le; lia).
    rewrite <- (Rmult_1_r (IZR a)) at 2. apply Rmult_le_compat_l; auto.
    rewrite <- Rinv_1. apply Rinv_le; lra. }
  assert (HF : fval (fdiv (f_of_Z a) (f_of_Z b)) (rnd (IZR a / IZR b))).
  { apply fval_div; [apply Hx; lia|apply Hx; lia|lra|].
    apply (rnd_lt_big _ 53); [lia|lia|]. rewrite Rabs_pos_eq by auto.
    eapply Rle_trans; [exact Hqa|]. rewrite <- IZR_pow2_pos by lia. apply IZR_le; lia. }
  unfold ceil_div_f. rewrite (fceil_ceil _ _ HF).
  2:{ rewrite <- rnd_0. now apply rnd_mono. }
  set (n := (a + b - 1) / b).
  assert (Hn1 : (b * (n - 1) < a /\ 1 <= a) \/ (a = 0 /\ n = 0)).
  { destruct (Z.eq_dec a 0) as [->|]; [right; split; auto; unfold n; apply Z.div_small; lia|].
    left. pose proof (Z.mul_div_le (a + b - 1) b ltac:(lia)). split; [|lia]. fold n in H. lia. }
  assert (Hn2 : a <= b * n).
  { unfold n. pose proof (Z.mul_succ_div_gt (a + b - 1) b ltac:(lia)). lia. }
  assert (Hn0 : 0 <= n) by (unfold n; apply Z.div_pos; lia).
  assert (Hna : n <= a \/ n = 0) by (destruct Hn1; nia).
  destruct Hn1 as [[Hn1 Ha1]|[-> Hn1]].
  2:{ rewrite Hn1. unfold Rdiv. rewrite Rmult_0_l, rnd_0. now rewrite Zceil_IZR. }
  apply Zceil_imp. split.
  - assert (Hlow : (IZR (n-1) <= rnd (IZR a / IZR b))%R).
    { apply rnd_pos_lower; [lia|]. apply Rmult_le_reg_r with (IZR b); auto.
      unfold Rdiv. rewrite Rmult_assoc, Rinv_l, Rmult_1_r by lra.
      rewrite <- mult_IZR. apply IZR_le. lia. }
    destruct Hlow as [H|H]; auto. exfalso.
    assert (Hsm : (bpow radix2 (-1000) <= Rabs (IZR a / IZR b))%R).
    { rewrite Rabs_pos_eq by auto. apply Rle_trans with (/ IZR (2^53))%R.
      - change (2^53) with 9007199254740992.
        apply Rle_trans with (bpow radix2 (-53)); [apply bpow_le; lia|].
        apply Req_le. reflexivity.
      - apply Rle_trans with (/ IZR b)%R.
        + apply Rinv_le; auto. apply IZR_le; lia.
        + unfold Rdiv. rewrite <- (Rmult_1_l (/ IZR b)) at 1. apply Rmult_le_compat_r.
          * left. now apply Rinv_0_lt_compat. * apply IZR_le; lia. }
    pose proof (rnd_err (IZR a / IZR b) (or_intror Hsm)) as Herr.
    rewrite <- H in Herr. rewrite (Rabs_pos_eq (IZR a / IZR b)) in Herr by auto.
    assert (Hgap : (IZR a / IZR b - IZR (n-1) >= / IZR b)%R).
    { apply Rle_ge. apply Rmult_le_reg_r with (IZR b); auto. rewrite Rinv_l by lra.
      rewrite Rmult_minus_distr_r. unfold Rdiv. rewrite Rmult_assoc, Rinv_l, Rmult_1_r by lra.
      rewrite <- mult_IZR, <- minus_IZR. apply IZR_le. lia. }
    rewrite Rabs_minus_sym, Rabs_pos_eq in Herr.
    2:{ assert (0 < / IZR b)%R by now apply Rinv_0_lt_compat. lra. }
    assert (Hlt : (u53 * (IZR a / IZR b) < / IZR b)%R).
    { unfold Rdiv. rewrite <- Rmult_assoc. rewrite <- (Rmult_1_l (/ IZR b)) at 2.
      apply Rmult_lt_compat_r; [now apply Rinv_0_lt_compat|].
      rewrite u53_val. assert (IZR a < 9007199254740992)%R by (apply IZR_lt; lia). lra. }
    assert (E2 : (/ 2 * bpow radix2 (-52) = u53)%R) by (unfold u53; change (-52) with (1 + -53); rewrite bpow_plus; cbn; lra). rewrite E2 in Herr. lra.
  - apply rnd_upper; [lia|]. apply Rmult_le_reg_r with (IZR b); auto.
    unfold Rdiv. rewrite Rmult_assoc, Rinv_l, Rmult_1_r by lra.
    rewrite <- mult_IZR. apply IZR_le. lia.
Qed.

Lemma choose_list (R : nat -> Z -> Prop) N :
  (forall x, (x < N)%nat -> exists y, R x y) ->
  exists Y, length Y = N /\ forall x, (x < N)%nat -> R x (nth x Y 0).
Proof.
  induction N as [|M IH]; intros H.
  - exists []. split; auto. intros; lia.
  - destruct IH as (Y & HlY & HY). { intros; apply H; lia. }
    destruct (H M ltac:(lia)) as (y & Hy).
    exists (Y ++ [y]). split; [rewrite app_length; cbn; lia|].
    intros x Hx. destruct (Nat.eq_dec x M) as [->|Hne].
    + rewrite app_nth2 by lia. rewrite HlY, Nat.sub_diag. exact Hy.
    + rewrite app_nth1 by lia. apply HY. lia.
Qed.

(** the block of moduli handled by digit i at level levelQ: indices [i*alpha, (i+1)*alpha) up to levelQ *)
Definition block (Q : list Z) (alpha i levelQ : nat) : list Z :=
  firstn (Nat.min alpha (levelQ + 1 - i * alpha)) (skipn (i * alpha) Q).

Lemma nth_repeat_lt {A} (a d : A) n i : (i < n)%nat -> nth i (repeat a n) d = a.
Proof. revert i. induction n; intros [|i] H; cbn; auto; try lia. apply IHn. lia. Qed.

Lemma decompLvl_val levelQ alpha i : (0 < alpha)%nat -> (i * alpha <= levelQ)%nat ->
  decompLvl (Z.of_nat levelQ) (Z.of_nat alpha) (Z.of_nat i) =
    Z.of_nat (Nat.min alpha (levelQ + 1 - i * alpha)) - 2.
Proof.
  intros Ha Hi. unfold decompLvl.
  destruct (Z.gtb_spec (Z.of_nat levelQ) (Z.of_nat alpha * (Z.of_nat i + 1) - 1)) as [H|H].
  - assert (Nat.min alpha (levelQ + 1 - i * alpha) = alpha) as -> by nia. lia.
  - assert (Nat.min alpha (levelQ + 1 - i * alpha) = levelQ + 1 - i * alpha)%nat as -> by nia.
    replace (Z.of_nat levelQ mod Z.of_nat alpha) with (Z.of_nat (levelQ - i * alpha)); [lia|].
    apply (Z.mod_unique _ _ (Z.of_nat i)); [left; nia|nia].
Qed.

Lemma idxZ_nat {A} (l : list A) i : idxZ l (Z.of_nat i) = idx l i.
Proof. unfold idxZ. destruct (Z.ltb_spec (Z.of_nat i) 0); [lia|]. now rewrite Nat2Z.id. Qed.
Lemma idx_map_seq {B} (f : nat -> B) n i : (i < n)%nat -> idx (map f (seq 0 n)) i = Ok (f i).
Proof. intros H. rewrite (idx_nth _ i (f i)) by now rewrite map_length, seq_length. now rewrite nth_map_seq. Qed.

(** Result of one digit: shared integer polynomial Y *)
Definition digit_result (Q P : list Z) (alpha i levelQ levelP N : nat)
    (p0Q outQ outP : list (list Z)) (Y : list Z) : Prop :=
  length Y = N /\ length outQ = (levelQ + 1)%nat /\ length outP = (levelP + 1)%nat /\
  (forall x, (x < N)%nat -> near_range (nth x Y 0) (prodZ (block Q alpha i levelQ))) /\
  (forall j x, (i * alpha <= j)%nat -> (j < (i + 1) * alpha)%nat -> (j <= levelQ)%nat -> (x < N)%nat ->
     cong (nth j Q 0) (nth x Y 0) (nth x (nth j p0Q []) 0)) /\
  (forall j, (j <= levelQ)%nat -> limb_of (nth j Q 0) W (nth j outQ []) Y) /\
  (forall j, (j <= levelP)%nat -> limb_of (nth j P 0) W (nth j outP []) Y).

Lemma NewDecomposer_lookup Q P gamma alpha i levelQ :
  (0 < gamma)%nat -> (2 <= alpha)%nat -> (gamma * alpha <= length P)%nat ->
  (i * alpha <= levelQ)%nat -> (levelQ < length Q)%nat -> Z.of_nat (length Q) < 2^52 -> Z.of_nat (length P) < 2^52 ->
  let k := Nat.min alpha (levelQ + 1 - i * alpha) in (2 <= k)%nat ->
  exists t1 t2, idxZ (dec_params (NewDecomposer Q P (Z.of_nat gamma))) (Z.of_nat gamma * Z.of_nat alpha - 2) = Ok t1 /\
    idx t1 i = Ok t2 /\
    idx t2 (k - 2) = Ok (basisextenderparameters (firstn k (skipn (i * alpha) Q)) (Q ++ firstn (gamma * alpha) P)).
Proof.
  intros Hg Ha HP Hi HlQ HbQ HbP k Hk.
  assert (Hga : (2 <= gamma * alpha)%nat) by nia.
  replace (Z.of_nat gamma * Z.of_nat alpha - 2) with (Z.of_nat (gamma * alpha - 2)) by lia.
  rewrite idxZ_nat. unfold NewDecomposer. cbn [dec_params].
  rewrite idx_map_seq by lia. replace (gamma * alpha - 2 + 2)%nat with (gamma * alpha)%nat by lia.
  eexists. unfold dec_level. rewrite firstn_length, Nat.min_l by lia.
  assert (Ealpha : Z.to_nat (ceil_div_f (Z.of_nat (gamma * alpha)) (Z.of_nat gamma)) = alpha).
  { rewrite ceil_div_f_exact by (split; try lia; nia).
    replace ((Z.of_nat (gamma * alpha) + Z.of_nat gamma - 1) / Z.of_nat gamma) with (Z.of_nat alpha); [lia|].
    apply (Z.div_unique _ _ _ (Z.of_nat gamma - 1)); [left; lia|]. rewrite Nat2Z.inj_mul. ring. }
  rewrite Ealpha.
  set (b := Z.to_nat (ceil_div_f (Z.of_nat (length Q)) (Z.of_nat alpha))).
  assert (Hb : b = ((length Q + alpha - 1) / alpha)%nat).
  { unfold b. rewrite ceil_div_f_exact by (split; try lia; nia).
    replace (Z.of_nat (length Q) + Z.of_nat alpha - 1) with (Z.of_nat (length Q + alpha - 1)) by lia.
    rewrite <- Nat2Z.inj_div. lia. }
  pose proof (Nat.div_mod (length Q + alpha - 1) alpha ltac:(lia)) as HD.
  pose proof (Nat.mod_upper_bound (length Q + alpha - 1) alpha ltac:(lia)) as HM.
  rewrite <- Hb in HD.
  assert (Hib : (i < b)%nat).
  { clearbody b. clear - HD HM Hi HlQ Ha. nia. }
  eexists. split; [reflexivity|]. rewrite idx_map_seq by auto. split; [reflexivity|].
  rewrite idx_map_seq; [now replace (k - 2 + 2)%nat with k by lia|].
  fold b. destruct (negb (length Q mod alpha =? 0)%nat && (i =? b - 1)%nat) eqn:E.
  - apply andb_prop in E as [E1 E2]. apply Nat.eqb_eq in E2.
    apply negb_true_iff, Nat.eqb_neq in E1.
    pose proof (Nat.div_mod (length Q) alpha ltac:(lia)) as HD2.
    pose proof (Nat.mod_upper_bound (length Q) alpha ltac:(lia)) as HM2.
    set (qa := (length Q / alpha)%nat) in *. set (ma := (length Q mod alpha)%nat) in *.
    assert (Hbq : b = S qa).
    { rewrite Hb. symmetry. apply (Nat.div_unique _ _ _ (ma - 1)); lia. }
    assert (Hia : (i * alpha = alpha * qa)%nat) by (replace i with qa by lia; lia).
    unfold k in *. clearbody qa ma b. lia.
  - unfold k in *. lia.
Qed.

Theorem DecomposeAndSplit_ok Q P gamma alpha i levelQ levelP N p0Q :
  good_moduli Q P -> (0 < gamma)%nat -> (1 <= alpha <= 32)%nat -> (alpha = 1 \/ gamma * alpha <= length P /\ levelP < gamma * alpha)%nat ->
  (levelP < length P)%nat ->
  (i * alpha <= levelQ)%nat -> (levelQ < length Q)%nat -> Z.of_nat (length Q) < 2^52 -> Z.of_nat (length P) < 2^52 ->
  (levelQ < length p0Q)%nat ->
  Forall (fun l => length l = N) p0Q -> Forall words p0Q ->
  (forall j x, (j <= levelQ)%nat -> (x < N)%nat -> nth x (nth j p0Q []) 0 <= nth j Q 0) ->
  exists outQ outP Y,
    DecomposeAndSplit (NewDecomposer Q P (Z.of_nat gamma)) levelQ levelP alpha i (Z.of_nat gamma) p0Q = Ok (outQ, outP) /\
    digit_result Q P alpha i levelQ levelP N p0Q outQ outP Y.
Proof.
  intros G Hg Ha Hga HlP Hi HlQ HbQ HbP Hlp HN Hw Hle.
  unfold DecomposeAndSplit.
  destruct (Nat.eqb_spec alpha 0) as [?|_]; [lia|].
  rewrite decompLvl_val by lia.
  set (k := Nat.min alpha (levelQ + 1 - i * alpha)).
  assert (Hk1 : (1 <= k)%nat) by (unfold k; nia).
  assert (Hblk : block Q alpha i levelQ = firstn k (skipn (i * alpha) Q)) by reflexivity.
  assert (HNj : forall j, (j < length p0Q)%nat -> length (nth j p0Q []) = N).
  { intros j Hj. rewrite Forall_forall in HN. apply HN. now apply nth_In. }
  assert (Hwj : forall j, (j < length p0Q)%nat -> words (nth j p0Q [])).
  { intros j Hj. rewrite Forall_forall in Hw. apply Hw. now apply nth_In. }
  destruct (Z.eqb_spec (Z.of_nat k - 2) (-1)) as [Ek|Ek].
  - (* one modulus: copy *)
    assert (k = 1%nat) by lia.
    assert (Hst : (i * alpha < length p0Q)%nat) by lia.
    rewrite (idx_nth p0Q (i * alpha) []) by lia. cbn [bind].
    set (Y := nth (i * alpha) p0Q []).
    exists (repeat Y (levelQ + 1)), (repeat Y (levelP + 1)), Y. split; [reflexivity|].
    assert (HlY : length Y = N) by now apply HNj.
    assert (HYw : words Y) by now apply Hwj.
    assert (Hself : forall q, limb_of q W Y Y).
    { intros q. apply limb_of_intro; auto. intros x Hx. split; [|reflexivity].
      now apply (Forall_nth_Z (fun w => 0 <= w < W)). }
    split; [exact HlY|]. split; [apply repeat_length|]. split; [apply repeat_length|].
    split; [|split; [|split]].
    + intros x Hx. rewrite Hblk, H.
      assert (Es : firstn 1 (skipn (i * alpha) Q) = [nth (i * alpha) Q 0]).
      { destruct (skipn (i * alpha) Q) as [|q l] eqn:E.
        - assert (length (skipn (i * alpha) Q) = 0%nat) by now rewrite E. rewrite skipn_length in H0. lia.
        - cbn. f_equal. replace (nth (i * alpha) Q 0) with (nth 0 (skipn (i*alpha) Q) 0); [now rewrite E|].
          rewrite <- (firstn_skipn (i * alpha) Q) at 2. rewrite app_nth2; rewrite firstn_length; [f_equal; lia|lia]. }
      rewrite Es. cbn [prodZ]. unfold near_range.
      assert (0 <= nth x Y 0 < W) by (apply (Forall_nth_Z (fun w => 0 <= w < W)); auto; lia).
      pose proof (Hle (i * alpha)%nat x ltac:(lia) Hx). fold Y in H1.
      assert (mod61 (nth (i * alpha) Q 0)) as [_ Hq] by (apply Forall_nth_Z; [apply G|lia]).
      change (2^42) with 4398046511104. nia.
    + intros j x Hj1 Hj2 Hj3 Hx. assert (j = i * alpha)%nat as -> by (unfold k in H; nia). reflexivity.
    + intros j Hj. rewrite nth_repeat_lt by lia. apply Hself.
    + intros j Hj. rewrite nth_repeat_lt by lia. apply Hself.
  - assert (Hk2 : (2 <= k)%nat) by lia.
    assert (Ha2 : (2 <= alpha)%nat) by (unfold k in Hk2; lia).
    assert (Hga2 : (gamma * alpha <= length P)%nat) by lia.
    assert (Hlp2 : (levelP < gamma * alpha)%nat) by lia.
    destruct (NewDecomposer_lookup Q P gamma alpha i levelQ) as (t1 & t2 & E1 & E2 & E3); auto.
    fold k in E3. rewrite E1. cbn [bind]. rewrite E2. cbn [bind].
    replace (Z.of_nat k - 2) with (Z.of_nat (k - 2)) by lia. rewrite idxZ_nat, E3. cbn [bind].
    replace (Z.to_nat (Z.of_nat (k - 2) + 2)) with k by lia.
    set (ps := Q ++ firstn (gamma * alpha) P).
    set (qs := firstn k (skipn (i * alpha) Q)) in *.
    set (pr := basisextenderparameters qs ps).
    assert (HT : tables_ok qs ps pr).
    { apply basisextenderparameters_ok.
      - unfold qs. apply Forall_firstn, Forall_skipn. apply G.
      - unfold ps. apply Forall_app. split; [apply G|]. apply Forall_firstn. apply G.
      - unfold qs. apply Forall_firstn, Forall_skipn. apply G.
      - unfold qs. apply NoDup_firstn, NoDup_skipn. eapply NoDup_app_l. apply G. }
    assert (Hps : Forall mod61 ps).
    { unfold ps. apply Forall_app. split; [apply G|]. apply Forall_firstn. apply G. }
    assert (HlPf : length (firstn (gamma * alpha) P) = (gamma * alpha)%nat) by (rewrite firstn_length; lia).
    assert (Hlps : length ps = (length Q + gamma * alpha)%nat) by (unfold ps; rewrite app_length; lia).
    assert (HpsQ : forall j, (j < length Q)%nat -> nth j ps 0 = nth j Q 0) by (intros; unfold ps; now rewrite app_nth1).
    assert (HpsP : forall j, (j < gamma * alpha)%nat -> nth (length Q + j) ps 0 = nth j P 0).
    { intros j Hj. unfold ps. rewrite app_nth2 by lia. rewrite nth_firstn by lia. f_equal. lia. }
    assert (Hnc : ncoef p0Q = N) by (unfold ncoef; apply HNj; lia).
    rewrite Hnc. cbn [dec_Q dec_P NewDecomposer].
    pose (R := fun (x : nat) (c : list Z * list Z) =>
       length (fst c) = (levelQ + 1)%nat /\ length (snd c) = (levelP + 1)%nat /\
       exists Y, near_range Y (prodZ qs) /\
       (forall t, (t < k)%nat -> cong (nth (i * alpha + t) Q 0) Y (nth x (nth (i * alpha + t) p0Q []) 0)) /\
       (forall j, (j <= levelQ)%nat -> 0 <= nth j (fst c) 0 < W /\ cong (nth j Q 0) (nth j (fst c) 0) Y) /\
       (forall j, (j <= levelP)%nat -> 0 <= nth j (snd c) 0 < W /\ cong (nth j P 0) (nth j (snd c) 0) Y)).
    match goal with |- context [mapM ?f (seq 0 N)] =>
      destruct (mapM_seq_spec f R N 0) as (cols & E & Hlc & HR) end.
    + intros x Hx.
      destruct (up_words (i * alpha) k (column p0Q x) Q ps pr HT) as (ys & v & Y & Er & Hnr & Hcr & Hz); auto.
      { unfold k. lia. } { unfold k. nia. } { rewrite column_length. unfold k. nia. }
      { apply G. } { now apply column_words. }
      rewrite Er. cbn [bind].
      match goal with |- context [mapM ?f (seq 0 (levelQ + 1))] =>
        destruct (mapM_seq_spec f (fun j z => 0 <= z < W /\ cong (nth j Q 0) z Y) (levelQ + 1) 0)
          as (zq & Eq & Hlq & Hzq) end.
      { intros j Hj. rewrite (idx_nth Q j 0) by lia.
        rewrite (idx_nth (vtimesqmodp pr) j []) by (rewrite (tk_len_v _ _ _ HT); lia).
        rewrite (idx_nth (qoverqimodp pr) j []) by (rewrite (tk_len_tab _ _ _ HT); lia). cbn [bind].
        destruct (Hz j ltac:(lia)) as (z & Ez & Cz & Rz & _). rewrite HpsQ in * by lia.
        exists z. split; auto. split; auto.
        assert (mod61 (nth j Q 0)) by (apply Forall_nth_Z; [apply G|lia]).
        pose proof (mod61_W _ H). lia. }
      rewrite Eq. cbn [bind].
      match goal with |- context [mapM ?f (seq 0 (levelP + 1))] =>
        destruct (mapM_seq_spec f (fun j z => 0 <= z < W /\ cong (nth j P 0) z Y) (levelP + 1) 0)
          as (zp & Ep & Hlpp & Hzp) end.
      { intros j Hj. rewrite (idx_nth P j 0) by lia.
        rewrite (idx_nth (vtimesqmodp pr) (length Q + j) []) by (rewrite (tk_len_v _ _ _ HT); lia).
        rewrite (idx_nth (qoverqimodp pr) (length Q + j) []) by (rewrite (tk_len_tab _ _ _ HT); lia). cbn [bind].
        destruct (Hz (length Q + j)%nat ltac:(lia)) as (z & Ez & Cz & Rz & _). rewrite HpsP in * by lia.
        exists z. split; auto. split; auto.
        assert (mod61 (nth j P 0)) by (apply Forall_nth_Z; [apply G|lia]).
        pose proof (mod61_W _ H). lia. }
      rewrite Ep. cbn [bind]. eexists. split; [reflexivity|]. cbn [fst snd].
      split; [exact Hlq|]. split; [exact Hlpp|]. exists Y. split; [exact Hnr|]. split; [|split].
      * intros t Ht. rewrite <- column_nth by (unfold k in Ht; nia). now apply Hcr.
      * intros j Hj. apply (Hzq 0 j ltac:(lia)).
      * intros j Hj. apply (Hzp 0 j ltac:(lia)).
    + rewrite E. cbn [bind].
      destruct (choose_list (fun x Y => near_range Y (prodZ qs) /\
       (forall t, (t < k)%nat -> cong (nth (i * alpha + t) Q 0) Y (nth x (nth (i * alpha + t) p0Q []) 0)) /\
       (forall j, (j <= levelQ)%nat -> 0 <= nth j (fst (nth x cols ([],[]))) 0 < W /\ cong (nth j Q 0) (nth j (fst (nth x cols ([],[]))) 0) Y) /\
       (forall j, (j <= levelP)%nat -> 0 <= nth j (snd (nth x cols ([],[]))) 0 < W /\ cong (nth j P 0) (nth j (snd (nth x cols ([],[]))) 0) Y)) N)
       as (Y & HlY & HY).
      { intros x Hx. destruct (HR ([],[]) x Hx) as (_ & _ & H). exact H. }
      do 2 eexists. exists Y. split; [reflexivity|].
      split; [exact HlY|]. split; [apply limbs_of_length|]. split; [apply limbs_of_length|].
      split; [|split; [|split]].
      * intros x Hx. rewrite Hblk. now apply HY.
      * intros j x Hj1 Hj2 Hj3 Hx. replace j with (i * alpha + (j - i * alpha))%nat by lia.
        apply HY; auto. unfold k. nia.
      * intros j Hj. rewrite limbs_of_nth by lia. apply limb_of_intro; [rewrite !map_length; lia|].
        intros x Hx. rewrite map_map. rewrite (nth_mapl _ cols x ([],[]) 0) by lia. apply HY; lia.
      * intros j Hj. rewrite limbs_of_nth by lia. apply limb_of_intro; [rewrite !map_length; lia|].
        intros x Hx. rewrite map_map. rewrite (nth_mapl _ cols x ([],[]) 0) by lia. apply HY; lia.
Qed.
