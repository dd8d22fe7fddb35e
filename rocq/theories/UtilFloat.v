(** mkckks/utils.go: reduction of constants and modulus chains. *)
From Coq Require Import ZArith Znumtheory Reals Lia Lra Psatz Bool String List.
From Coq.Floats Require Import SpecFloat.
From Flocq Require Import Core BinarySingleNaN.
From Verif Require Import Spec SpecProofs Go GoProofs Arith Lattigo LattigoProofs.
From Verif Require Import F64 F64Proofs F64More Utils SpecEv EvFloat EvProofs RingOpsProofs NTTProofs BasisExtProofs Fermat.
Import ListNotations.
Local Open Scope R_scope.
Local Notation length := List.length.

(** * scaleUpExact *)
Lemma zero_mul c s : feqb c f0 = true -> finite s -> exists b, fmul s c = S754_zero b /\ fltb c f0 = false.
Proof.
  intros H Hs. destruct c as [b|b| |b m e]; try discriminate; try (destruct b; discriminate). destruct s as [| | |]; try contradiction; eexists; split; reflexivity.
Qed.
Lemma scale_up c s r t q : fval c r -> fval s t -> 0 <= t -> t * Rabs r <= bpow radix2 1000 -> (0 < q < W)%Z ->
  exists w z, scaleUpExact c s q = Ok w /\ (0 <= w <= q)%Z /\ cong q w z /\ Rabs (IZR z - t * r) <= / 2 + 2 * bpow radix2 (-52) * (t * Rabs r + 1).
Proof.
  intros Hc Hs Ht Hb Hq. pose proof (scaled_err c s r t Hc Hs Ht Hb) as E.
  assert (Fc : finite c) by (apply finite_fval; eauto). assert (Fs : finite s) by (apply finite_fval; eauto).
  destruct (feqb c f0) eqn:E0.
  - destruct (zero_mul c s E0 Fs) as (b & Em & El). exists 0%Z, (scaled_const c s). split; [|split; [lia|split; [|exact E]]].
    + unfold scaleUpExact. rewrite El, Em. cbn [bigNewFloat is_nan bind]. assert (ftrunc (fadd (S754_zero b) fhalf) = 0%Z) as -> by (destruct b; reflexivity). rewrite Z.mod_0_l by lia. reflexivity.
    + rewrite (scaled_zero c s E0 Fs). reflexivity.
  - assert (Fm : is_nan (fmul s (fabs c)) = false). { apply fmul_not_nan; auto. destruct c; try contradiction; [exact I|exact Fc]. }
    destruct (scaleUpExact_ok c s q (fval_not_nan _ _ Hc) E0 Fm Hq) as (w & Ew & B & C). exists w, (scaled_const c s). auto.
Qed.
(** the modulus itself is returned for negative multiples of it *)
Lemma scale_up_q q k c : fval c (IZR (- (k * q))) -> (0 < k)%Z -> (0 < q < W)%Z -> (k * q < 2 ^ 52)%Z -> scaleUpExact c f1 q = Ok q.
Proof.
  intros Hc Hk Hq Hb. pose proof (scaled_int c _ Hc) as E. assert (Z.abs (- (k * q)) < 2 ^ 52)%Z as Hb2 by nia. specialize (E Hb2). unfold scaled_const in E. unfold scaleUpExact.
  assert (El : fltb c f0 = true). { apply (fltb_spec _ _ _ _ Hc fval_f0). apply IZR_lt. nia. }
  rewrite El in *. rewrite (fmul_neg c f1 El). assert (Fm : is_nan (fmul f1 (fabs c)) = false). { apply fmul_not_nan. - apply finite_fval. exists 1. exact f1_val. - apply finite_fval. eexists. apply (fval_abs _ _ Hc). }
  unfold bigNewFloat. rewrite Fm. cbn [bind]. assert (ftrunc (fadd (fmul f1 (fabs c)) fhalf) = k * q)%Z as -> by lia. rewrite Z.mod_mul by lia. unfold wsub. rewrite wrap_small by lia. f_equal. lia.
Qed.

(** * scaleUpVecExact *)
Lemma rnd_near a y : rnd a = a -> Rabs (rnd y - y) <= Rabs (a - y).
Proof.
  intros Ha. assert (G : generic_format radix2 fx a) by (rewrite <- Ha; apply generic_format_round; typeclasses eauto).
  destruct (round_N_pt radix2 fx (fun x => negb (Z.even x)) y) as [_ H]. exact (H a G).
Qed.
Lemma below_2_64 a : rnd a = a -> a < IZR (2 ^ 64) -> a <= IZR (2 ^ 64) - 2048.
Proof.
  intros Ha Hl. assert (G : generic_format radix2 fx a) by (rewrite <- Ha; apply generic_format_round; typeclasses eauto).
  change (IZR (2 ^ 64)) with (bpow radix2 64) in *. assert (Gb : generic_format radix2 fx (bpow radix2 64)) by (apply generic_format_bpow; vm_compute; discriminate).
  pose proof (pred_ge_gt radix2 fx a (bpow radix2 64) G Gb Hl) as P. rewrite pred_bpow in P. exact P.
Qed.
Lemma fval_W : fval (f_of_Z W) (IZR (2 ^ 64)).
Proof.
  rewrite W_val. change 18446744073709551616%Z with (2 ^ 64)%Z. assert (E : rnd (IZR (2 ^ 64)) = IZR (2 ^ 64)). { change (IZR (2 ^ 64)) with (bpow radix2 64). apply round_generic; [typeclasses eauto|]. apply generic_format_bpow. vm_compute. discriminate. }
  rewrite <- E. apply fval_of_Z. apply (rnd_lt_big _ 64); [lia|lia|]. change (IZR (2 ^ 64)) with (bpow radix2 64). rewrite Rabs_pos_eq by apply bpow_ge_0. lra.
Qed.
Lemma small_conv x a : fval x a -> 0 <= a -> a < IZR (2 ^ 64) -> u64_of_f (fadd x fhalf) = ftrunc (fadd x fhalf).
Proof.
  intros Hx H0 Hl. pose proof (rnd_fmt _ _ Hx) as Ha. pose proof (below_2_64 a Ha Hl) as Hp. pose proof (rnd_near a (a + / 2) Ha) as Hn.
  replace (a - (a + / 2)) with (- / 2) in Hn by lra. rewrite Rabs_Ropp, (Rabs_pos_eq (/ 2)) in Hn by lra. apply Rabs_le_inv in Hn.
  assert (Fa : fval (fadd x fhalf) (rnd (a + / 2))).
  { apply fval_add; auto using fval_half. apply (rnd_lt_big _ 64); [lia|lia|]. rewrite Rabs_pos_eq by lra. change (bpow radix2 64) with (IZR (2 ^ 64)). lra. }
  unfold u64_of_f. rewrite (ftrunc_floor _ _ Fa) by lra. apply wrap_small. rewrite W_val. change 18446744073709551616%Z with (2 ^ 64)%Z. split.
  - apply Zfloor_lub. lra.
  - apply lt_IZR. apply Rle_lt_trans with (rnd (a + / 2)); [apply Zfloor_lb|]. lra.
Qed.
(** one value of scaleUpVecExact is what scaleUpExact returns, unless the product is 2^64 *)
Lemma vec1 v n r t q : fval v r -> fval n t -> 0 <= t -> t * Rabs r <= bpow radix2 1000 -> feqb (fmul n (fabs v)) (f_of_Z W) = false ->
  scaleUpVec1 v n q = scaleUpExact v n q.
Proof.
  intros Hv Hn Ht Hb Hne. assert (Fv : finite v) by (apply finite_fval; eauto). assert (Fn : finite n) by (apply finite_fval; eauto).
  assert (Hy : 0 <= t * Rabs r) by (apply Rmult_le_pos; [auto|apply Rabs_pos]).
  assert (Fx : fval (fmul n (fabs v)) (rnd (t * Rabs r))). { apply fval_mul; auto using fval_abs. apply (rnd_lt_big _ 1000); [lia|lia|]. now rewrite Rabs_pos_eq. }
  assert (Hx0 : 0 <= rnd (t * Rabs r)) by (rewrite <- rnd_0; now apply rnd_mono).
  unfold scaleUpVec1, scaleUpExact. destruct (fltb (f_of_Z W) (fmul n (fabs v))) eqn:E; [reflexivity|].
  assert (Hl : rnd (t * Rabs r) < IZR (2 ^ 64)).
  { destruct (Rtotal_order (rnd (t * Rabs r)) (IZR (2 ^ 64))) as [H|[H|H]]; auto; exfalso.
    - apply (feqb_spec _ _ _ _ Fx fval_W) in H. congruence.
    - apply (fltb_spec _ _ _ _ fval_W Fx) in H. congruence. }
  destruct (fltb v f0) eqn:El.
  - rewrite (fmul_neg v n El). rewrite (small_conv _ _ Fx Hx0 Hl). unfold bigNewFloat. rewrite (fval_not_nan _ _ Fx). reflexivity.
  - destruct (feqb v f0) eqn:E0.
    + destruct (zero_mul v n E0 Fn) as (b & Em & _). rewrite Em. cbn [bigNewFloat is_nan bind]. destruct b; reflexivity.
    + rewrite (fmul_nonneg v n El E0 (fval_not_nan _ _ Hv)). rewrite (small_conv _ _ Fx Hx0 Hl). unfold bigNewFloat. rewrite (fval_not_nan _ _ Fx). reflexivity.
Qed.

(** * interfaceMod *)
Local Open Scope Z_scope.
Lemma imod_u64 x q : interfaceMod (GU64 x) q = Ok (x mod q). Proof. reflexivity. Qed.
Lemma imod_big x q : 0 < q -> interfaceMod (GBig x) q = Ok (x mod q).
Proof. intros Hq. cbn. destruct (Z.eqb_spec x 0) as [->|]; [|reflexivity]. now rewrite Z.mod_0_l by lia. Qed.
Lemma imod_i64 x q : 0 < q < 2 ^ 63 -> - 2 ^ 63 <= x < 2 ^ 63 ->
  exists w, interfaceMod (GI64 x) q = Ok w /\ cong q w x /\ (0 <= x -> w = x) /\ (x < 0 -> 0 < w <= q).
Proof.
  intros Hq Hx. cbn [interfaceMod]. destruct (Z.ltb_spec 0 x) as [H1|H1]; [|destruct (Z.ltb_spec x 0) as [H2|H2]].
  - exists x. split; [reflexivity|]. split; [reflexivity|]. split; intros; lia.
  - assert (Ei : forall y, 0 <= y < 2 ^ 63 -> i64 y = y). { intros y Hy. unfold i64. rewrite Z.mod_small by (rewrite W_val; lia). destruct (Z.ltb_spec y (2 ^ 63)); lia. }
    rewrite (Ei q) by lia. pose proof (Z.rem_nonpos x q ltac:(lia) ltac:(lia)) as B1. pose proof (Z.rem_bound_abs x q ltac:(lia)) as B2. assert (B : - q < Z.rem x q <= 0) by lia. rewrite (Ei (q + Z.rem x q)) by lia.
    exists (q + Z.rem x q). rewrite wrap_small by (rewrite W_val; lia). split; [reflexivity|]. split; [|split; intros; lia].
    pose proof (Z.quot_rem' x q). exists (1 - Z.quot x q). nia.
  - exists 0. assert (x = 0) as -> by lia. split; [reflexivity|]. split; [reflexivity|]. split; intros; lia.
Qed.

(** * genBigIntChain *)
Lemma chain_step Q : forall n, (S n <= length Q)%nat -> exists ch,
  foldM (fun ch i => let* q := idx Q i in let* p := idx ch (i - 1) in Ok (ch ++ [q * p])) (seq 1 n) [nth 0 Q 0] = Ok ch /\ ch = map (fun i => prodZ (firstn (S i) Q)) (seq 0 (S n)).
Proof.
  induction n as [|n IH]; intros Hn.
  - exists [nth 0 Q 0]. split; [reflexivity|]. destruct Q as [|q Q]; [cbn in Hn; lia|]. cbn. now rewrite Z.mul_1_r.
  - destruct IH as (ch & E & Ech); [lia|]. rewrite seq_S, foldM_app, E. cbn [bind foldM]. change (1 + n)%nat with (S n). unfold idx at 1.
    rewrite (nth_error_nth' Q 0) by lia. cbn [bind]. replace (S n - 1)%nat with n by lia.
    assert (idx ch n = Ok (prodZ (firstn (S n) Q))) as ->.
    { unfold idx. rewrite Ech. rewrite (nth_error_nth' _ (prodZ (firstn (S 0) Q))) by (rewrite map_length, seq_length; lia). rewrite (map_nth (fun i => prodZ (firstn (S i) Q))). now rewrite seq_nth by lia. }
    cbn [bind]. eexists. split; [reflexivity|]. rewrite (seq_S (S n)), map_app, <- Ech. f_equal. cbn [map]. f_equal.
    change (0 + S n)%nat with (S n). change (0 + n)%nat with n. assert (HS : firstn (S (S n)) Q = firstn (S n) Q ++ [nth (S n) Q 0]).
    { clear -Hn. revert Q Hn. induction (S n) as [|m IH]; intros [|q Q] Hn; cbn [length] in Hn; try lia; cbn [firstn nth app]; [reflexivity|]. f_equal. apply IH. lia. }
    rewrite HS, prodZ_app. cbn [prodZ]. ring.
Qed.
Lemma chain Q : Q <> [] -> exists ch, genBigIntChain Q = Ok ch /\ length ch = length Q /\ forall i, (i < length Q)%nat -> nth_error ch i = Some (prodZ (firstn (S i) Q)).
Proof.
  intros HQ. assert (0 < length Q)%nat by (destruct Q; cbn; [congruence|lia]). destruct (chain_step Q (length Q - 1)) as (ch & E & Ech); [lia|].
  exists ch. unfold genBigIntChain. unfold idx at 1. rewrite (nth_error_nth' Q 0) by lia. cbn [bind]. split; [exact E|]. subst ch. replace (S (length Q - 1)) with (length Q) by lia. split; [now rewrite map_length, seq_length|].
  intros i Hi. rewrite (nth_error_nth' _ (prodZ (firstn (S 0) Q))) by (rewrite map_length, seq_length; lia). rewrite (map_nth (fun i => prodZ (firstn (S i) Q))). now rewrite seq_nth by lia.
Qed.
Lemma chain_empty : genBigIntChain [] = Panic PIndex. Proof. reflexivity. Qed.

(** * GenSwitchkeysRescalingParams *)
Lemma inv_modZ p q : mod61 q -> prime q -> 0 <= p < W -> ~ (q | p) -> cong q (p * ModExp p (q - 2) q) 1.
Proof.
  intros Hm Hp HpW Hnd. pose proof (mod61_ok q Hm) as Hok. destruct Hm as [Hodd Hr]. assert (q <> 2) by (intros ->; discriminate).
  rewrite ModExp_spec; [|auto|lia|lia]. rewrite (cong_mod q _ ltac:(lia)). rewrite <- Z.pow_succ_r by lia. replace (Z.succ (q - 2)) with (q - 1) by lia. now apply fermat_Z.
Qed.
Lemma rescaling Q P i : Forall mod61 Q -> Forall prime Q -> (i < length Q)%nat -> ~ (nth i Q 0 | prodZ P) ->
  exists w, nth_error (GenSwitchkeysRescalingParams Q P) i = Some w /\ 0 <= w < nth i Q 0 /\ cong (nth i Q 0) (w * prodZ P) W.
Proof.
  intros Hm Hp Hi Hd. set (q := nth i Q 0) in *. assert (Mq : mod61 q) by (apply (Forall_nth_Z mod61); auto). assert (Pq : prime q) by (apply (Forall_nth_Z prime); auto).
  pose proof (mod61_ok q Mq) as Hok. pose proof (okmod_W q Hok) as HqW. assert (q <> 2) by (intros E; rewrite E in Mq; destruct Mq; discriminate).
  unfold GenSwitchkeysRescalingParams. rewrite (nth_error_nth' _ (MForm (ModExp (fold_left (fun acc pj => acc * pj) P 1 mod 0) (0 - 2) 0) 0 (BRedParams 0))) by (rewrite map_length; lia).
  rewrite (map_nth (fun q => MForm (ModExp (fold_left (fun acc pj => acc * pj) P 1 mod q) (q - 2) q) q (BRedParams q))). fold q. eexists. split; [reflexivity|].
  assert (HP : fold_left (fun acc pj => acc * pj) P 1 = prodZ P). { assert (forall P a, fold_left (fun acc pj => acc * pj) P a = a * prodZ P) as ->; [|lia]. clear. induction P as [|p P IH]; intros a; cbn [fold_left prodZ]; [ring|]. rewrite IH. ring. }
  rewrite HP. set (p := prodZ P mod q). assert (q > 0) by (destruct Mq; lia). pose proof (Z.mod_pos_bound (prodZ P) q ltac:(lia)) as Bp. fold p in Bp.
  assert (Hnd : ~ (q | p)). { intros D. apply Hd. apply Z.mod_divide; [lia|]. apply Z.mod_divide in D; [|lia]. unfold p in D. now rewrite Z.mod_mod in D by lia. }
  pose proof (inv_modZ p q Mq Pq ltac:(lia) Hnd) as I. destruct (MForm_spec (ModExp p (q - 2) q) q Hok) as [B C].
  { rewrite ModExp_spec; [|auto|lia|destruct Mq; lia]. pose proof (Z.mod_pos_bound (p ^ (q - 2)) q ltac:(lia)). lia. }
  split; [exact B|]. rewrite C. transitivity (p * ModExp p (q - 2) q * W).
  - assert (cong q p (prodZ P)) as E by (apply cong_mod; lia). replace (p * ModExp p (q - 2) q * W) with (ModExp p (q - 2) q * W * p) by ring. apply cong_mul; [reflexivity|symmetry; exact E].
  - rewrite I. apply cong_eq. ring.
Qed.

(** * the loops of scaleUpVecExact *)
Definition entry (c : list (list Z)) (j i : nat) : option Z := match nth_error c j with Some row => nth_error row i | None => None end.
Definition shape (L : nat) (c0 c : list (list Z)) : Prop := length c = length c0 /\ Forall (fun row => length row = L) c.
Lemma nth_error_setZ {A} (l : list A) i x k : (i < length l)%nat -> nth_error (firstn i l ++ x :: skipn (i + 1) l) k = if Nat.eqb k i then Some x else nth_error l k.
Proof.
  intros Hi. assert (HL : length (firstn i l) = i) by (rewrite firstn_length; lia). destruct (Nat.eqb_spec k i) as [->|Hne].
  - rewrite nth_error_app2 by lia. rewrite HL, Nat.sub_diag. reflexivity.
  - destruct (Nat.lt_ge_cases k i).
    + rewrite nth_error_app1 by lia. rewrite <- (firstn_skipn i l) at 2. rewrite nth_error_app1 by lia. reflexivity.
    + rewrite nth_error_app2 by lia. rewrite HL. destruct (k - i)%nat as [|m] eqn:E; [lia|]. cbn [nth_error]. rewrite <- (firstn_skipn (i + 1) l) at 2. rewrite nth_error_app2 by (rewrite firstn_length; lia). rewrite firstn_length. f_equal. lia.
Qed.
Lemma set_lengthZ {A} (l : list A) i x : (i < length l)%nat -> length (firstn i l ++ x :: skipn (i + 1) l) = length l.
Proof. intros Hi. rewrite app_length. cbn [length]. rewrite firstn_length, skipn_length. lia. Qed.
Lemma set2_ok L c0 c j i v : shape L c0 c -> (j < length c0)%nat -> (i < L)%nat ->
  exists c', set2 c j i v = Ok c' /\ shape L c0 c' /\ forall j' i', entry c' j' i' = if andb (Nat.eqb j' j) (Nat.eqb i' i) then Some v else entry c j' i'.
Proof.
  intros [Hl HF] Hj Hi. unfold set2, idx. destruct (nth_error c j) as [row|] eqn:E; [|apply nth_error_None in E; lia]. cbn [bind].
  assert (Hr : length row = L). { rewrite Forall_forall in HF. apply HF. eapply nth_error_In; eauto. }
  destruct (nth_error row i) as [x|] eqn:Ex; [|apply nth_error_None in Ex; lia]. cbn [bind]. eexists. split; [reflexivity|]. split.
  - split; [rewrite set_lengthZ; lia|]. apply Forall_app. split; [now apply Forall_firstn|]. constructor; [rewrite set_lengthZ; lia|now apply Forall_skipn].
  - intros j' i'. unfold entry. rewrite nth_error_setZ by lia. destruct (Nat.eqb_spec j' j) as [->|Hne]; cbn [andb]; [|reflexivity]. rewrite nth_error_setZ by lia. rewrite E. reflexivity.
Qed.
Lemma inner_loop L c0 (g : Z -> res Z) (h : Z -> Z) i : (i < L)%nat -> forall ms k c, shape L c0 c -> (k + length ms <= length c0)%nat -> (forall q, In q ms -> g q = Ok (h q)) ->
  exists c', foldM (fun c '(j, q) => let* r := g q in set2 c j i r) (combine (seq k (length ms)) ms) c = Ok c' /\ shape L c0 c' /\
    forall j' i', entry c' j' i' = if andb (Nat.eqb i' i) (andb (Nat.leb k j') (Nat.ltb j' (k + length ms))) then Some (h (nth (j' - k) ms 0)) else entry c j' i'.
Proof.
  intros Hi. induction ms as [|q ms IH]; intros k c Hc Hk Hg.
  - exists c. split; [reflexivity|]. split; [auto|]. intros j' i'. cbn [length]. destruct (Nat.leb_spec k j'), (Nat.ltb_spec j' (k + 0)); try lia; rewrite ?andb_false_r; reflexivity.
  - cbn [length seq combine foldM]. rewrite (Hg q) by now left. cbn [bind]. cbn [length] in Hk. destruct (set2_ok L c0 c k i (h q) Hc ltac:(lia) Hi) as (c1 & E1 & S1 & N1). rewrite E1. cbn [bind].
    destruct (IH (S k) c1 S1 ltac:(lia)) as (c' & E & S' & N'); [intros; apply Hg; now right|]. exists c'. split; [exact E|]. split; [exact S'|]. intros j' i'. rewrite N', N1. replace (S k + length ms)%nat with (k + S (length ms))%nat by lia.
    destruct (Nat.eqb_spec i' i) as [->|]; cbn [andb]; [|rewrite andb_false_r; reflexivity]. rewrite andb_true_r.
    destruct (Nat.eqb_spec j' k) as [->|Hne].
    + destruct (Nat.leb_spec (S k) k); [lia|]. cbn [andb]. destruct (Nat.leb_spec k k); [|lia]. destruct (Nat.ltb_spec k (k + S (length ms))); [|lia]. cbn [andb]. rewrite Nat.sub_diag. reflexivity.
    + destruct (Nat.leb_spec (S k) j'), (Nat.leb_spec k j'); try lia; cbn [andb]; [|reflexivity]. destruct (Nat.ltb_spec j' (k + S (length ms))); [|reflexivity]. replace (j' - k)%nat with (S (j' - S k)) by lia. reflexivity.
Qed.
Lemma outer_loop L c0 (g : f64 -> Z -> res Z) (h : f64 -> Z -> Z) ms d : (length ms <= length c0)%nat -> forall vs k c, shape L c0 c -> (k + length vs <= L)%nat -> (forall v q, In v vs -> In q ms -> g v q = Ok (h v q)) ->
  exists c', foldM (fun c '(i, v) => foldM (fun c '(j, q) => let* r := g v q in set2 c j i r) (combine (seq 0 (length ms)) ms) c) (combine (seq k (length vs)) vs) c = Ok c' /\ shape L c0 c' /\
    forall j' i', entry c' j' i' = if andb (Nat.ltb j' (length ms)) (andb (Nat.leb k i') (Nat.ltb i' (k + length vs))) then Some (h (nth (i' - k) vs d) (nth j' ms 0)) else entry c j' i'.
Proof.
  intros Hms. induction vs as [|v vs IH]; intros k c Hc Hk Hg.
  - exists c. split; [reflexivity|]. split; [auto|]. intros j' i'. cbn [length]. destruct (Nat.leb_spec k i'), (Nat.ltb_spec i' (k + 0)); try lia; rewrite ?andb_false_r; reflexivity.
  - cbn [length] in Hk. cbn [length seq combine foldM]. destruct (inner_loop L c0 (g v) (h v) k ltac:(lia) ms 0 c Hc ltac:(lia)) as (c1 & E1 & S1 & N1); [intros; apply Hg; auto; now left|]. rewrite E1. cbn [bind].
    destruct (IH (S k) c1 S1 ltac:(lia)) as (c' & E & S' & N'); [intros; apply Hg; auto; now right|]. exists c'. split; [exact E|]. split; [exact S'|]. intros j' i'. rewrite N', N1. replace (S k + length vs)%nat with (k + S (length vs))%nat by lia.
    change (Nat.leb 0 j') with true. change (0 + length ms)%nat with (length ms). rewrite Nat.sub_0_r. cbn [andb]. destruct (Nat.ltb_spec j' (length ms)) as [Hj|Hj]; cbn [andb]; [|rewrite andb_false_r; reflexivity]. rewrite andb_true_r.
    destruct (Nat.eqb_spec i' k) as [->|Hne].
    + destruct (Nat.leb_spec (S k) k); [lia|]. cbn [andb]. destruct (Nat.leb_spec k k); [|lia]. destruct (Nat.ltb_spec k (k + S (length vs))); [|lia]. cbn [andb]. rewrite Nat.sub_diag. reflexivity.
    + destruct (Nat.leb_spec (S k) i'), (Nat.leb_spec k i'); try lia; cbn [andb]; [|reflexivity]. destruct (Nat.ltb_spec i' (k + S (length vs))); [|reflexivity]. replace (i' - k)%nat with (S (i' - S k)) by lia. reflexivity.
Qed.
(** the zeroing loops *)
Lemma zero_row L c0 j : (j < length c0)%nat -> forall n k c, shape L c0 c -> (k + n <= L)%nat -> exists c', foldM (fun c i => set2 c j i 0) (seq k n) c = Ok c' /\ shape L c0 c' /\
    forall j' i', entry c' j' i' = if andb (Nat.eqb j' j) (andb (Nat.leb k i') (Nat.ltb i' (k + n))) then Some 0 else entry c j' i'.
Proof.
  intros Hj. induction n as [|n IH]; intros k c Hc Hk.
  - exists c. split; [reflexivity|]. split; [auto|]. intros j' i'. destruct (Nat.leb_spec k i'), (Nat.ltb_spec i' (k + 0)); try lia; rewrite ?andb_false_r; reflexivity.
  - cbn [seq foldM]. destruct (set2_ok L c0 c j k 0 Hc Hj ltac:(lia)) as (c1 & E1 & S1 & N1). rewrite E1. cbn [bind]. destruct (IH (S k) c1 S1 ltac:(lia)) as (c' & E & S' & N'). exists c'. split; [exact E|]. split; [exact S'|]. intros j' i'. rewrite N', N1. replace (S k + n)%nat with (k + S n)%nat by lia.
    destruct (Nat.eqb_spec j' j); cbn [andb]; [|reflexivity]. destruct (Nat.eqb_spec i' k) as [->|Hne].
    + destruct (Nat.leb_spec (S k) k); [lia|]. cbn [andb]. destruct (Nat.leb_spec k k); [|lia]. destruct (Nat.ltb_spec k (k + S n)); [|lia]. reflexivity.
    + destruct (Nat.leb_spec (S k) i'), (Nat.leb_spec k i'); try lia; reflexivity.
Qed.
Lemma zero_rows L c0 k0 n0 : (k0 + n0 <= L)%nat -> forall n k c, shape L c0 c -> (k + n <= length c0)%nat -> exists c', foldM (fun c i => foldM (fun c j => set2 c i j 0) (seq k0 n0) c) (seq k n) c = Ok c' /\ shape L c0 c' /\
    forall j' i', entry c' j' i' = if andb (andb (Nat.leb k j') (Nat.ltb j' (k + n))) (andb (Nat.leb k0 i') (Nat.ltb i' (k0 + n0))) then Some 0 else entry c j' i'.
Proof.
  intros H0. induction n as [|n IH]; intros k c Hc Hk.
  - exists c. split; [reflexivity|]. split; [auto|]. intros j' i'. destruct (Nat.leb_spec k j'), (Nat.ltb_spec j' (k + 0)); try lia; reflexivity.
  - cbn [seq foldM]. destruct (zero_row L c0 k ltac:(lia) n0 k0 c Hc H0) as (c1 & E1 & S1 & N1). rewrite E1. cbn [bind]. destruct (IH (S k) c1 S1 ltac:(lia)) as (c' & E & S' & N'). exists c'. split; [exact E|]. split; [exact S'|]. intros j' i'. rewrite N', N1. replace (S k + n)%nat with (k + S n)%nat by lia.
    destruct (Nat.eqb_spec j' k) as [->|Hne].
    + destruct (Nat.leb_spec (S k) k); [lia|]. cbn [andb]. destruct (Nat.leb_spec k k); [|lia]. destruct (Nat.ltb_spec k (k + S n)); [|lia]. reflexivity.
    + cbn [andb]. destruct (Nat.leb_spec (S k) j'), (Nat.leb_spec k j'); try lia; reflexivity.
Qed.
Lemma vec_loops L values n moduli coeffs (h : f64 -> Z -> Z) : Forall (fun row => length row = L) coeffs -> (length values <= L)%nat -> (length moduli <= length coeffs)%nat -> coeffs <> [] ->
  (forall v q, In v values -> In q moduli -> scaleUpVec1 v n q = Ok (h v q)) ->
  exists c, scaleUpVecExact values n moduli coeffs = Ok c /\ length c = length coeffs /\ Forall (fun row => length row = L) c /\
    (forall j i, (j < length moduli)%nat -> (i < length values)%nat -> entry c j i = Some (h (nth i values f0) (nth j moduli 0))) /\
    (forall j i, (j < length moduli)%nat -> (length values <= i < L)%nat -> entry c j i = Some 0) /\
    (forall j i, (length moduli <= j)%nat -> entry c j i = entry coeffs j i).
Proof.
  intros HF Hv Hm Hne Hg. assert (S0 : shape L coeffs coeffs) by (split; auto). unfold scaleUpVecExact.
  destruct (outer_loop L coeffs (fun v q => scaleUpVec1 v n q) h moduli f0 Hm values 0 coeffs S0 ltac:(lia) Hg) as (c1 & E1 & S1 & N1). rewrite E1. cbn [bind].
  destruct S1 as [L1 F1]. destruct c1 as [|row c1]; [destruct coeffs; [congruence|discriminate]|]. assert (Hrow : length row = L) by (inversion F1; auto). unfold idx. cbn [nth_error bind]. rewrite Hrow.
  destruct (zero_rows L coeffs (length values) (L - length values) ltac:(lia) (length moduli) 0 (row :: c1) (conj L1 F1) ltac:(lia)) as (c & E & [L2 F2] & N2). exists c. split; [exact E|]. split; [exact L2|]. split; [exact F2|].
  split; [|split].
  - intros j i Hj Hi. rewrite N2, N1. destruct (Nat.leb_spec (length values) i); [lia|]. rewrite andb_false_r. destruct (Nat.ltb_spec j (length moduli)); [|lia]. destruct (Nat.ltb_spec i (0 + length values)); [|lia]. change (Nat.leb 0 i) with true. cbn [andb]. now rewrite Nat.sub_0_r.
  - intros j i Hj Hi. rewrite N2. destruct (Nat.ltb_spec j (0 + length moduli)); [|lia]. destruct (Nat.leb_spec (length values) i); [|lia]. destruct (Nat.ltb_spec i (length values + (L - length values))); [|lia]. reflexivity.
  - intros j i Hj. rewrite N2, N1. destruct (Nat.ltb_spec j (0 + length moduli)); [lia|]. rewrite andb_false_r. cbn [andb]. destruct (Nat.ltb_spec j (length moduli)); [lia|]. reflexivity.
Qed.
