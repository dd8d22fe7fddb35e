(** Corollaries of the evaluator theorems and concrete cases for them. *)
From Coq Require Import ZArith Znumtheory Reals Lia Lra Psatz Bool String List.
From Coq.Floats Require Import SpecFloat.
From Flocq Require Import Core BinarySingleNaN.
From Verif Require Import Spec SpecProofs Go GoProofs Arith NegRing NegRingProofs NTT RingOps RingOpsProofs Maps MapsProofs F64 F64Proofs F64More BasisExt Params Elements KeySwitch KeySets KeyGen EncDec Utils Evaluator Repr KSProofs ParamsProofs KeyGenProofs SpecCt KSMulProofs KSSem MulThms SpecEnc EncProofs EncThms CkEncThms EncWorld SpecEv SpecHist EvProofs RescaleProofs EvThms EvFloat ConstThms AddThms MulEvThms Shipped World.
Import ListNotations.
Local Open Scope R_scope.

(** the scale s' is exactly k times the scale s *)
Lemma align_exact s s' a k : fval s a -> fval s' (IZR k * a) -> 0 < a -> (1 <= k < 2 ^ 52)%Z -> comparable s s' /\ align_factor s s' = k /\ align_factor s' s = 1%Z.
Proof.
  intros Hs Hs' Ha Hk. assert (K1 : 1 <= IZR k) by (apply (IZR_le 1); lia). assert (K2 : IZR k < IZR (2 ^ 52)) by (apply IZR_lt; lia).
  assert (P : 0 < IZR k * a) by (apply Rmult_lt_0_compat; lra).
  assert (F52 : fval (f_of_Z (2 ^ 52)) (IZR (2 ^ 52))) by (apply fval_Z; lia).
  assert (Q1 : IZR k * a / a = IZR k) by (field; lra).
  assert (F1 : fval (fdiv s' s) (IZR k)). { pose proof (fval_div s' s (IZR k * a) a Hs' Hs ltac:(lra)) as F. rewrite Q1, (rnd_IZR k) in F by lia. apply F. rewrite <- (rnd_IZR k) by lia. apply (rnd_lt_big _ 53); [lia|lia|]. rewrite <- abs_IZR, <- IZR_pow2_pos by lia. apply IZR_le. lia. }
  assert (Q2 : 0 < a / (IZR k * a) <= 1). { split; [now apply Rdiv_lt_0_compat|]. apply Rmult_le_reg_r with (IZR k * a); [lra|]. unfold Rdiv. rewrite Rmult_assoc, Rinv_l by lra. nra. }
  assert (R1 : 0 <= rnd (a / (IZR k * a)) <= 1). { split; [rewrite <- rnd_0; apply rnd_mono; lra|]. replace 1 with (rnd 1) by (rewrite (rnd_IZR 1) by lia; reflexivity). apply rnd_mono. lra. }
  assert (F2 : fval (fdiv s s') (rnd (a / (IZR k * a)))). { apply fval_div; auto; [lra|]. rewrite Rabs_pos_eq by lra. apply Rle_lt_trans with 1; [lra|]. apply (bpow_lt radix2 0 1024). lia. }
  split; [|split].
  - split; [eauto|]. split; [eauto|]. split; [now apply (fltb_spec _ _ _ _ F1 F52)|]. apply (fltb_spec _ _ _ _ F2 F52). apply Rle_lt_trans with 1; [lra|]. apply (IZR_lt 1). lia.
  - unfold align_factor. rewrite (ftrunc_trunc _ _ F1), Ztrunc_IZR. lia.
  - unfold align_factor. rewrite (ftrunc_trunc _ _ F2), Ztrunc_floor by lra. assert (Zfloor (rnd (a / (IZR k * a))) <= 1)%Z; [|lia]. apply le_IZR. eapply Rle_trans; [apply Zfloor_lb|lra].
Qed.
Local Open Scope Z_scope.

Section C.
Context (ce : ckenv).
Notation pp := (e_pp (ce_env ce)).
Context (He : env_ok (ce_env ce)).
Notation N := (pa_N pp).

(** AddNew / SubNew when one scale is a multiple of the other *)
Lemma add_multiple c0 c1 s0 s1 l0 l1 a k : (l0 < QCount pp)%nat -> (l1 < QCount pp)%nat -> ct_ok pp l0 c0 -> ct_ok pp l1 c1 ->
  fval s0 a -> fval s1 (Rmult (IZR k) a) -> Rlt 0 a -> 1 < k < 2 ^ 52 ->
  (exists cout, combination pp (Nat.min l0 l1) padd k 1 c0 c1 cout /\ forall o st, order_ok o -> ev_ok pp st -> exists out st',
    AddNew ce o (mkCk c0 s0) (mkCk c1 s1) st = Ok (mkCk out s1, st') /\ same_ct out cout /\ ev_ok pp st') /\
  (exists cout, combination pp (Nat.min l0 l1) psub k 1 c0 c1 cout /\ forall o st, order_ok o -> ev_ok pp st -> exists out st',
    SubNew ce o (mkCk c0 s0) (mkCk c1 s1) st = Ok (mkCk out s1, st') /\ same_ct out cout /\ ev_ok pp st').
Proof.
  intros Hl0 Hl1 H0 H1 F0 F1 Ha Hk. destruct (align_exact s0 s1 a k F0 F1 Ha ltac:(lia)) as (HC & A0 & A1).
  assert (X : fltb s1 s0 = false). { destruct (fltb s1 s0) eqn:E; auto. apply (fltb_spec _ _ _ _ F1 F0) in E. assert (1 < IZR k)%R by (apply (IZR_lt 1); lia). exfalso. nra. }
  split.
  - destruct (add_new ce He c0 c1 s0 s1 l0 l1 Hl0 Hl1 H0 H1 HC) as (cout & R & S). rewrite A0, A1 in R. rewrite X in S. exists cout. auto.
  - destruct (sub_new ce He c0 c1 s0 s1 l0 l1 Hl0 Hl1 H0 H1 HC) as (cout & R & S). rewrite A0, A1 in R. rewrite X in S. exists cout. auto.
Qed.
(** Rescale into a given receiver *)
Lemma rescale_into cin scale thr out so l n : (l < QCount pp)%nat -> ct_ok pp l cin -> ct_ok pp l out -> same_keys out cin -> ~ rescale_err l scale thr -> rescale_count (pa_Q pp) l scale (fdiv thr (f_of_Z 2)) n -> n <> O ->
  exists cout, rescaled pp l n cin cout /\ reduced pp (l - n) cout /\
    forall o st, order_ok o -> ev_ok pp st -> exists st', Rescale ce o (mkCk cin scale) thr (mkCk out so) st = Ok (None, mkCk cout (scale_after (pa_Q pp) l scale n), st') /\ ev_ok pp st'.
Proof.
  intros Hl Hc Ho Hk Hne Hn Hn0. destruct (lifts_ex ce He l cin Hl Hc) as (f & Hf). destruct (rs_out_rescaled ce He l n cin f out Hl (proj1 Hn) Hc Hf (ck_nd _ _ _ Ho) Hk) as [R1 R2]; [congruence|].
  exists (rs_out ce l n f out). split; [auto|]. split; [auto|]. intros o st Hoo Hst.
  destruct (Rescale_gen ce He l n cin scale thr f out so o st) as (e & st' & E & Hst' & Hee); auto.
  { apply Hc. } { split; [apply Ho|]. intros id p Ep. destruct (ck_comp _ _ _ Ho id p Ep) as (A & B & _). auto. } { intros id. apply Hk. } { right. auto. }
  assert (e = None) as -> by (destruct e; auto; exfalso; apply Hne, Hee; discriminate). eauto.
Qed.
(** RescaleNew either returns or panics with an index error, the latter exactly when all moduli can be divided out *)
Lemma rescale_total cin scale thr l o st : (l < QCount pp)%nat -> ct_ok pp l cin -> order_ok o -> ev_ok pp st ->
  let exhausted := fleb thr f0 = false /\ feqb scale f0 = false /\ l <> O /\ forall i, (1 <= i <= l + 1)%nat -> fleb (fdiv thr (f_of_Z 2)) (scale_after (pa_Q pp) l scale i) = true in
  (exhausted -> RescaleNew ce o (mkCk cin scale) thr st = Panic PIndex) /\
  (~ exhausted -> exists n e out st', RescaleNew ce o (mkCk cin scale) thr st = Ok (e, out, st') /\ (n <= l)%nat /\ rescale_steps (pa_Q pp) l scale thr n /\ ct_ok pp (l - n) (c_ct out) /\ ev_ok pp st').
Proof.
  intros Hl Hc Ho Hst ex. assert (NE : fleb thr f0 = false -> feqb scale f0 = false -> l <> O -> ~ rescale_err l scale thr). { intros A B C [D|[D|D]]; congruence. } split.
  - intros (A & B & C & D). apply (rescale_new_panics ce He cin scale thr l); auto.
  - intros Hx. assert (Z0 : rescale_steps (pa_Q pp) l scale thr 0 -> exists n e out st', RescaleNew ce o (mkCk cin scale) thr st = Ok (e, out, st') /\ (n <= l)%nat /\ rescale_steps (pa_Q pp) l scale thr n /\ ct_ok pp (l - n) (c_ct out) /\ ev_ok pp st').
    { intros H. destruct (rescale_new_zero ce He cin scale thr l Hl Hc H o st Ho Hst) as (e & out & st' & E & Z & K & _ & _ & S). exists O, e, out, st'. split; [auto|]. split; [lia|]. split; [auto|]. split; [|auto]. rewrite Nat.sub_0_r.
      revert E. unfold RescaleNew. cbn [c_ct c_scale]. destruct (ctIDSet_ok o cin Ho) as (ids & -> & _ & Ki). cbn [bind]. rewrite (ct_level (ce_env ce) l cin Hc). cbn [bind]. unfold ckNewCiphertext. cbn [cp_pp].
      pose proof (fresh_ok ce He o ids l Hl Ho) as HF. destruct (lifts_ex ce He l cin Hl Hc) as (f & Hf).
      destruct (Rescale_gen ce He l 0 cin scale thr f (NewCiphertext o pp ids l) scale o st) as (e2 & st2 & E2 & _); auto. { apply Hc. } { now apply zero_recipient. }
      { intros id. destruct (NewCiphertext_ok o pp ids l Ho) as (_ & B2 & _). rewrite B2, Ki. pose proof (ck_0 _ _ _ Hc). destruct (string_dec id "0"%string) as [->|]; tauto. }
      rewrite E2. intros X. injection X as _ <- _. exact HF. }
    destruct (rescale_cases (pa_Q pp) l scale thr) as [D|[D [(n & Hn)|D2]]].
    + apply Z0. left. auto.
    + destruct n as [|n]; [apply Z0; right; auto|]. destruct (rescale_new ce He cin scale thr l (S n) Hl Hc D Hn ltac:(lia)) as (cout & R & _ & _ & S). destruct (S o st Ho Hst) as (out & st' & E & HS & _ & S').
      exists (Datatypes.S n), None, out, st'. split; [auto|]. split; [apply Hn|]. split; [right; auto|]. split; [|auto]. destruct R as [R _]. pose proof (same_ct_keys _ _ HS) as SK. destruct HS as (N1 & N2 & HG).
      constructor; [auto|apply SK, R|]. intros id p Ep. rewrite HG in Ep. exact (ck_comp _ _ _ R id p Ep).
    + exfalso. apply Hx. split; [|split; [|split; [|auto]]].
      * destruct (fleb thr f0) eqn:E; auto. exfalso. apply D. now left.
      * destruct (feqb scale f0) eqn:E; auto. exfalso. apply D. right. now left.
      * intros ->. apply D. right. now right.
Qed.
Lemma same_sym (a b : ciphertext) : same_ct a b -> same_ct b a.
Proof. intros (H1 & H2 & H3). split; [auto|]. split; [auto|]. intros id. symmetry. apply H3. Qed.
Lemma same_trans (a b c : ciphertext) : same_ct a b -> same_ct b c -> same_ct a c.
Proof. intros (H1 & H2 & H3) (G1 & G2 & G3). split; [auto|]. split; [auto|]. intros id. now rewrite H3. Qed.
End C.
(** the size of the integer a real constant is turned into *)
Lemma const_rounding c s r t : fval c r -> fval s t -> (0 <= t)%R -> (t * Rabs r <= IZR (2 ^ 1000))%R ->
  (Rabs (IZR (scaled_const c s) - t * r) <= / 2 + 2 * / IZR (2 ^ 52) * (t * Rabs r + 1))%R.
Proof.
  intros H1 H2 H3 H4. pose proof (scaled_err c s r t H1 H2 H3) as H. rewrite <- (IZR_pow2_pos 1000) in H by lia. specialize (H H4).
  replace (/ IZR (2 ^ 52))%R with (bpow radix2 (-52)); [exact H|]. change (bpow radix2 (-52)) with (bpow radix2 (- (52))). rewrite (bpow_opp radix2 52), <- (IZR_pow2_pos 52) by lia. reflexivity.
Qed.

(** ** concrete cases: the shipped moduli *)
Definition keyset_of (pp : params) (L : list rlkey) : rlkpool := fold_left (fun s k => AddRelinearizationKey pp s k) L NewRelinearizationKeyKeySet.
Lemma add_ready pp s k : (forall id, In id (mkeys (rs_keys s)) -> exists v, sget (rs_h0 s) id = Some v /\ swk_ok pp v) -> (forall id, In id (mkeys (rs_keys s)) -> exists v, sget (rs_h1 s) id = Some v /\ swk_ok pp v) ->
  let s' := AddRelinearizationKey pp s k in
  (forall id, In id (mkeys (rs_keys s')) -> exists v, sget (rs_h0 s') id = Some v /\ swk_ok pp v) /\ (forall id, In id (mkeys (rs_keys s')) -> exists v, sget (rs_h1 s') id = Some v /\ swk_ok pp v).
Proof.
  intros H0 H1 s'. unfold s', AddRelinearizationKey. cbn [rs_keys rs_h0 rs_h1].
  assert (G : forall (h : hoisted), (forall id, In id (mkeys (rs_keys s)) -> exists v, sget h id = Some v /\ swk_ok pp v) -> forall id, In id (mkeys (sset (rs_keys s) (rl_ID k) k)) -> exists v, sget (sset h (rl_ID k) (NewSwitchingKey pp)) id = Some v /\ swk_ok pp v).
  { intros h Hh id Hi. destruct (string_dec id (rl_ID k)) as [->|Hne]. - exists (NewSwitchingKey pp). split; [now apply (mget_mset_same _ seqb)|apply NewSwk_ok].
    - rewrite (mget_mset_other _ seqb) by auto. apply Hh. apply (mget_In _ seqb) in Hi. apply (mget_In _ seqb). now rewrite (mget_mset_other _ seqb) in Hi by auto. }
  split; auto.
Qed.
(** every key set built with AddRelinearizationKey has its pools ready for the parties it holds keys of *)
Lemma keyset_ready pp L ct : (forall id, party ct id -> In id (mkeys (rs_keys (keyset_of pp L)))) -> hoist_ready pp (rs_h0 (keyset_of pp L)) ct /\ hoist_ready pp (rs_h1 (keyset_of pp L)) ct.
Proof.
  intros H. assert (G : (forall id, In id (mkeys (rs_keys (keyset_of pp L))) -> exists v, sget (rs_h0 (keyset_of pp L)) id = Some v /\ swk_ok pp v) /\ (forall id, In id (mkeys (rs_keys (keyset_of pp L))) -> exists v, sget (rs_h1 (keyset_of pp L)) id = Some v /\ swk_ok pp v)).
  { clear H. unfold keyset_of. rewrite <- (rev_involutive L). induction (rev L) as [|k M IH]. { cbn. split; intros id []. } cbn [rev]. rewrite fold_left_app. cbn [fold_left]. now apply add_ready. }
  destruct G as [G0 G1]. split; intros id Hi; auto.
Qed.
Definition sc38 : f64 := f_of_Z (2 ^ 38).
(** at the shipped scale 2^38 a product is divided once, from every level above 0 *)
Lemma steps38 l : (0 < l < 21)%nat -> rescale_steps shippedQ l (fmul sc38 sc38) sc38 1.
Proof.
  intros Hl. right. unfold rescale_err, rescale_count. destruct l as [|l]; [lia|]. do 20 (destruct l as [|l]; [split; [intros [H|[H|H]]; vm_compute in H; discriminate|split; [lia|split; [|vm_compute; reflexivity]]]; intros i Hi; assert (i = 1%nat) as -> by lia; vm_compute; reflexivity|]). lia.
Qed.
Lemma ev_world : exists ce st rs g A U s r Dm, env_ok (ce_env ce) /\ ce_scale ce = sc38 /\ ev_ok (e_pp (ce_env ce)) st /\ pa_Q (e_pp (ce_env ce)) = shippedQ /\ pa_P (e_pp (ce_env ce)) = shippedP /\ pa_logN (e_pp (ce_env ce)) = 15%nat /\
  forall l0 l1, (0 < l0 < QCount (e_pp (ce_env ce)))%nat -> (0 < l1 < QCount (e_pp (ce_env ce)))%nat ->
    mul_setting (e_pp (ce_env ce)) g A U s r 1 1 Dm (ones_ct (e_pp (ce_env ce)) l0 ["a"; "b"]%string) (ones_ct (e_pp (ce_env ce)) l1 ["b"]%string) l0 l1 (rs_keys rs) /\
    hoist_ready (e_pp (ce_env ce)) (rs_h0 rs) (ones_ct (e_pp (ce_env ce)) l0 ["a"; "b"]%string) /\ hoist_ready (e_pp (ce_env ce)) (rs_h1 rs) (ones_ct (e_pp (ce_env ce)) l1 ["b"]%string) /\
    rescale_steps (pa_Q (e_pp (ce_env ce))) (Nat.min l0 l1) (fmul sc38 sc38) (ce_scale ce) 1.
Proof.
  destruct mul_world as (env & g & A & U & s & r & rlks & Dm & He & HQ & HP & HN & H). set (pp := e_pp env) in *.
  destruct (NewEvaluator o_id (e_lz env) (mkCkp pp sc38)) as [c0 st] eqn:EN. pose proof (NewEvaluator_ok o_id (e_lz env) (mkCkp pp sc38) (eo_pp _ He) o_id_ok) as HE. rewrite EN in HE. destruct HE as (_ & _ & _ & Hst).
  exists (mkCke env sc38), st, (mkRlkSet rlks [("a"%string, NewSwitchingKey pp); ("b"%string, NewSwitchingKey pp)] [("a"%string, NewSwitchingKey pp); ("b"%string, NewSwitchingKey pp)]), g, A, U, s, r, Dm.
  cbn [ce_env ce_scale rs_keys rs_h0 rs_h1]. fold pp. split; [auto|]. split; [auto|]. split; [exact Hst|]. split; [auto|]. split; [auto|]. split; [auto|].
  intros l0 l1 Hl0 Hl1. destruct (H l0 l1) as [H1 _]; [lia|lia|]. split; [exact H1|].
  assert (R : forall l L, incl L ["a"; "b"]%string -> hoist_ready pp [("a"%string, NewSwitchingKey pp); ("b"%string, NewSwitchingKey pp)] (ones_ct pp l L)).
  { intros l L HL id [Hi Hne]. rewrite ones_ct_keys in Hi. destruct Hi as [Hi|Hi]; [congruence|]. exists (NewSwitchingKey pp). split; [|apply NewSwk_ok]. apply HL in Hi. destruct Hi as [<-|[<-|[]]]; reflexivity. }
  split; [apply R; intros x; auto|]. split; [apply R; intros x [<-|[]]; cbn; auto|]. rewrite HQ. apply steps38. unfold QCount in *. fold pp in HQ. rewrite HQ in Hl0, Hl1. cbn in Hl0, Hl1. lia.
Qed.
(** the scales 2^38 and 2^39 *)
Lemma scales_case : fval sc38 (IZR (2 ^ 38)) /\ fval (f_of_Z (2 ^ 39)) (Rmult (IZR 2) (IZR (2 ^ 38))).
Proof. split; [apply fval_Z; lia|]. rewrite <- mult_IZR. apply (fval_Z (2 ^ 39)). lia. Qed.
Lemma comparable_case : comparable sc38 (f_of_Z (2 ^ 39)).
Proof. destruct scales_case as [A B]. apply (align_exact sc38 (f_of_Z (2 ^ 39)) (IZR (2 ^ 38)) 2 A B); [|lia]. apply (IZR_lt 0). lia. Qed.
(** a scale so large that every modulus can be divided out *)
Lemma exhausted_case : let s := f_of_Z (2 ^ 200) in fleb sc38 f0 = false /\ feqb s f0 = false /\ 2%nat <> O /\
  forall i, (1 <= i <= 3)%nat -> fleb (fdiv sc38 (f_of_Z 2)) (scale_after shippedQ 2 s i) = true.
Proof. cbn zeta. split; [vm_compute; reflexivity|]. split; [vm_compute; reflexivity|]. split; [lia|]. intros i Hi. destruct i as [|[|[|[|i]]]]; try lia; vm_compute; reflexivity. Qed.
Lemma kept_case : rescale_steps shippedQ 2 sc38 sc38 0.
Proof. right. split. { intros [H|[H|H]]; vm_compute in H; discriminate. } split; [lia|]. split; [intros; lia|vm_compute; reflexivity]. Qed.
