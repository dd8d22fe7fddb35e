(** Two goroutines that multiply, with the shipped parameters and one RelinearizationKeySet: one of the products is wrong. *)
From Coq Require Import String ZArith Znumtheory List Lia Setoid Morphisms Bool Permutation Arith.
From Verif Require Import Spec SpecProofs Go GoProofs Lattigo Arith NegRing NegRingProofs NTT NTTProofs F64 RingOps Maps MapsProofs Params Elements KeySwitch KeySets KeyGen EncDec Evaluator Repr KSProofs KSMulProofs ParamsProofs KeyGenProofs SpecCt KSSem SpecEnc EncProofs SpecEv EvThms AddThms MulEvThms Conc SpecConc ConcProofs RaceProofs ConcRace Shipped KeyWitness KeyThms World EvWorld.
Import ListNotations.
Local Open Scope Z_scope.
Local Open Scope list_scope.

(** constant components a (of "0") and b (of party "a") on l+1 limbs *)
Definition crow (N : nat) (c : Z) : list Z := c :: repeat 0 (N - 1).
Definition cpoly (N l : nat) (c : Z) : poly := mkPoly false (repeat (crow N c) (l + 1)).
Definition cct (N l : nat) (a b : Z) : ciphertext := [("0"%string, cpoly N l a); ("a"%string, cpoly N l b)].
Definition rcall (N : nat) (b b' : Z) : ccall := mkCall (fun _ x => x) false (mkCk (cct N 20 1 b) sc38) (mkCk (cct N 20 1 b') sc38).
Definition rcalls (N : nat) (i : nat) : ccall := match i with O => rcall N (2 ^ 37) (2 ^ 37) | _ => rcall N 1 1 end.

Lemma nth_zeros x n : nth x (repeat 0 n) 0 = 0.
Proof. revert x. induction n as [|n IH]; intros [|x]; cbn; auto. Qed.
Lemma crow_nth N c x : nth x (crow N c) 0 = pconst c x.
Proof. destruct x; cbn; [reflexivity|]. apply nth_zeros. Qed.
Lemma cpoly_nth N l c j x : (j <= l)%nat -> nth x (nth j (p_co (cpoly N l c)) []) 0 = pconst c x.
Proof. intros Hj. cbn [p_co cpoly]. rewrite nth_rep by lia. apply crow_nth. Qed.
Lemma cct_ok pp l a b : (0 < pa_N pp)%nat -> (forall j, (j <= l)%nat -> 0 <= a <= modulus (pa_Q pp) j /\ 0 <= b <= modulus (pa_Q pp) j) -> ct_ok pp l (cct (pa_N pp) l a b).
Proof.
  intros HN H. constructor.
  - cbn. repeat constructor; cbn; intuition congruence.
  - now left.
  - intros id p E. assert (exists c, p = cpoly (pa_N pp) l c /\ (c = a \/ c = b)) as (c & -> & Hc).
    { unfold cct in E. cbn in E. destruct (String.eqb id "0"); [injection E as <-; eauto|]. destruct (String.eqb id "a"); [injection E as <-; eauto|discriminate]. }
    split; [reflexivity|]. unfold plen, cpoly. cbn [p_co]. rewrite repeat_length. split; [reflexivity|]. intros j Hj. rewrite nth_rep by lia. split. { unfold crow. cbn. rewrite repeat_length. lia. }
    intros x Hx. rewrite crow_nth. destruct (H j Hj) as [Ha Hb]. unfold modulus in *. destruct x as [|x]; cbn [pconst]; [destruct Hc as [-> | ->]; lia|lia].
Qed.
Lemma cct_keys N l a b : mkeys (cct N l a b) = ["0"; "a"]%string. Proof. reflexivity. Qed.
Lemma cct_party N l a b id : party (cct N l a b) id -> id = "a"%string.
Proof. intros [H1 H2]. cbn in H1. intuition congruence. Qed.
Section A.
Context (N l : nat) (HN : (0 < N)%nat) (s : string -> zpoly).
Lemma cct_limb a b j M : (j <= l)%nat -> peq N M (limb (cct N l a b) "0"%string j) (pconst a) /\ peq N M (limb (cct N l a b) "a"%string j) (pconst b).
Proof. intros Hj. split; intros i Hi; apply cong_eq; unfold limb, cct; cbn [mget String.eqb Ascii.eqb Bool.eqb]; apply cpoly_nth; auto. Qed.
Lemma cct_phase a b j M : (j <= l)%nat -> peq N M (phase N s (cct N l a b) j) (padd (pconst a) (pscale b (s "a"%string))).
Proof.
  intros Hj. destruct (cct_limb a b j M Hj) as [H1 H2]. unfold phase. rewrite cct_keys. cbn [psumL]. rewrite H1, H2. unfold secret. cbn [String.eqb Ascii.eqb Bool.eqb].
  rewrite (pmul_one_l N M HN). rewrite (pmul_comm N HN M), (pmul_const_l N HN M). intros i Hi. apply cong_eq. unfold padd, pzero. ring.
Qed.
Lemma cct_mask a b j M : (j <= l)%nat -> peq N M (mask N s (cct N l a b) j) (pscale b (s "a"%string)).
Proof. intros Hj. unfold mask. rewrite (cct_phase a b j M Hj). destruct (cct_limb a b j M Hj) as [H1 _]. rewrite H1. intros i Hi. apply cong_eq. unfold psub, padd. ring. Qed.
End A.
Lemma sumn_cst n c : sumn n (fun _ => c) = Z.of_nat n * c.
Proof. induction n as [|n IH]; [reflexivity|]. cbn [sumn]. rewrite IH. lia. Qed.
Lemma ones_square N : (0 < N)%nat -> pmul N (smallpoly (ones N)) (smallpoly (ones N)) (N - 1)%nat = Z.of_nat N.
Proof.
  intros HN. assert (S1 : forall i, (i < N)%nat -> smallpoly (ones N) i = 1). { intros i Hi. unfold smallpoly, ones. rewrite nth_rep by auto. reflexivity. }
  unfold pmul. rewrite (sumn_ext _ _ (fun _ => 1)); [rewrite sumn_cst; lia|]. intros i Hi. rewrite (S1 i Hi). replace (Z.of_nat (N - 1) - Z.of_nat i) with (Z.of_nat (N - 1 - i)) by lia.
  rewrite ext_small by lia. rewrite S1 by lia. reflexivity.
Qed.

Definition raceDm : Z := 2 * 36028797019488257.
Lemma race_world : exists ce st rs g A U r, let pp := e_pp (ce_env ce) in
  env_ok (ce_env ce) /\ ce_scale ce = sc38 /\ ev_ok pp st /\ pa_Q pp = shippedQ /\ pa_P pp = shippedP /\ pa_logN pp = 15%nat /\ pa_gamma pp = 2%nat /\
  forall i, call_ok ce g A U (fun _ => smallpoly (ones (pa_N pp))) r 1 1 raceDm rs 20 20 1 (rcalls (pa_N pp) i).
Proof.
  destruct shipped_key_witness as (pp & sk & Hpp & HQ & HP & Hlog & Hgm & HB & Hsk & _ & Hcrs & _ & (g & Hg) & _).
  set (env := fst (NewKeySwitcher (fun _ _ _ => false) pp)).
  assert (H0 : crs_is pp 0 (fun _ => pone)). { apply Hcrs. unfold crsIndices. cbn. auto. }
  assert (H1 : crs_is pp (-1) (fun _ => pone)). { apply Hcrs. unfold crsIndices. cbn. auto. }
  destruct (rlk_exists pp sk g Hpp HB Hsk Hg H0 H1) as (rl & Hrl).
  destruct (NewEvaluator o_id (e_lz env) (mkCkp pp sc38)) as [c0 st] eqn:EN. pose proof (NewEvaluator_ok o_id (e_lz env) (mkCkp pp sc38) Hpp o_id_ok) as HE. rewrite EN in HE. destruct HE as (_ & _ & _ & Hst).
  exists (mkCke env sc38), st, (mkRlkSet [("a"%string, rl)] [("a"%string, NewSwitchingKey pp)] [("a"%string, NewSwitchingKey pp)]), g, (fun _ => pone), (fun _ => pone), (fun _ => smallpoly (ones (pa_N pp))).
  cbn [ce_env ce_scale]. change (e_pp env) with pp. split; [constructor; auto|]. do 6 (split; [auto|]).
  assert (HN : (0 < pa_N pp)%nat) by apply deg_pos.
  assert (Hn : pnorm_le (pa_N pp) (smallpoly (ones (pa_N pp))) 1) by (apply smallpoly_norm, ones_ok; lia).
  assert (Hb : forall b, 0 <= b <= 2 ^ 37 -> ct_ok pp 20 (cct (pa_N pp) 20 1 b)).
  { intros b Hb. apply cct_ok; [exact HN|]. intros j Hj. rewrite HQ. unfold modulus. assert (HF : Forall (fun q => 2 ^ 37 <= q) shippedQ) by (unfold shippedQ; repeat (constructor; [lia|]); constructor).
    assert (Hj' : (j < length shippedQ)%nat) by (cbn; lia). rewrite Forall_forall in HF. specialize (HF (nth j shippedQ 0) (nth_In _ _ Hj')). clear - HF Hb. lia. }
  assert (HC : forall b b', 0 <= b <= 2 ^ 37 -> 0 <= b' <= 2 ^ 37 -> call_ok (mkCke env sc38) g (fun _ => pone) (fun _ => pone) (fun _ => smallpoly (ones (pa_N pp))) (fun _ => smallpoly (ones (pa_N pp))) 1 1 raceDm
     (mkRlkSet [("a"%string, rl)] [("a"%string, NewSwitchingKey pp)] [("a"%string, NewSwitchingKey pp)]) 20 20 1 (rcall (pa_N pp) b b')).
  { intros b b' B1 B2. assert (HL : (20 < QCount pp)%nat) by (unfold QCount; rewrite HQ; cbn; lia).
    constructor; cbn [ce_env ce_scale rs_keys rs_h0 rs_h1 cc_op0 cc_op1 cc_same cc_o c_ct c_scale rcall]; change (e_pp env) with pp.
    - constructor; auto.
      + intros id [Hid|Hid]; apply cct_party in Hid; subst id; exists rl; (split; [reflexivity|exact Hrl]).
      + intros t Ht. unfold maxLevel, QCount in *. rewrite HQ in *. unfold Alpha, PCount in *. rewrite HP, Hgm in *.
        change (length shippedP / 2)%nat with 1%nat. change (length shippedQ - 1)%nat with 20%nat. unfold raceDm.
        assert (Ht' : (t < 21)%nat). { revert Ht. unfold Beta, Alpha, PCount. rewrite HP, Hgm. change (length shippedP / 2)%nat with 1%nat. change (length shippedQ - 1)%nat with 20%nat. intros Ht. eapply Nat.lt_le_trans; [exact Ht|]. vm_compute. lia. }
        clear - Ht'. do 21 (destruct t as [|t]; [vm_compute; discriminate|]). lia.
    - discriminate.
    - intros id Hid. apply cct_party in Hid. subst id. exists (NewSwitchingKey pp). split; [reflexivity|apply NewSwk_ok].
    - intros id Hid. apply cct_party in Hid. subst id. exists (NewSwitchingKey pp). split; [reflexivity|apply NewSwk_ok].
    - intros m x. reflexivity.
    - rewrite HQ. apply steps38. lia. }
  intros [|i]; apply HC; lia.
Qed.

Lemma two_keys (L : list string) : NoDup L -> (forall x, In x L <-> In x ["0"; "a"]%string) -> length L = 2%nat.
Proof.
  intros H1 H2. assert (HP : Permutation L ["0"; "a"]%string) by (apply NoDup_Permutation; [auto|repeat constructor; cbn; intuition congruence|exact H2]). now rewrite (Permutation_length HP).
Qed.
Lemma not_product ce s out : let pp := e_pp (ce_env ce) in let c := rcalls (pa_N pp) 0 in let c' := rcalls (pa_N pp) 1 in
  pa_Q pp = shippedQ -> pa_P pp = shippedP -> pa_logN pp = 15%nat -> pa_gamma pp = 2%nat -> s = (fun _ => smallpoly (ones (pa_N pp))) ->
  mixed_result pp s 1 1 raceDm (c_ct (cc_op0 c)) (c_ct (cc_op1 c)) (c_ct (cc_op0 c')) (c_ct (cc_op1 c')) 20 1 (fmul (c_scale (cc_op0 c)) (c_scale (cc_op1 c))) out ->
  ~ product_of ce s 1 1 raceDm 20 20 1 c out.
Proof.
  intros pp c c' HQ HP Hlog Hgm Es HM HX. unfold product_of in HX. fold pp in HX. change (Nat.min 20 20) with 20%nat in HX.
  cbn [c c' rcalls rcall cc_op0 cc_op1 c_ct c_scale] in HM, HX. assert (HN : (0 < pa_N pp)%nat) by apply deg_pos.
  assert (EN : Z.of_nat (pa_N pp) = 32768) by (unfold pa_N; rewrite deg_Z, Hlog; reflexivity). set (N := pa_N pp) in *.
  destruct HM as (w1 & w1' & Hok & _ & Hkeys & _ & Hw1 & Hw1' & HM). destruct HX as (w2 & w2' & _ & _ & _ & _ & Hw2 & Hw2' & HX).
  assert (Enp : nparties (c_ct out) = 1). { unfold nparties. rewrite (two_keys (mkeys (c_ct out))); [reflexivity|apply Hok|]. intros x. rewrite Hkeys, !cct_keys. tauto. }
  rewrite Enp in Hw1', Hw2'. unfold divided in HM, HX. cbv zeta beta in *. fold N in HM, HX, Hw1, Hw2, Hw1', Hw2'.
  assert (Ed : dropped (pa_Q pp) 20 1 = 274885378049) by (rewrite HQ; reflexivity). rewrite Ed in *.
  set (X := cct N 20 1 (2 ^ 37)) in *. set (Y := cct N 20 1 1) in *.
  assert (J : forall M b j, (j <= 20)%nat -> peq N M (phase N s (cct N 20 1 b) j) (phase N s (cct N 20 1 b) 0) /\ peq N M (mask N s (cct N 20 1 b) j) (mask N s (cct N 20 1 b) 0)).
  { intros M b j Hj. rewrite !(cct_phase N 20 HN s 1 b) by lia. rewrite !(cct_mask N 20 HN s 1 b) by lia. split; reflexivity. }
  destruct (HM (padd (mixed N s X X Y Y 0) w1)) as (M1 & HM1 & HM1'). { intros j Hj. cbv beta. unfold mixed. destruct (J (modulus (pa_Q pp) j) (2 ^ 37) j Hj) as [P1 P2]. destruct (J (modulus (pa_Q pp) j) 1 j Hj) as [_ P3]. fold X in P1, P2. fold Y in P3. rewrite P1, P2, P3. reflexivity. }
  destruct (HX (padd (pmul N (phase N s X 0) (phase N s X 0)) w2)) as (M2 & HM2 & HM2'). { intros j Hj. cbv beta. destruct (J (modulus (pa_Q pp) j) (2 ^ 37) j Hj) as [P1 _]. fold X in P1. rewrite P1. reflexivity. }
  specialize (HM1' 0%nat ltac:(lia)). specialize (HM2' 0%nat ltac:(lia)). rewrite HQ in HM1', HM2'. change (modulus shippedQ 0) with 36028797019488257 in *.
  assert (Hi : (N - 1 < N)%nat) by lia. specialize (HM1' _ Hi). specialize (HM2' _ Hi). specialize (HM1 _ Hi). specialize (HM2 _ Hi).
  assert (C : cong 36028797019488257 (M1 (N - 1)%nat) (M2 (N - 1)%nat)) by (etransitivity; [symmetry; exact HM1'|exact HM2']).
  assert (MX : forall b, peq N 0 (pmul N (mask N s (cct N 20 1 b) 0) (mask N s (cct N 20 1 b) 0)) (pscale (b * b) (pmul N (smallpoly (ones N)) (smallpoly (ones N))))).
  { intros b. rewrite (cct_mask N 20 HN s 1 b 0 0) by lia. rewrite Es. rewrite pscale_mul_l, pscale_mul_r. intros i _. apply cong_eq. unfold pscale. ring. }
  pose proof (MX (2 ^ 37) _ Hi) as E1. pose proof (MX 1 _ Hi) as E2. fold X in E1. fold Y in E2. unfold pscale in E1, E2. rewrite (ones_square N HN) in E1, E2.
  destruct E1 as [e1 E1], E2 as [e2 E2]. rewrite Z.mul_0_r in E1, E2. rewrite EN in E1, E2.
  unfold padd, mixed in HM1. unfold padd in HM2. unfold psub in HM1 at 1. unfold padd in HM1.
  set (xx := pmul N (mask N s X 0) (mask N s X 0) (N - 1)%nat) in *. set (yy := pmul N (mask N s Y 0) (mask N s Y 0) (N - 1)%nat) in *. set (pr := pmul N (phase N s X 0) (phase N s X 0) (N - 1)%nat) in *.
  specialize (Hw1 _ Hi). specialize (Hw2 _ Hi). specialize (Hw1' _ Hi). specialize (Hw2' _ Hi). unfold pscale, bigP in Hw1, Hw2. rewrite HP in Hw1, Hw2.
  assert (EB : Z.of_nat (Beta pp 20) = 21). { unfold Beta, Alpha, PCount. rewrite HP, Hgm. vm_compute. reflexivity. }
  rewrite EB in Hw1, Hw2. change (nparties X) with 1 in *. unfold mul_noise_bound, ks_noise in Hw1, Hw2. rewrite EN in Hw1, Hw2. unfold rescale_noise in Hw1', Hw2'. rewrite EN in Hw1', Hw2'. unfold raceDm in *.
  change (prodZ shippedP) with 1267650605098172093278443405313 in *. 
  destruct C as [t C]. cbv zeta in *. clear - C HM1 HM2 E1 E2 Hw1 Hw2 Hw1' Hw2'.
  generalize dependent (M1 (N - 1)%nat). generalize dependent (M2 (N - 1)%nat). generalize dependent (w1 (N - 1)%nat). generalize dependent (w2 (N - 1)%nat). generalize dependent (w1' (N - 1)%nat). generalize dependent (w2' (N - 1)%nat). clearbody xx yy pr.
  intros. change (274885378049 / 2) with 137442689024 in *. change (2 ^ 37 * 2 ^ 37 * 32768) with 618970019642690137449562112 in E1.
  assert (B1 : Z.abs z1 <= 10000000000000000000) by (clear - Hw2; lia). assert (B2 : Z.abs z2 <= 10000000000000000000) by (clear - Hw1; lia).
  assert (T : t = 0 \/ t <= -1 \/ 1 <= t) by lia. clear Hw1 Hw2. destruct T as [-> |[T|T]]; lia.
Qed.

(** two goroutines with the shipped parameters: goroutine 0 does not get its product *)
Lemma race_wrong : exists ce g A U s r rs st sched outi outj, let pp := e_pp (ce_env ce) in
  env_ok (ce_env ce) /\ ce_scale ce = sc38 /\ pa_Q pp = shippedQ /\ pa_P pp = shippedP /\ pa_logN pp = 15%nat /\ ev_ok pp st /\
  (forall i, call_ok ce g A U s r 1 1 raceDm rs 20 20 1 (rcalls (pa_N pp) i)) /\
  let w := crun ce sched (mkWorld rs (fun i => mkThread (rcalls (pa_N pp) i) CStart st)) in
  t_pc (w_t w 0%nat) = CRet outi /\ t_pc (w_t w 1%nat) = CRet outj /\
  ~ product_of ce s 1 1 raceDm 20 20 1 (rcalls (pa_N pp) 0) outi.
Proof.
  destruct race_world as (ce & st & rs & g & A & U & r & He & Hsc & Hst & HQ & HP & Hlog & Hgm & HC). cbv zeta in *.
  destruct (race_effect ce He g A U _ r 1 1 raceDm rs (fun _ => 20%nat) (fun _ => 20%nat) (fun _ => 1%nat) (rcalls (pa_N (e_pp (ce_env ce)))) HC (fun _ => st) 0%nat 1%nat) as (sched & oi & oj & H1 & H2 & H3 & H4); try reflexivity; [intros _; exact Hst|lia|].
  exists ce, g, A, U, (fun _ => smallpoly (ones (pa_N (e_pp (ce_env ce))))), r, rs, st, sched, oi, oj. cbv zeta. do 7 (split; [assumption|]). split; [exact H1|]. split; [exact H2|].
  apply (not_product ce _ oi HQ HP Hlog Hgm eq_refl). exact H3.
Qed.

(** schedules that let one goroutine finish after the other are orderly *)
Lemma cstep_others ce i j w : j <> i -> w_t (cstep ce i w) j = w_t w j.
Proof. intros H. unfold cstep. assert (E : Nat.eqb j i = false) by now apply Nat.eqb_neq. destruct (callStep _ _ _ _ _) as [[[pc rs] ev]|p]; cbn [w_t]; now rewrite E. Qed.
Lemma orderly_alone ce i w k l : (forall j, j <> i -> at_rest (t_pc (w_t w j))) -> orderly ce (crun ce (repeat i k) w) l -> orderly ce w (repeat i k ++ l).
Proof.
  revert w. induction k as [|k IH]; intros w H Hl; [exact Hl|]. cbn [repeat app]. constructor; [intros j Hj; right; auto|]. apply IH; [|exact Hl].
  intros j Hj. rewrite cstep_others by auto. auto.
Qed.
Lemma crun_others ce i j k w : j <> i -> w_t (crun ce (repeat i k) w) j = w_t w j.
Proof. intros H. revert w. induction k as [|k IH]; intros w; [reflexivity|]. cbn [repeat]. rewrite crun_cons, IH. now apply cstep_others. Qed.

Lemma race_wrong_seq : exists ce g A U s r rs st sched outi outj, let pp := e_pp (ce_env ce) in
  env_ok (ce_env ce) /\ ce_scale ce = sc38 /\ pa_Q pp = shippedQ /\ pa_P pp = shippedP /\ pa_logN pp = 15%nat /\ ev_ok pp st /\
  (forall i, call_ok ce g A U s r 1 1 raceDm rs 20 20 1 (rcalls (pa_N pp) i)) /\
  let w0 := mkWorld rs (fun i => mkThread (rcalls (pa_N pp) i) CStart st) in
  t_pc (w_t (crun ce sched w0) 0%nat) = CRet outi /\ t_pc (w_t (crun ce sched w0) 1%nat) = CRet outj /\
  ~ product_of ce s 1 1 raceDm 20 20 1 (rcalls (pa_N pp) 0) outi /\
  (forall sched', orderly ce w0 sched' -> t_pc (w_t (crun ce sched' w0) 0%nat) <> CRet outi) /\
  exists sched' a b, orderly ce w0 sched' /\ t_pc (w_t (crun ce sched' w0) 0%nat) = CRet a /\ t_pc (w_t (crun ce sched' w0) 1%nat) = CRet b.
Proof.
  destruct race_wrong as (ce & g & A & U & s & r & rs & st & sched & oi & oj & He & Hsc & HQ & HP & Hlog & Hst & HC & H1 & H2 & H3). cbv zeta in *.
  exists ce, g, A, U, s, r, rs, st, sched, oi, oj. do 10 (split; [assumption|]). set (w0 := mkWorld _ _) in *.
  pose proof (orderly_correct ce He g A U s r 1 1 raceDm rs (fun _ => 20%nat) (fun _ => 20%nat) (fun _ => 1%nat) (rcalls (pa_N (e_pp (ce_env ce)))) HC (fun _ => st)) as HO. cbv zeta beta in HO. fold w0 in HO.
  assert (Ev : nat -> ev_ok (e_pp (ce_env ce)) st) by auto.
  split. { intros sched' Ho E. destruct (HO sched' Ev Ho 0%nat) as (_ & HX & _). apply H3. exact (HX _ E). }
  assert (O0 : orderly ce w0 (repeat 0%nat 8)). { rewrite <- (app_nil_r (repeat 0%nat 8)). apply orderly_alone; [intros j _; exact I|constructor]. }
  destruct (HO _ Ev O0 0%nat) as (_ & _ & HX). destruct HX as [a Ea]; [cbn; lia|].
  assert (O1 : orderly ce w0 (repeat 0%nat 8 ++ (repeat 1%nat 8 ++ []))).
  { apply orderly_alone; [intros j _; exact I|]. apply orderly_alone; [|constructor]. intros [|j] Hj; [rewrite Ea; exact I|]. rewrite crun_others by lia. exact I. }
  destruct (HO _ Ev O1 1%nat) as (_ & _ & HX). destruct HX as [b Eb]; [cbn; lia|]. destruct (HO _ Ev O1 0%nat) as (_ & _ & HX). destruct HX as [a' Ea']; [cbn; lia|].
  exists (repeat 0%nat 8 ++ (repeat 1%nat 8 ++ [])), a', b. auto.
Qed.
