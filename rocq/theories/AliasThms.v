(** What calls return whose receiver is an operand. *)
From Coq Require Import String ZArith List Lia Bool Permutation.
From Verif Require Import Spec Go Lattigo Arith NegRing NTT F64 BasisExt RingOps Maps MapsProofs Params Elements KeySwitch KeySets KeyGen EncDec Utils Evaluator Repr SpecKeys SpecCt KSSem SpecEnc SpecEv SpecRot RotProofs RotThms MulThms RescaleProofs EvThms EvWorld ConstThms SpecAlias Alias AliasProofs AliasConst.
Import ListNotations.
Local Open Scope Z_scope.

Lemma const_in_place ce : env_ok (ce_env ce) -> let pp := e_pp (ce_env ce) in forall c ct sc l,
  (l < QCount pp)%nat -> ct_ok pp l ct -> finite c ->
  exists s cout, encoded_at (nth l (pa_Q pp) 0) [c] s /\
    (forall o, order_ok o -> MultByConstAt ce o None (KFloat c) (mkCk ct sc) = Ok (mkCk cout (fmul sc s))) /\
    ct_ok pp l cout /\ mkeys cout = mkeys ct /\
    forall sk j, (j <= l)%nat -> peq (pa_N pp) (nth j (pa_Q pp) 0) (phase (pa_N pp) sk cout j) (pscale (scaled_const c s) (phase (pa_N pp) sk ct j)).
Proof.
  intros He pp c ct sc l Hl Hc Hf. assert (HR : const_receiver pp ct ct l) by (split; [auto|split; [auto|intros id; reflexivity]]).
  destruct (mult_real ce He c ct sc ct sc l l Hl Hc HR Hf) as (s & cout & H1 & H2 & H3 & H4 & H5 & _). rewrite Nat.min_id in *. exists s, cout. split; [exact H1|]. split; [|split; [exact H3|split; [|exact H5]]].
  - intros o Ho. apply (mult_at ce He o o None (KFloat c) (mkCk ct sc) _ l l Ho Ho Hl Hc HR). exact (H2 o Ho).
  - specialize (H2 (fun _ x => x) (fun _ _ => Permutation_refl _)). unfold MultByConst in H2. cbn [c_ct c_scale] in H2.
    apply ConcProofs.bind_inv in H2 as (a & _ & H2). apply ConcProofs.bind_inv in H2 as (b & _ & H2). apply ConcProofs.bind_inv in H2 as ([[re im] s'] & _ & H2). apply ConcProofs.bind_inv in H2 as (out & E & H2). injection H2 as -> _.
    assert (G : forall L c0 c1, foldM (fun (out0 : ciphertext) u => bind (sptr ct u) (fun a0 => ctUpd out0 u (fun p => bind (mapM (fun i => bind (idx (pa_Q (e_pp (ce_env ce))) i) (fun q => bind (idx (pa_psiQ (e_pp (ce_env ce))) i) (fun psi => bind (multConsts ce re im s' q psi) (fun '(lo, hi) => bind (idx (p_co a0) i) (fun x => Ok (mulHalves ce q lo hi x)))))) (seq 0 (Nat.min a b + 1))) (fun ls => write (Nat.min a b) ls p)))) L c0 = Ok c1 -> mkeys c1 = mkeys c0).
    { clear. induction L as [|u L IH]; intros c0 c1 E; cbn [foldM] in E; [now injection E as <-|]. apply ConcProofs.bind_inv in E as (c2 & E1 & E). rewrite (IH _ _ E). apply ConcProofs.bind_inv in E1 as (a0 & _ & E1). apply ctUpd_inv in E1 as (p & p' & Ep & _ & ->).
      apply (mkeys_mset_in _ seqb). eapply (mget_key _ seqb); eauto. }
    exact (G _ _ _ E).
Qed.
Lemma const_any ce : env_ok (ce_env ce) -> let pp := e_pp (ce_env ce) in forall c o o' l,
  order_ok o -> order_ok o' -> (l < QCount pp)%nat ->
  (forall ct r, ct_ok pp l (c_ct ct) -> MultByConst ce o ct c ct = Ok r -> MultByConstAt ce o' None c ct = Ok r) /\
  (forall ct0 ct l1 r, ct_ok pp l (c_ct ct0) -> const_receiver pp (c_ct ct0) (c_ct ct) l1 -> MultByConst ce o ct0 c ct = Ok r -> MultByConstAt ce o' (Some ct0) c ct = Ok r).
Proof.
  intros He pp c o o' l Ho Ho' Hl. split.
  - intros ct r Hc E. apply (mult_at ce He o o' None c ct r l l); auto. split; [auto|split; [auto|intros id; reflexivity]].
  - intros ct0 ct l1 r Hc HR E. apply (mult_at ce He o o' (Some ct0) c ct r l l1); auto.
Qed.
Lemma rescale_in_place ce : env_ok (ce_env ce) -> let pp := e_pp (ce_env ce) in forall ct scale thr l n,
  (l < QCount pp)%nat -> ct_ok pp l ct -> ~ rescale_err l scale thr -> rescale_count (pa_Q pp) l scale (fdiv thr (f_of_Z 2)) n -> n <> O ->
  exists cout, rescaled pp l n ct cout /\ reduced pp (l - n) cout /\
    forall o st, order_ok o -> ev_ok pp st -> exists st', RescaleAt ce o None thr (mkCk ct scale) st = Ok (None, mkCk cout (scale_after (pa_Q pp) l scale n), st') /\ ev_ok pp st'.
Proof.
  intros He pp ct scale thr l n Hl Hc He1 Hr Hn. destruct (rescale_into ce He ct scale thr ct scale l n Hl Hc Hc (fun x => iff_refl _) He1 Hr Hn) as (cout & H1 & H2 & H3). exists cout. split; [exact H1|]. split; [exact H2|].
  intros o st Ho Hst. rewrite rescale_self; [apply H3; auto|exact Ho|apply Hc].
Qed.
Lemma rotate_in_place env : env_ok env -> let pp := e_pp env in forall g s Bs Be Dm ct l rks k m h,
  rot_setting pp g s Bs Dm ct l -> 0 <= m -> cong (Z.of_nat (pa_N pp) / 2) k m -> rot_keys pp g Be s ct (normNeg (pa_logN pp) k) rks -> maybe_hoisted_at env l ct h ->
  exists cout, auto_result pp s l ct (5 ^ m) (step_noise pp l ct Bs Be Dm) cout /\
    forall o kp, order_ok o -> pool_ok pp kp -> exists ct' kp', RotateAt env o None k h rks ct kp = Ok (ct', kp') /\ pool_ok pp kp' /\ same_ct ct' cout.
Proof.
  intros He pp g s Bs Be Dm ct l rks k m h HS Hm Hk HR Hh. destruct (rot_step env He g s Bs Be Dm ct l l rks k m h HS (le_n l) Hm Hk HR Hh) as (cout & HA & H). exists cout. split; [exact HA|].
  intros o kp Ho Hkp. pose proof (rs_ct _ _ _ _ _ _ _ HS) as Hc. destruct (H ct ct o h kp) as (ct' & k' & E & P & _ & S); auto.
  - split; [apply Hc|split; [apply Hc|reflexivity]].
  - intros x; reflexivity.
  - exists ct', k'. rewrite rotate_self; auto. apply Hc.
Qed.
Lemma mul_in_place env : env_ok env -> forall g A U s r Bs Be Dm op0 op1 l0 l1 rlks h0 h1,
  mul_setting (e_pp env) g A U s r Bs Be Dm op0 op1 l0 l1 rlks -> (l0 <= l1)%nat -> (forall id, In id (mkeys op1) -> In id (mkeys op0)) ->
  hoisted_at env l0 op0 h0 -> maybe_hoisted_at env l1 op1 h1 ->
  exists ct' w,
    pnorm_le (pa_N (e_pp env)) (pscale (bigP (e_pp env)) w)
      (mul_noise_bound (pa_N (e_pp env)) (nparties op0) (nparties op1) (Z.of_nat (Beta (e_pp env) l0)) Bs Be Dm (bigP (e_pp env))) /\
    ct_ok (e_pp env) l0 ct' /\ mkeys ct' = mkeys op0 /\
    (forall j, (j <= l0)%nat -> peq (pa_N (e_pp env)) (modulus (pa_Q (e_pp env)) j) (phase (pa_N (e_pp env)) s ct' j)
       (padd (pmul (pa_N (e_pp env)) (phase (pa_N (e_pp env)) s op0 j) (phase (pa_N (e_pp env)) s op1 j)) w)) /\
    forall o k, order_ok o -> pool_ok (e_pp env) k ->
      exists k', MulAndRelinAt env o None (Some op1) (Some h0) h1 rlks op0 k = Ok (ct', k') /\ pool_ok (e_pp env) k'.
Proof.
  intros He g A U s r Bs Be Dm op0 op1 l0 l1 rlks h0 h1 HS Hl Hk Hh0 Hh1. pose proof (ms_op0 _ _ _ _ _ _ _ _ _ _ _ _ _ _ HS) as Hc.
  destruct (mul_correct env He g A U s r Bs Be Dm op0 op1 l0 l1 l0 rlks op0 (Some h0) h1 HS) as (ct' & w & H1 & H2 & _ & H4 & H5 & H6); auto.
  - split; [exact Hc|]. split; [lia|]. split; [lia|]. intros id. split; [auto|]. intros [?|?]; auto.
  - exists ct', w. split; [exact H1|]. split; [exact H2|]. split; [exact H4|]. split; [exact H5|]. intros o k Ho Hkp. rewrite mul_self; [apply H6; auto|exact Ho|apply Hc].
Qed.
