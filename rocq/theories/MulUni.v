(** Multiplication: one result for all orders, evaluator states, key-set pools and hoisted forms. *)
From Coq Require Import String ZArith Znumtheory List Lia Setoid Morphisms Bool Permutation.
From Verif Require Import Spec SpecProofs Go GoProofs Lattigo LattigoProofs Arith Fermat NegRing NegRingProofs NTT NTTProofs F64 BasisExt BasisExtProofs ModDownProofs DecomposeProofs RingOps RingOpsProofs Maps MapsProofs Params Elements KeySwitch KeySets EncDec Utils Evaluator KSProofs KSMulProofs Crt ParamsProofs KSAlg KSNorm Repr SpecCt KSSem MulThms SpecEnc EncProofs EncThms CkEncThms SpecEv EvProofs RescaleProofs EvThms AddThms MulEvThms KeyGenProofs.
Import ListNotations.
Local Open Scope Z_scope.
Local Open Scope list_scope.

Section C.
Context (ce : ckenv).
Notation pp := (e_pp (ce_env ce)).
Context (He : env_ok (ce_env ce)).
Notation N := (pa_N pp).
Notation rQ := (ringQ pp).
Let Hpp : params_ok pp := eo_pp _ He.

(** every ciphertext has a hoisted form *)
Lemma hoisted_ex l op : (l < QCount pp)%nat -> ct_ok pp l op -> exists h, hoisted_at (ce_env ce) l op h.
Proof.
  intros Hl Hc. destruct (ids_of_ct_ok op (ck_nd _ _ _ Hc)) as [ND I0]. destruct (ct_lift (ce_env ce) He l op Hl Hc) as (f & Hf). pose proof (NewKS_pool (ce_env ce) (e_lz (ce_env ce))) as Hk.
  destruct (choose_str [] (ids_of_ct op) (fun id s => exists p k', sget op id = Some p /\ Decompose (ce_env ce) l p (NewSwitchingKey pp) (snd (NewKeySwitcher (e_lz (ce_env ce)) pp)) = Ok (s, k'))) as (S & HS).
  { intros id Hin. apply I0 in Hin as [Hin _]. destruct (Hf id Hin) as (p & E & HP & Hn & _ & Hsh). destruct (digits_exist (ce_env ce) He l (p_co p) Hl) as (D & HD). { eapply (prep_input (ce_env ce) l (p_co p) (f id) (fun q => q + 1)); eauto. intros; lia. }
    destruct (Decompose_ok (ce_env ce) He l p D (NewSwitchingKey pp) _ Hl (dsrc_coeff (ce_env ce) l p D Hn HD) (NewSwk_ok pp) Hk) as (s & k & Ed & _). exists s, p, k. auto. }
  exists (map (fun id => (id, S id)) (ids_of_ct op)). intros id Hp. apply I0 in Hp. destruct (HS id Hp) as (p & k' & E & Ed). exists p, (NewSwitchingKey pp), (S id), (snd (NewKeySwitcher (e_lz (ce_env ce)) pp)), k'.
  split; [auto|]. split; [|split; [apply NewSwk_ok|auto]]. clear - Hp ND. induction (ids_of_ct op) as [|i L IH]; [contradiction|]. cbn. destruct (String.eqb_spec id i) as [->|Hne]; [reflexivity|]. destruct Hp as [->|Hp]; [congruence|]. apply IH; auto. now inversion ND.
Qed.

(** up to the rescaling *)
Lemma mul_body_u g A U s r Bs Be Dm op0 op1 sc0 sc1 l0 l1 rlks r0 r1 :
  mul_setting pp g A U s r Bs Be Dm op0 op1 l0 l1 rlks -> maybe_hoisted_at (ce_env ce) l0 op0 r0 -> maybe_hoisted_at (ce_env ce) l1 op1 r1 ->
  let l := Nat.min l0 l1 in
  exists cr F w, ct_ok pp l cr /\ reduced pp l cr /\ lifts ce l cr F /\ (forall id, In id (mkeys cr) <-> In id (mkeys op0) \/ In id (mkeys op1)) /\
    pnorm_le N (pscale (bigP pp) w) (mul_noise_bound N (nparties op0) (nparties op1) (Z.of_nat (Beta pp l)) Bs Be Dm (bigP pp)) /\
    (forall j, (j <= l)%nat -> peq N (modulus (pa_Q pp) j) (phase N s cr j) (padd (pmul N (phase N s op0 j) (phase N s op1 j)) w)) /\
    forall o st h0 h1, order_ok o -> ev_ok pp st -> hoisted_like (ce_env ce) l0 op0 r0 h0 -> hoisted_like (ce_env ce) l1 op1 r1 h1 ->
      exists c st1, ev_ok pp st1 /\ same_ct c cr /\ ct_ok pp l c /\ lifts ce l c F /\
        MulRelinHoistedNew ce o (mkCk op0 sc0) (mkCk op1 sc1) h0 h1 rlks st = bind (Rescale ce o (mkCk c (fmul sc0 sc1)) (ce_scale ce) (mkCk c (fmul sc0 sc1)) st1) (fun '(_, ct, st) => Ok (ct, st)).
Proof.
  intros HS Hh0 Hh1 l. pose proof HS as [M0 M1 L0 L1 _ _ _ _ _]. assert (Hl : (l < QCount pp)%nat) by lia.
  destruct (mul_uniform (ce_env ce) He g A U s r Bs Be Dm op0 op1 l0 l1 l rlks r0 r1 HS ltac:(lia) ltac:(lia) Hh0 Hh1) as (F & w & Hw & HF).
  assert (HZ : forall o ids, order_ok o -> (forall x, In x (mkeys ids) <-> (In x (mkeys op0) \/ In x (mkeys op1)) /\ x <> "0"%string) -> mul_receiver pp op0 op1 l0 l1 l (NewCiphertext o pp ids l)).
  { intros o ids Ho K. split; [now apply fresh_ok|]. split; [lia|]. split; [lia|]. intros id. destruct (NewCiphertext_ok o pp ids l Ho) as (_ & B2 & _). rewrite B2, K. destruct (string_dec id "0"%string) as [->|]; [|tauto]. pose proof (ck_0 _ _ _ M0). tauto. }
  destruct (binary_ids ce o_id op0 op1 sc0 sc1 l0 l1 o_id_ok M0 M1) as (idr & _ & Kr). pose proof (HZ o_id idr o_id_ok Kr) as Hzr. set (zr := NewCiphertext o_id pp idr l) in *.
  destruct (HF zr Hzr) as (cr & C1 & C2 & C3 & C4 & C5 & _).
  assert (HL : forall c z : ciphertext, ct_ok pp l c -> mkeys c = mkeys z -> (forall id, In id (mkeys z) -> exists p, sget c id = Some p /\ prep rQ (fun q => q) (l + 1) (p_co p) (F id)) -> lifts ce l c F /\ forall id, In id (mkeys z) -> sget c id = Some (canon ce l (F id))).
  { intros c z Hc Hk HP. split.
    - intros id Hi. rewrite Hk in Hi. destruct (HP id Hi) as (p & Ep & Hpr). destruct (ck_comp _ _ _ Hc id p Ep) as (Q1 & Q2 & _). exists p. split; [auto|]. split; [|auto]. eapply (held_mono pp false _ (fun q => q + 1)); [|exact Hpr]. intros q. cbn beta. lia.
    - intros id Hi. destruct (HP id Hi) as (p & Ep & Hpr). destruct (ck_comp _ _ _ Hc id p Ep) as (Q1 & Q2 & _). rewrite Ep. f_equal. now apply (canon_eq ce He). }
  destruct (HL cr zr C1 C3 C5) as [HLr HGr]. destruct Hzr as (Z1 & _ & _ & Zk).
  exists cr, F, w. split; [auto|]. split; [auto|]. split; [auto|]. split. { intros id. rewrite C3. apply Zk. } split; [exact Hw|]. split; [exact C4|].
  intros o st h0 h1 Ho Hst K0 K1. unfold MulRelinHoistedNew, mulRelinHoisted. destruct (binary_ids ce o op0 op1 sc0 sc1 l0 l1 Ho M0 M1) as (ids & -> & K). cbn [bind c_ct c_scale].
  fold l. pose proof (HZ o ids Ho K) as Hz. set (z := NewCiphertext o pp ids l) in *. pose proof Hz as (Y1 & _ & _ & Yk).
  rewrite (ct_level (ce_env ce) l0 op0 M0), (ct_level (ce_env ce) l1 op1 M1), (ct_level (ce_env ce) l z Y1). cbn [bind]. fold l. rewrite Nat.min_id, Nat.ltb_irrefl. cbn [bind c_ct].
  destruct (HF z Hz) as (c & D1 & D2 & D3 & D4 & D5 & D6). destruct (D6 o (ev_k st) h0 h1 Ho (eo_k _ _ Hst) K0 K1) as (k' & E & Hk'). rewrite E. cbn [bind].
  destruct (HL c z D1 D3 D5) as [HLc HGc]. exists c, (set_k k' st). split; [now apply set_k_ok|]. split; [|split; [auto|split; [auto|reflexivity]]].
  split; [apply D1|]. split; [apply C1|]. intros id. assert (KK : In id (mkeys z) <-> In id (mkeys zr)) by (rewrite Yk, Zk; reflexivity).
  destruct (in_dec string_dec id (mkeys z)) as [Hi|Hi]. { rewrite (HGc id Hi). symmetry. now apply HGr, KK. }
  assert (G : forall m : ciphertext, ~ In id (mkeys m) -> sget m id = None). { intros m Hm. destruct (sget m id) eqn:E'; auto. apply (mget_key _ seqb) in E'. contradiction. }
  rewrite !G; auto; [rewrite C3; intros X; apply Hi; now apply KK|now rewrite D3].
Qed.
(** with the rescaling *)
Lemma mul_hoisted_u g A U s r Bs Be Dm op0 op1 sc0 sc1 l0 l1 rlks r0 r1 :
  mul_setting pp g A U s r Bs Be Dm op0 op1 l0 l1 rlks -> maybe_hoisted_at (ce_env ce) l0 op0 r0 -> maybe_hoisted_at (ce_env ce) l1 op1 r1 ->
  let run o st h0 h1 := MulRelinHoistedNew ce o (mkCk op0 sc0) (mkCk op1 sc1) h0 h1 rlks st in
  let ready o st h0 h1 := order_ok o /\ ev_ok pp st /\ hoisted_like (ce_env ce) l0 op0 r0 h0 /\ hoisted_like (ce_env ce) l1 op1 r1 h1 in
  (forall n, rescale_steps (pa_Q pp) (Nat.min l0 l1) (fmul sc0 sc1) (ce_scale ce) n ->
     exists cout, mul_result pp s Bs Be Dm op0 op1 (Nat.min l0 l1) n (fmul sc0 sc1) cout /\
     forall o st h0 h1, ready o st h0 h1 -> exists out st', run o st h0 h1 = Ok (out, st') /\ same_ct (c_ct out) (c_ct cout) /\ c_scale out = c_scale cout /\ ev_ok pp st') /\
  (~ (exists n, rescale_steps (pa_Q pp) (Nat.min l0 l1) (fmul sc0 sc1) (ce_scale ce) n) -> forall o st h0 h1, ready o st h0 h1 -> run o st h0 h1 = Panic PIndex).
Proof.
  intros HS Hh0 Hh1 run ready. pose proof HS as [M0 M1 L0 L1 _ _ Hs _ _]. set (l := Nat.min l0 l1). assert (Hl : (l < QCount pp)%nat) by lia.
  destruct (mul_body_u g A U s r Bs Be Dm op0 op1 sc0 sc1 l0 l1 rlks r0 r1 HS Hh0 Hh1) as (cr & F & w & Hc & Hr & Hf & Hk & Hw & Hp & HB). fold l in Hc, Hr, Hf, Hw, Hp, HB. split.
  - intros n Hn. pose proof (steps_le ce _ _ _ _ Hn) as Hnl. destruct (rs_out_rescaled ce He l n cr F cr Hl Hnl Hc Hf (ck_nd _ _ _ Hc)) as [HR _]; [tauto|auto|].
    assert (Hsec : secrets_le pp s Bs cr). { intros id [Hi Hne]. apply Hk in Hi. apply Hs. unfold party. tauto. }
    destruct (rescaled_phase pp Hpp l n cr (rs_out ce l n F cr) s Bs Hnl Hl (ck_nd _ _ _ Hc) (ck_0 _ _ _ Hc) HR Hsec) as (w' & Hw' & Hp').
    exists (mkCk (rs_out ce l n F cr) (scale_after (pa_Q pp) l (fmul sc0 sc1) n)). split.
    + exists w, w'. cbn [c_ct c_scale]. split; [apply HR|]. split; [now apply (rs_out_reduced ce He)|]. split. { intros id. rewrite rs_out_keys. apply Hk. } split; [reflexivity|]. split; [exact Hw|]. split.
      * unfold nparties in *. rewrite rs_out_keys. exact Hw'.
      * eapply divided_ext; [exact Hp'| |reflexivity]. intros j Hj. apply (Hp j ltac:(lia)).
    + intros o st h0 h1 (Ho & Hst & K0 & K1). destruct (HB o st h0 h1 Ho Hst K0 K1) as (c & st1 & Hst1 & HSm & D1 & D3 & E). unfold run. rewrite E.
      destruct (rescale_here ce He l n c F (fmul sc0 sc1) (ce_scale ce) o st1 Hl D1 D3 Ho) as (e & st' & Er & Hst'); auto. rewrite Er. cbn [bind].
      eexists _, st'. split; [reflexivity|]. cbn [c_ct c_scale]. split; [now apply rs_out_same|auto].
  - intros Hn o st h0 h1 (Ho & Hst & K0 & K1). destruct (HB o st h0 h1 Ho Hst K0 K1) as (c & st1 & Hst1 & HSm & D1 & D3 & E). unfold run. rewrite E.
    rewrite (rs_none_exhausted ce l _ _ o st1 c F Hl D1 D3 Hn). reflexivity.
Qed.
(** MulRelinNew, and MulRelinHoistedNew with hoisted forms of both operands *)
Lemma mul_relin_u g A U s r Bs Be Dm op0 op1 sc0 sc1 l0 l1 rlks :
  mul_setting pp g A U s r Bs Be Dm op0 op1 l0 l1 rlks ->
  let ready (same : bool) rs o st := rs_keys rs = rlks /\ hoist_ready pp (rs_h0 rs) op0 /\ (if same then op1 = op0 else hoist_ready pp (rs_h1 rs) op1) /\ order_ok o /\ ev_ok pp st in
  let run same rs o st := MulRelinNew ce o same (mkCk op0 sc0) (mkCk op1 sc1) rs st in
  (forall n, rescale_steps (pa_Q pp) (Nat.min l0 l1) (fmul sc0 sc1) (ce_scale ce) n ->
     exists cout, mul_result pp s Bs Be Dm op0 op1 (Nat.min l0 l1) n (fmul sc0 sc1) cout /\
     (forall same rs o st, ready same rs o st -> exists out rs' st', run same rs o st = Ok (out, rs', st') /\ same_ct (c_ct out) (c_ct cout) /\ c_scale out = c_scale cout /\ ev_ok pp st' /\
       rs_keys rs' = rs_keys rs /\ (forall c, hoist_ready pp (rs_h0 rs) c -> hoist_ready pp (rs_h0 rs') c) /\ (forall c, hoist_ready pp (rs_h1 rs) c -> hoist_ready pp (rs_h1 rs') c)) /\
     forall h0 h1 o st, hoisted_at (ce_env ce) l0 op0 h0 -> hoisted_at (ce_env ce) l1 op1 h1 -> order_ok o -> ev_ok pp st ->
       exists out st', MulRelinHoistedNew ce o (mkCk op0 sc0) (mkCk op1 sc1) (Some h0) (Some h1) rlks st = Ok (out, st') /\ same_ct (c_ct out) (c_ct cout) /\ c_scale out = c_scale cout /\ ev_ok pp st') /\
  (~ (exists n, rescale_steps (pa_Q pp) (Nat.min l0 l1) (fmul sc0 sc1) (ce_scale ce) n) -> forall same rs o st, ready same rs o st -> run same rs o st = Panic PIndex).
Proof.
  intros HS ready run. pose proof HS as [M0 M1 L0 L1 _ _ _ _ _]. destruct (hoisted_ex l0 op0 L0 M0) as (r0 & R0). destruct (hoisted_ex l1 op1 L1 M1) as (r1 & R1).
  destruct (mul_hoisted_u g A U s r Bs Be Dm op0 op1 sc0 sc1 l0 l1 rlks (Some r0) (Some r1) HS R0 R1) as [G1 G2].
  assert (LK : forall l op r h, hoisted_at (ce_env ce) l op h -> hoisted_like (ce_env ce) l op (Some r) (Some h)) by (intros l op r' h Hh; exists h; auto). split.
  - intros n Hn. destruct (G1 n Hn) as (cout & HR & HO). exists cout. split; [exact HR|]. split.
    + intros same rs o st (<- & Q0 & Q1 & Ho & Hst). destruct (rel_body ce He g A U s r Bs Be Dm op0 op1 sc0 sc1 l0 l1 rs same o st HS Q1 Q0 Ho Hst) as (h0 & h1 & rs' & st1 & E & H0 & H1 & Hst1 & R).
      destruct (HO o st1 (Some h0) (Some h1)) as (out & st' & E2 & X1 & X2 & X3). { split; [auto|]. split; [auto|]. split; now apply LK. }
      unfold run. rewrite E, E2. cbn [bind]. exists out, rs', st'. auto.
    + intros h0 h1 o st H0 H1 Ho Hst. apply HO. split; [auto|]. split; [auto|]. split; now apply LK.
  - intros Hn same rs o st (<- & Q0 & Q1 & Ho & Hst). destruct (rel_body ce He g A U s r Bs Be Dm op0 op1 sc0 sc1 l0 l1 rs same o st HS Q1 Q0 Ho Hst) as (h0 & h1 & rs' & st1 & E & H0 & H1 & Hst1 & R).
    unfold run. rewrite E, (G2 Hn); [reflexivity|]. split; [auto|]. split; [auto|]. split; now apply LK.
Qed.
End C.
