(** What MulPtxtNew and MulRelinNew compute. *)
From Coq Require Import String ZArith Znumtheory List Lia Setoid Morphisms Bool Permutation.
From Verif Require Import Spec SpecProofs Go GoProofs Lattigo LattigoProofs Arith Fermat NegRing NegRingProofs NTT NTTProofs F64 BasisExt BasisExtProofs ModDownProofs DecomposeProofs RingOps RingOpsProofs Maps MapsProofs Params Elements KeySwitch KeySets EncDec Utils Evaluator KSProofs KSMulProofs Crt ParamsProofs KSAlg KSNorm Repr SpecCt KSSem MulThms SpecEnc EncProofs EncThms CkEncThms SpecEv EvProofs RescaleProofs EvThms AddThms.
Import ListNotations.
Local Open Scope Z_scope.
Local Open Scope list_scope.

Lemma upd_all_ext L L' G ct : (forall id, In id L <-> In id L') -> upd_all L G ct = upd_all L' G ct.
Proof.
  intros H. unfold upd_all. apply map_ext. intros [k p]. cbn. assert (X : inb k L = inb k L'); [|now rewrite X].
  destruct (inb k L) eqn:A, (inb k L') eqn:B; auto; exfalso.
  - apply inb_In, H, inb_In in A. congruence.
  - apply inb_In, H, inb_In in B. congruence.
Qed.

Section C.
Context (ce : ckenv).
Notation pp := (e_pp (ce_env ce)).
Context (He : env_ok (ce_env ce)).
Notation N := (pa_N pp).
Notation rQ := (ringQ pp).
Notation qq j := (nth j (pa_Q pp) 0).
Let Hpp : params_ok pp := eo_pp _ He.
Let HrQ : ring_ok rQ := po_rQ _ Hpp.
Let HN : (0 < N)%nat := deg_pos _.

(** Rescale with the operand as receiver, as the multiplications call it *)
Lemma rescale_here l n ct f sc thr o st : (l < QCount pp)%nat -> ct_ok pp l ct -> lifts ce l ct f -> order_ok o -> ev_ok pp st -> rescale_steps (pa_Q pp) l sc thr n ->
  exists e st', Rescale ce o (mkCk ct sc) thr (mkCk ct sc) st = Ok (e, mkCk (rs_out ce l n f ct) (scale_after (pa_Q pp) l sc n), st') /\ ev_ok pp st'.
Proof.
  intros Hl Hc Hf Ho Hst Hs. destruct (Rescale_gen ce He l n ct sc thr f ct sc o st) as (e & st' & E & Hst' & Hee); auto.
  { apply Hc. } { split; [apply Hc|]. intros id p Ep. destruct (ck_comp _ _ _ Hc id p Ep) as (A & B & _). auto. }
  exists e, st'. split; [|exact Hst']. rewrite E. do 4 f_equal. destruct e; [|reflexivity].
  assert (n = O) as ->; [|reflexivity]. destruct Hs as [[_ ->]|[H _]]; [reflexivity|]. exfalso. apply H, Hee. discriminate.
Qed.
Lemma steps_le l sc thr n : rescale_steps (pa_Q pp) l sc thr n -> (n <= l)%nat.
Proof. intros [[_ ->]|[_ [H _]]]; lia. Qed.
Lemma rs_out_reduced l n f ct : (l < QCount pp)%nat -> (n <= l)%nat -> ct_ok pp l ct -> lifts ce l ct f -> reduced pp l ct -> reduced pp (l - n) (rs_out ce l n f ct).
Proof.
  intros Hl Hn Hc Hf Hr. destruct n as [|n]. { rewrite Nat.sub_0_r. exact Hr. }
  destruct (rs_out_rescaled ce He l (S n) ct f ct) as [_ H]; auto; [apply Hc|tauto].
Qed.
(** a ciphertext given by integer polynomials *)
Lemma canon_ct l (F : string -> zpoly) (z : ciphertext) : (l < QCount pp)%nat -> NoDup (mkeys z) -> In "0"%string (mkeys z) ->
  let c := upd_all (mkeys z) (fun id => canon ce l (F id)) z in
  ct_ok pp l c /\ reduced pp l c /\ lifts ce l c F /\ mkeys c = mkeys z /\ forall id j, In id (mkeys z) -> (j <= l)%nat -> peq N (qq j) (limb c id j) (F id).
Proof.
  intros Hl H1 H0 c. assert (G : forall id, In id (mkeys z) -> sget c id = Some (canon ce l (F id))) by (intros id Hi; now apply full_get).
  assert (K : mkeys c = mkeys z) by apply upd_all_keys.
  assert (I : forall id p, sget c id = Some p -> In id (mkeys z) /\ p = canon ce l (F id)). { intros id p E. assert (Hi : In id (mkeys z)) by (rewrite <- K; eapply mget_key; eauto; exact seqb). split; [auto|]. rewrite (G id Hi) in E. now injection E. }
  split; [|split; [|split; [|split]]].
  - constructor; rewrite ?K; auto. intros id p E. destruct (I id p E) as [_ ->]. destruct (canon_held ce He l (F id) Hl) as [_ HL]. split; [reflexivity|]. split; [exact HL|].
    intros j Hj. destruct (canon_limb_ok ce He l (F id) j Hl Hj) as [A B]. split; [exact A|]. intros x Hx. specialize (B x Hx). lia.
  - intros id p E j x Hj Hx. destruct (I id p E) as [_ ->]. now apply canon_limb_ok.
  - intros id Hi. rewrite K in Hi. exists (canon ce l (F id)). split; [auto|]. destruct (canon_held ce He l (F id) Hl) as [HP HL]. split; [|split; [reflexivity|exact HL]].
    eapply (held_mono pp false _ (fun q => q + 1)); [|exact HP]. intros q. cbn beta. lia.
  - exact K.
  - intros id j Hi Hj x Hx. unfold limb. rewrite (G id Hi). destruct (canon_held ce He l (F id) Hl) as [(_ & _ & HP) _]. destruct (HP j ltac:(lia)) as [_ Q]. now apply (Q x Hx).
Qed.

(** MulPtxtNew up to the rescaling *)
Lemma ptxt_body ct sc pt ptScale M l : (l < QCount pp)%nat -> ct_ok pp l ct -> prep rQ (fun q => q + 1) (l + 1) (p_co pt) M ->
  exists cr F, ct_ok pp l cr /\ reduced pp l cr /\ lifts ce l cr F /\ same_keys cr ct /\
    (forall s j, (j <= l)%nat -> peq N (modulus (pa_Q pp) j) (phase N s cr j) (pmul N M (phase N s ct j))) /\
    forall o st, order_ok o -> ev_ok pp st -> exists c st1, ev_ok pp st1 /\ same_ct c cr /\ ct_ok pp l c /\ lifts ce l c F /\
      MulPtxtNew ce o (mkCk ct sc) pt ptScale st = bind (Rescale ce o (mkCk c (fmul sc ptScale)) (ce_scale ce) (mkCk c (fmul sc ptScale)) st1) (fun '(_, ct, st) => Ok (ct, st)).
Proof.
  intros Hl Hc HM.
  destruct (lifts_ex ce He l ct Hl Hc) as (f & Hf). pose proof (ck_0 _ _ _ Hc) as H0. set (F := fun id => pmul N (f id) M).
  destruct (ctIDSet_ok o_id ct o_id_ok) as (idr & _ & _ & Kr). set (zr := NewCiphertext o_id pp idr l).
  assert (KZ : forall ids o, order_ok o -> (forall x, In x (mkeys ids) <-> In x (mkeys ct) /\ x <> "0"%string) -> NoDup (mkeys (NewCiphertext o pp ids l)) /\ forall id, In id (mkeys (NewCiphertext o pp ids l)) <-> In id (mkeys ct)).
  { intros ids o Ho Hi. destruct (NewCiphertext_ok o pp ids l Ho) as (B1 & B2 & _). split; [auto|]. intros id. rewrite B2, Hi. destruct (string_dec id "0"%string) as [->|]; tauto. }
  destruct (KZ idr o_id o_id_ok Kr) as [Zn Zk]. fold zr in Zn, Zk. set (cr := upd_all (mkeys zr) (fun id => canon ce l (F id)) zr).
  destruct (canon_ct l F zr Hl Zn (proj2 (Zk _) H0)) as (C1 & C2 & C3 & C4 & C5). fold cr in C1, C2, C3, C4, C5.
  exists cr, F. split; [auto|]. split; [auto|]. split; [auto|]. split. { intros id. rewrite C4. apply Zk. } split.
  { intros s j Hj. rewrite (phase_over pp (modulus (pa_Q pp) j) s cr j (mkeys ct)); [|apply C1|apply Hc|intros x; rewrite C4; apply Zk]. unfold phase. rewrite <- psumL_mul_l by auto. apply psumL_ext. intros id Hi.
    destruct (Hf id Hi) as (p & Ep & HP & _). rewrite (C5 id j (proj2 (Zk id) Hi) ltac:(lia)). rewrite (limb_prep (ce_env ce) l (fun q => q + 1) ct id p (f id) j Ep HP ltac:(lia)). unfold F.
    rewrite (pmul_comm N HN (modulus (pa_Q pp) j) (f id) M), !(pmul_assoc N HN (modulus (pa_Q pp) j)). apply pmul_proper; [|reflexivity]. now apply pmul_comm. }
  intros o st Ho Hst. unfold MulPtxtNew. cbn [c_ct c_scale]. destruct (ctIDSet_ok o ct Ho) as (ids & -> & _ & Ki). cbn [bind]. rewrite (ct_level (ce_env ce) l ct Hc). cbn [bind].
  unfold ckNewCiphertext. cbn [cp_pp c_ct c_scale]. set (z := NewCiphertext o pp ids l). destruct (KZ ids o Ho Ki) as [Yn Yk]. fold z in Yn, Yk.
  pose proof (eo_q _ _ Hst) as Hq.
  destruct (NTTLvl_ok rQ HrQ _ l pt (ev_q st) M HM ltac:(lia)) as (q1 & E1 & W1 & N1). rewrite E1. cbn [bind].
  destruct (MFormLvl_ok rQ HrQ l q1 q1 M N1 ltac:(rewrite (wlen W1); lia)) as (q2 & E2 & W2 & N2). rewrite E2. cbn [bind].
  match goal with |- context [foldM ?S (o 1%nat (mkeys ct)) z] => assert (X : foldM S (o 1%nat (mkeys ct)) z = Ok (upd_all (o 1%nat (mkeys ct)) (fun id => canon ce l (F id)) z)) end.
  { apply fold_upd0; auto. { eapply Permutation_NoDup; [symmetry; apply Ho|apply Hc]. } 2:{ intros id Hi. apply Yk. eapply Permutation_in; [apply Ho|exact Hi]. }
    intros c id Hi Hk Hg. assert (Hi' : In id (mkeys ct)) by (eapply Permutation_in; [apply Ho|exact Hi]).
    destruct (Hf id Hi') as (a & Ea & HP & _). unfold mptr. rewrite Ea. cbn [bind]. destruct (mget_ex _ seqb z id (proj2 (Yk id) Hi')) as (p & Ep). rewrite Ep in Hg.
    destruct (NewCiphertext_ok o pp ids l Ho) as (_ & _ & B3). pose proof (B3 id p Ep) as Eqp. assert (Lp : plen p = (l + 1)%nat) by (rewrite Eqp; unfold plen, newPoly; cbn; now rewrite repeat_length).
    destruct (NTTLvl_ok rQ HrQ _ l a p (f id) HP ltac:(lia)) as (p1 & F1 & V1 & M1).
    destruct (MulMont_ok rQ HrQ l p1 q2 p1 (f id) (pscale W M) (F id) (nrep_nrepb _ _ _ _ M1) N2 ltac:(rewrite (wlen V1); lia) (montprod_r _ _ _ _)) as (p2 & F2 & V2 & M2).
    destruct (InvNTTLvl_ok rQ HrQ l p2 p2 (F id) M2 ltac:(rewrite (wlen V2), (wlen V1); lia)) as (p3 & F3 & V3 & M3).
    rewrite (ctUpd_ok c id _ p p3 Hg) by (rewrite F1; cbn [bind]; rewrite F2; cbn [bind]; exact F3). do 2 f_equal.
    apply (canon_eq ce He l p3 (F id) Hl); [rewrite (wntt V3), (wntt V2), (wntt V1), Eqp; reflexivity|rewrite (wlen V3), (wlen V2), (wlen V1); auto|exact M3]. }
  rewrite X. cbn [bind]. clear X. rewrite (upd_all_ext (o 1%nat (mkeys ct)) (mkeys z)).
  2:{ intros id. rewrite Yk. split; intros Hi; (eapply Permutation_in; [|exact Hi]); [|symmetry]; apply Ho. }
  destruct (canon_ct l F z Hl Yn (proj2 (Yk _) H0)) as (D1 & D2 & D3 & D4 & D5). set (c := upd_all (mkeys z) (fun id => canon ce l (F id)) z) in *.
  exists c, (set_q q2 st). split. { apply set_q_ok; auto. rewrite (wlen W2), (wlen W1). auto. } split; [|split; [auto|split; [auto|reflexivity]]].
  apply full_same. apply NewCt_same; auto using o_id_ok. intros x. rewrite Ki, Kr. tauto.
Qed.
Lemma rs_none_exhausted l sc thr o st ct f : (l < QCount pp)%nat -> ct_ok pp l ct -> lifts ce l ct f -> ~ (exists n, rescale_steps (pa_Q pp) l sc thr n) -> Rescale ce o (mkCk ct sc) thr (mkCk ct sc) st = Panic PIndex.
Proof.
  intros Hl Hc Hf H. destruct (rescale_cases (pa_Q pp) l sc thr) as [D|[D [(n & Hn)|D2]]].
  - exfalso. apply H. exists O. left. auto.
  - exfalso. apply H. exists n. right. auto.
  - eapply Rescale_panics; eauto. apply Hc.
Qed.
(** C23 *)
Lemma mul_ptxt ct sc pt ptScale M l lp n : (l < QCount pp)%nat -> ct_ok pp l ct -> p_ntt pt = false -> plaintext_is pp lp pt M -> (l <= lp)%nat ->
  rescale_steps (pa_Q pp) l (fmul sc ptScale) (ce_scale ce) n ->
  exists cout, ct_ok pp (l - n) cout /\ reduced pp (l - n) cout /\ same_keys cout ct /\
    (forall s Bs, secrets_le pp s Bs ct -> exists w, pnorm_le N w (rescale_noise N (nparties ct) Bs (dropped (pa_Q pp) l n)) /\
       divided pp l n (fun j => pmul N M (phase N s ct j)) w (phase N s cout)) /\
    forall o st, order_ok o -> ev_ok pp st -> exists out st', MulPtxtNew ce o (mkCk ct sc) pt ptScale st = Ok (out, st') /\ same_ct (c_ct out) cout /\
      c_scale out = scale_after (pa_Q pp) l (fmul sc ptScale) n /\ ev_ok pp st'.
Proof.
  intros Hl Hc Hnt (_ & HLp & HM) Hlp Hs. rewrite Hnt in HM. apply (held_le pp false _ _ l pt M Hlp) in HM. cbn in HM. pose proof (steps_le _ _ _ _ Hs) as Hn.
  destruct (ptxt_body ct sc pt ptScale M l Hl Hc HM) as (cr & F & C1 & C2 & C3 & C4 & C5 & C6).
  destruct (rs_out_rescaled ce He l n cr F cr Hl Hn C1 C3 (ck_nd _ _ _ C1)) as [HR _]; [tauto|auto|].
  exists (rs_out ce l n F cr). split; [apply HR|]. split; [now apply rs_out_reduced|]. split. { intros id. rewrite rs_out_keys. apply C4. } split.
  { intros s Bs HB. destruct (rescaled_phase pp Hpp l n cr (rs_out ce l n F cr) s Bs) as (w & W1 & W2); auto; try apply C1. { intros id [Hi Hne]. apply HB. split; [|auto]. now apply C4. }
    exists w. split. { replace (nparties ct) with (nparties cr); [exact W1|]. unfold nparties. do 2 f_equal. apply Permutation_length, NoDup_Permutation; [apply C1|apply Hc|apply C4]. }
    eapply divided_ext; [exact W2| |reflexivity]. intros j Hj. apply (C5 s j ltac:(lia)). }
  intros o st Ho Hst. destruct (C6 o st Ho Hst) as (c & st1 & Hst1 & HS & D1 & D3 & ->).
  destruct (rescale_here l n c F (fmul sc ptScale) (ce_scale ce) o st1 Hl D1 D3 Ho) as (e & st' & Er & Hst'); auto.
  rewrite Er. cbn [bind]. eexists _, st'. split; [reflexivity|]. cbn [c_ct c_scale]. split; [|auto]. now apply rs_out_same.
Qed.
(** no number of divisions brings the scale down: an index panic *)
Lemma mul_ptxt_panics ct sc pt ptScale M l lp o st : (l < QCount pp)%nat -> ct_ok pp l ct -> p_ntt pt = false -> plaintext_is pp lp pt M -> (l <= lp)%nat ->
  ~ (exists n, rescale_steps (pa_Q pp) l (fmul sc ptScale) (ce_scale ce) n) -> order_ok o -> ev_ok pp st -> MulPtxtNew ce o (mkCk ct sc) pt ptScale st = Panic PIndex.
Proof.
  intros Hl Hc Hnt (_ & HLp & HM) Hlp Hs Ho Hst. rewrite Hnt in HM. apply (held_le pp false _ _ l pt M Hlp) in HM. cbn in HM.
  destruct (ptxt_body ct sc pt ptScale M l Hl Hc HM) as (cr & F & C1 & C2 & C3 & C4 & C5 & C6). destruct (C6 o st Ho Hst) as (c & st1 & Hst1 & HS & D1 & D3 & ->).
  rewrite (rs_none_exhausted l _ _ o st1 c F Hl D1 D3 Hs). reflexivity.
Qed.

(** a fresh ciphertext is well formed *)
Lemma fresh_ok o ids l : (l < QCount pp)%nat -> order_ok o -> ct_ok pp l (NewCiphertext o pp ids l).
Proof.
  intros Hl Ho. destruct (NewCiphertext_ok o pp ids l Ho) as (B1 & B2 & B3). constructor; auto. { apply B2. now left. }
  intros id p E. rewrite (B3 id p E). split; [reflexivity|]. unfold plen, newPoly. cbn [p_co p_ntt]. split; [now rewrite repeat_length|]. intros j Hj. rewrite nth_repeat_lt by lia. split; [apply repeat_length|].
  intros x Hx. rewrite nth_repeat_lt by auto. destruct (qbig pp Hpp j ltac:(lia)). unfold modulus in *. lia.
Qed.
Lemma set_k_ok st k : ev_ok pp st -> pool_ok pp k -> ev_ok pp (set_k k st).
Proof. intros [H1 H2 H3 H4 H5] H. constructor; auto. Qed.
Definition decomposed (l : nat) (op : ciphertext) (pool : hoisted) (id : string) : Prop := exists p s0 s k k', sget op id = Some p /\ sget pool id = Some s /\
    swk_ok pp s0 /\ pool_ok pp k /\ Decompose (ce_env ce) l p s0 k = Ok (s, k').
Lemma hoist_into l op sc : (l < QCount pp)%nat -> ct_ok pp l op -> forall L pool st, NoDup L -> (forall id, In id L -> party op id) -> hoist_ready pp pool op -> ev_ok pp st ->
  exists pool' st', hoistInto ce L (mkCk op sc) pool st = Ok (pool', st') /\ (forall c, hoist_ready pp pool c -> hoist_ready pp pool' c) /\ ev_ok pp st' /\
    (forall id, In id L -> decomposed l op pool' id) /\ forall id, ~ In id L -> sget pool' id = sget pool id.
Proof.
  intros Hl Hc. unfold hoistInto. cbn [c_ct]. rewrite (ct_level (ce_env ce) l op Hc). cbn [bind]. induction L as [|i L IH]; intros pool st HL HP Hr Hst.
  { exists pool, st. split; [reflexivity|]. split; [auto|]. split; [auto|]. split; [intros id []|auto]. }
  inversion HL as [|? ? Hni HL']; subst. cbn [foldM].
  assert (Hi : party op i) by (apply HP; now left). destruct (ct_lift (ce_env ce) He l op Hl Hc) as (f & Hf). destruct (Hf i (proj1 Hi)) as (p & Ep & HPp & Hnt & _ & Hsh).
  destruct (Hr i Hi) as (s0 & Es0 & Hs0). unfold mptr at 1. rewrite Ep. cbn [bind]. unfold mptr at 1. rewrite Es0. cbn [bind].
  destruct (digits_exist (ce_env ce) He l (p_co p) Hl) as (D & HD). { eapply (prep_input (ce_env ce) l (p_co p) (f i) (fun q => q + 1)); eauto. intros; lia. }
  destruct (Decompose_ok (ce_env ce) He l p D s0 (ev_k st) Hl (dsrc_coeff (ce_env ce) l p D Hnt HD) Hs0 (eo_k _ _ Hst)) as (s & k & Ed & _ & Hs & Hk & _). rewrite Ed. cbn [bind].
  assert (Hmono : forall c, hoist_ready pp pool c -> hoist_ready pp (sset pool i s) c).
  { intros c Hcc id Hid. destruct (string_dec id i) as [->|Hne]. - exists s. split; [now apply (mget_mset_same _ seqb)|auto]. - destruct (Hcc id Hid) as (x & Ex & Hx). exists x. split; [|auto]. rewrite (mget_mset_other _ seqb) by auto. exact Ex. }
  destruct (IH (sset pool i s) (set_k k st) HL') as (pool' & st' & E & M & Hst' & Hd & Hu). { intros id X. apply HP. now right. } { now apply Hmono. } { now apply set_k_ok. }
  exists pool', st'. split; [exact E|]. split; [auto|]. split; [auto|]. split.
  - intros id [<-|Hid]; [|now apply Hd]. exists p, s0, s, (ev_k st), k. split; [auto|]. split; [|split; [auto|split; [apply Hst|auto]]]. rewrite (Hu i Hni). now apply (mget_mset_same _ seqb).
  - intros id Hid. cbn [In] in Hid. rewrite (Hu id) by tauto. apply (mget_mset_other _ seqb). intros ->. apply Hid. now left.
Qed.

(** hoisted multiplication up to the rescaling *)
Lemma mul_body g A U s r Bs Be Dm op0 op1 sc0 sc1 l0 l1 rlks h0 h1 o st :
  mul_setting pp g A U s r Bs Be Dm op0 op1 l0 l1 rlks ->
  maybe_hoisted_at (ce_env ce) l0 op0 h0 -> maybe_hoisted_at (ce_env ce) l1 op1 h1 -> order_ok o -> ev_ok pp st ->
  let l := Nat.min l0 l1 in
  exists ct st1 w, ev_ok pp st1 /\ ct_ok pp l ct /\ reduced pp l ct /\ (forall id, In id (mkeys ct) <-> In id (mkeys op0) \/ In id (mkeys op1)) /\
    pnorm_le N (pscale (bigP pp) w) (mul_noise_bound N (nparties op0) (nparties op1) (Z.of_nat (Beta pp l)) Bs Be Dm (bigP pp)) /\
    (forall j, (j <= l)%nat -> peq N (modulus (pa_Q pp) j) (phase N s ct j) (padd (pmul N (phase N s op0 j) (phase N s op1 j)) w)) /\
    MulRelinHoistedNew ce o (mkCk op0 sc0) (mkCk op1 sc1) h0 h1 rlks st = bind (Rescale ce o (mkCk ct (fmul sc0 sc1)) (ce_scale ce) (mkCk ct (fmul sc0 sc1)) st1) (fun '(_, ct, st) => Ok (ct, st)).
Proof.
  intros HS Hh0 Hh1 Ho Hst l. pose proof HS as [M0 M1 L0 L1 _ _ Hs _ _]. unfold MulRelinHoistedNew, mulRelinHoisted. destruct (binary_ids ce o op0 op1 sc0 sc1 l0 l1 Ho M0 M1) as (ids & -> & K). cbn [bind c_ct c_scale].
  fold l. set (z := NewCiphertext o pp ids l). assert (Hl : (l < QCount pp)%nat) by lia. pose proof (fresh_ok o ids l Hl Ho) as Hz. fold z in Hz.
  rewrite (ct_level (ce_env ce) l0 op0 M0), (ct_level (ce_env ce) l1 op1 M1), (ct_level (ce_env ce) l z Hz). cbn [bind]. fold l. rewrite Nat.min_id, Nat.ltb_irrefl. cbn [bind c_ct].
  assert (Kz : forall id, In id (mkeys z) <-> In id (mkeys op0) \/ In id (mkeys op1)). { intros id. destruct (NewCiphertext_ok o pp ids l Ho) as (_ & B2 & _). fold z in B2. rewrite B2, K. destruct (string_dec id "0"%string) as [->|]; [|tauto]. pose proof (ck_0 _ _ _ M0). tauto. }
  destruct (mul_correct (ce_env ce) He g A U s r Bs Be Dm op0 op1 l0 l1 l rlks z h0 h1 HS) as (ct & w & Hw & Hc & Hr & Hk & Hp & Hrun); auto. { split; [auto|]. split; [lia|]. split; [lia|auto]. }
  destruct (Hrun o (ev_k st) Ho (eo_k _ _ Hst)) as (k' & E & Hk'). rewrite E. cbn [bind].
  exists ct, (set_k k' st), w. split; [now apply set_k_ok|]. split; [auto|]. split; [auto|]. split; [intros id; rewrite Hk; apply Kz|]. auto.
Qed.
(** hoisted multiplication followed by the rescaling *)
Lemma mul_hoisted_new g A U s r Bs Be Dm op0 op1 sc0 sc1 l0 l1 rlks h0 h1 o st :
  mul_setting pp g A U s r Bs Be Dm op0 op1 l0 l1 rlks ->
  maybe_hoisted_at (ce_env ce) l0 op0 h0 -> maybe_hoisted_at (ce_env ce) l1 op1 h1 -> order_ok o -> ev_ok pp st ->
  (forall n, rescale_steps (pa_Q pp) (Nat.min l0 l1) (fmul sc0 sc1) (ce_scale ce) n ->
     exists out st', MulRelinHoistedNew ce o (mkCk op0 sc0) (mkCk op1 sc1) h0 h1 rlks st = Ok (out, st') /\ ev_ok pp st' /\ mul_result pp s Bs Be Dm op0 op1 (Nat.min l0 l1) n (fmul sc0 sc1) out) /\
  (~ (exists n, rescale_steps (pa_Q pp) (Nat.min l0 l1) (fmul sc0 sc1) (ce_scale ce) n) -> MulRelinHoistedNew ce o (mkCk op0 sc0) (mkCk op1 sc1) h0 h1 rlks st = Panic PIndex).
Proof.
  intros HS Hh0 Hh1 Ho Hst. pose proof HS as [M0 M1 L0 L1 _ _ Hs _ _]. set (l := Nat.min l0 l1). assert (Hl : (l < QCount pp)%nat) by lia.
  destruct (mul_body g A U s r Bs Be Dm op0 op1 sc0 sc1 l0 l1 rlks h0 h1 o st HS Hh0 Hh1 Ho Hst) as (ct & st1 & w & Hst1 & Hc & Hr & Hk & Hw & Hp & ->). fold l in Hc, Hr, Hw, Hp.
  destruct (lifts_ex ce He l ct Hl Hc) as (f & Hf). split.
  - intros n Hn. pose proof (steps_le _ _ _ _ Hn) as Hnl.
    destruct (rescale_here l n ct f (fmul sc0 sc1) (ce_scale ce) o st1 Hl Hc Hf Ho) as (e & st' & Er & Hst'); auto.
    rewrite Er. cbn [bind]. destruct (rs_out_rescaled ce He l n ct f ct Hl Hnl Hc Hf (ck_nd _ _ _ Hc)) as [HR _]; [tauto|auto|].
    assert (Hsec : secrets_le pp s Bs ct). { intros id [Hi Hne]. apply Hk in Hi. apply Hs. unfold party. tauto. }
    destruct (rescaled_phase pp Hpp l n ct (rs_out ce l n f ct) s Bs Hnl Hl (ck_nd _ _ _ Hc) (ck_0 _ _ _ Hc) HR Hsec) as (w' & Hw' & Hp').
    eexists _, st'. split; [reflexivity|]. split; [auto|]. exists w, w'. cbn [c_ct c_scale]. split; [apply HR|]. split; [now apply rs_out_reduced|]. split. { intros id. rewrite rs_out_keys. apply Hk. } split; [reflexivity|]. split; [exact Hw|]. split.
    + unfold nparties in *. rewrite rs_out_keys. exact Hw'.
    + eapply divided_ext; [exact Hp'| |reflexivity]. intros j Hj. apply (Hp j ltac:(lia)).
  - intros Hn. rewrite (rs_none_exhausted l _ _ o st1 ct f Hl Hc Hf Hn). reflexivity.
Qed.
Lemma rel_body g A U s r Bs Be Dm op0 op1 sc0 sc1 l0 l1 rs (same : bool) o st :
  mul_setting pp g A U s r Bs Be Dm op0 op1 l0 l1 (rs_keys rs) -> (if same then op1 = op0 else hoist_ready pp (rs_h1 rs) op1) -> hoist_ready pp (rs_h0 rs) op0 -> order_ok o -> ev_ok pp st ->
  exists h0 h1 rs' st1, MulRelinNew ce o same (mkCk op0 sc0) (mkCk op1 sc1) rs st = bind (MulRelinHoistedNew ce o (mkCk op0 sc0) (mkCk op1 sc1) (Some h0) (Some h1) (rs_keys rs) st1) (fun '(ct, st) => Ok (ct, rs', st)) /\
    hoisted_at (ce_env ce) l0 op0 h0 /\ hoisted_at (ce_env ce) l1 op1 h1 /\ ev_ok pp st1 /\
    rs_keys rs' = rs_keys rs /\ (forall c, hoist_ready pp (rs_h0 rs) c -> hoist_ready pp (rs_h0 rs') c) /\ (forall c, hoist_ready pp (rs_h1 rs) c -> hoist_ready pp (rs_h1 rs') c).
Proof.
  intros HS Hsame Hr0 Ho Hst. pose proof HS as [M0 M1 L0 L1 _ _ _ _ _]. unfold MulRelinNew. cbn [c_ct].
  destruct (ctIDSet_ok o op0 Ho) as (i0 & E0 & Q0 & K0).
  assert (P0 : forall (i : idset) (op : ciphertext), (forall x, In x (mkeys i) <-> In x (mkeys op) /\ x <> "0"%string) -> forall m id, In id (o m (mkeys i)) <-> party op id).
  { intros i op Ki m id. unfold party. rewrite <- Ki. split; intros X; (eapply Permutation_in; [|exact X]); [|symmetry]; apply Ho. }
  assert (ND : forall (i : idset) m, NoDup (mkeys i) -> NoDup (o m (mkeys i))). { intros i m X. eapply Permutation_NoDup; [symmetry; apply Ho|exact X]. }
  destruct same.
  - subst op1. rewrite E0. cbn [bind]. destruct (hoist_into l0 op0 sc0 L0 M0 (o 1%nat (mkeys i0)) (rs_h0 rs) st) as (h0 & st1 & -> & Mo & Hst1 & Hd & _); auto. { apply ND. apply Q0. } { intros id. now apply P0. }
    cbn [bind]. assert (H0 : hoisted_at (ce_env ce) l0 op0 h0) by (intros id Hid; apply Hd; now apply (P0 i0 op0 K0)).
    assert (H0' : hoisted_at (ce_env ce) l1 op0 h0). { assert (l1 = l0) as ->; [|exact H0]. destruct (mget_ex _ seqb op0 _ (ck_0 _ _ _ M0)) as (p & Ep). destruct (ck_comp _ _ _ M0 _ _ Ep) as (_ & X & _). destruct (ck_comp _ _ _ M1 _ _ Ep) as (_ & Y & _). lia. }
    exists h0, h0, (mkRlkSet (rs_keys rs) h0 (rs_h1 rs)), st1. cbn [rs_keys rs_h0 rs_h1]. auto 10.
  - destruct (ctIDSet_ok o op1 Ho) as (i1 & E1 & Q1 & K1). rewrite E0. cbn [bind]. rewrite E1. cbn [bind].
    destruct (hoist_into l0 op0 sc0 L0 M0 (o 1%nat (mkeys i0)) (rs_h0 rs) st) as (h0 & st1 & -> & Mo & Hst1 & Hd & _); auto. { apply ND. apply Q0. } { intros id. now apply P0. }
    cbn [bind]. destruct (hoist_into l1 op1 sc1 L1 M1 (o 2%nat (mkeys i1)) (rs_h1 rs) st1) as (h1 & st2 & -> & Mo1 & Hst2 & Hd1 & _); auto. { apply ND. apply Q1. } { intros id. now apply P0. }
    cbn [bind]. assert (H0 : hoisted_at (ce_env ce) l0 op0 h0) by (intros id Hid; apply Hd; now apply (P0 i0 op0 K0)).
    assert (H1 : hoisted_at (ce_env ce) l1 op1 h1) by (intros id Hid; apply Hd1; now apply (P0 i1 op1 K1)).
    exists h0, h1, (mkRlkSet (rs_keys rs) h0 h1), st2. cbn [rs_keys rs_h0 rs_h1]. auto 10.
Qed.
(** C27 *)
Lemma mul_relin_new g A U s r Bs Be Dm op0 op1 sc0 sc1 l0 l1 rs (same : bool) o st :
  mul_setting pp g A U s r Bs Be Dm op0 op1 l0 l1 (rs_keys rs) -> (if same then op1 = op0 else hoist_ready pp (rs_h1 rs) op1) -> hoist_ready pp (rs_h0 rs) op0 -> order_ok o -> ev_ok pp st ->
  (forall n, rescale_steps (pa_Q pp) (Nat.min l0 l1) (fmul sc0 sc1) (ce_scale ce) n ->
     exists out rs' st', MulRelinNew ce o same (mkCk op0 sc0) (mkCk op1 sc1) rs st = Ok (out, rs', st') /\ mul_result pp s Bs Be Dm op0 op1 (Nat.min l0 l1) n (fmul sc0 sc1) out /\ ev_ok pp st' /\
       rs_keys rs' = rs_keys rs /\ (forall c, hoist_ready pp (rs_h0 rs) c -> hoist_ready pp (rs_h0 rs') c) /\ (forall c, hoist_ready pp (rs_h1 rs) c -> hoist_ready pp (rs_h1 rs') c)) /\
  (~ (exists n, rescale_steps (pa_Q pp) (Nat.min l0 l1) (fmul sc0 sc1) (ce_scale ce) n) -> MulRelinNew ce o same (mkCk op0 sc0) (mkCk op1 sc1) rs st = Panic PIndex).
Proof.
  intros HS Hsame Hr0 Ho Hst. destruct (rel_body g A U s r Bs Be Dm op0 op1 sc0 sc1 l0 l1 rs same o st HS Hsame Hr0 Ho Hst) as (h0 & h1 & rs' & st1 & -> & H0 & H1 & Hst1 & R).
  destruct (mul_hoisted_new g A U s r Bs Be Dm op0 op1 sc0 sc1 l0 l1 (rs_keys rs) (Some h0) (Some h1) o st1 HS H0 H1 Ho Hst1) as [G1 G2]. split.
  - intros n Hn. destruct (G1 n Hn) as (out & st' & -> & Hst' & HR). cbn [bind]. exists out, rs', st'. auto.
  - intros Hn. rewrite (G2 Hn). reflexivity.
Qed.
End C.
