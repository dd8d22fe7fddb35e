(** The history of an Evaluator: every state it can be in is well formed, and none of its results depends on it. *)
From Coq Require Import String ZArith Znumtheory List Lia Bool Permutation.
From Verif Require Import Spec SpecProofs Go GoProofs Arith NegRing NegRingProofs NTT RingOps RingOpsProofs Maps MapsProofs F64 BasisExt Params Elements KeySwitch KeySets EncDec Utils Evaluator Repr KSProofs KSMulProofs ParamsProofs Galois SpecCt KSSem MulThms SpecEnc EncProofs EncThms CkEncThms SpecEv SpecRot SpecHist EvProofs RescaleProofs EvThms AddThms MulEvThms MulUni RotEvThms EvWorld Shipped World.
Import ListNotations.
Local Open Scope Z_scope.

Section C.
Context (ce : ckenv).
Notation env := (ce_env ce).
Notation pp := (e_pp (ce_env ce)).
Context (He : env_ok (ce_env ce)).
Notation N := (pa_N pp).

Lemma level_unique l l' ct : ct_ok pp l ct -> ct_ok pp l' ct -> l = l'.
Proof. intros H H'. pose proof (ct_level env l ct H) as A. rewrite (ct_level env l' ct H') in A. congruence. Qed.
(** the decomposition of a polynomial in coefficient form does not depend on the pools *)
Lemma dec_pool l p ad k1 k2 s1 s2 k1' k2' : p_ntt p = false -> Decompose env l p ad k1 = Ok (s1, k1') -> Decompose env l p ad k2 = Ok (s2, k2') -> s1 = s2.
Proof. unfold Decompose, toInvNTT. intros ->. cbn [bind]. destruct (foldM _ _ _); cbn [bind]; [|discriminate]. intros H1 H2. congruence. Qed.
Lemma half_N : 0 < Z.of_nat N / 2.
Proof. assert (HlN : (1 <= pa_logN pp)%nat) by (apply (ro_log _ (po_rQ _ (eo_pp _ He)))). destruct (Galois.half_pos (pa_logN pp) HlN) as [Hh _]. exact Hh. Qed.
(** a call and everything that counts as the same call *)
Definition uniform (c : evcall) : Prop :=
  let ready o c' st := order_ok o /\ call_ok ce c' /\ same_call c c' /\ ev_ok pp st in
  (exists x, forall o c' st, ready o c' st -> exists out st', runCall ce o c' st = Ok (out, st') /\ same_evout x out /\ ev_ok pp st') \/
  (exists e, forall o c' st, ready o c' st -> runCall ce o c' st = Panic e).
Lemma uni_ct c s0 cout sc : (forall c', same_call c c' -> c' = c) ->
  (forall o st, order_ok o -> ev_ok pp st -> exists out st', runCall ce o c st = Ok (OCt s0 out, st') /\ same_ct (c_ct out) cout /\ c_scale out = sc /\ ev_ok pp st') -> uniform c.
Proof.
  intros HE H. left. exists (OCt s0 (mkCk cout sc)). intros o c' st (Ho & _ & Hs & Hst). rewrite (HE c' Hs). destruct (H o st Ho Hst) as (out & st' & E & S & Sc & Hst'). exists (OCt s0 out), st'.
  split; [auto|]. split; [|auto]. cbn. split; [auto|]. split; [now apply same_sym|congruence].
Qed.
(** Rescale returns the same error, decided by the threshold, the scale and the level *)
Lemma rescale_errs c thr l : ct_ok pp l (c_ct c) -> exists e, forall o st e' out st', RescaleNew ce o c thr st = Ok (e', out, st') -> e' = e.
Proof.
  intros Hc. exists (if fleb thr f0 then Some EMinScale else if feqb (c_scale c) f0 then Some EScale0 else if Nat.eqb l 0 then Some ELevel0 else None).
  intros o st e' out st'. unfold RescaleNew. destruct (ctIDSet o (c_ct c)); cbn [bind]; [|discriminate]. rewrite (ct_level env l _ Hc). cbn [bind]. unfold Rescale.
  destruct (fleb thr f0); [congruence|]. destruct (feqb (c_scale c) f0); [congruence|]. rewrite (ct_level env l _ Hc). cbn [bind]. destruct (Nat.eqb l 0); [congruence|].
  destruct (rescaleLoop _ _ _ _) as [[scale nb]|]; cbn [bind]; [|discriminate]. destruct (Nat.eqb nb 0); [congruence|]. destruct (foldM _ _ _) as [[x y]|]; cbn [bind]; [|discriminate]. congruence.
Qed.
Lemma zeros_same l a b : NoDup (mkeys a) -> NoDup (mkeys b) -> all_zero pp l a -> all_zero pp l b -> same_keys a b -> same_ct a b.
Proof.
  intros Na Nb Za Zb K. split; [auto|]. split; [auto|]. intros id. destruct (sget a id) as [p|] eqn:E.
  - assert (Hi : In id (mkeys b)). { apply K. now apply (mget_key _ seqb) in E. } apply (mget_In _ seqb) in Hi. change (sget b id <> None) in Hi. destruct (sget b id) as [q|] eqn:Eq; [|congruence]. f_equal. rewrite (Za id p E), (Zb id q Eq). reflexivity.
  - destruct (sget b id) as [q|] eqn:Eq; [|reflexivity]. apply (mget_key _ seqb) in Eq. apply K in Eq. apply (mget_In _ seqb) in Eq. contradiction.
Qed.
Lemma rescale_nodup c thr l o st e out st' : (l < QCount pp)%nat -> ct_ok pp l (c_ct c) -> order_ok o -> ev_ok pp st -> RescaleNew ce o c thr st = Ok (e, out, st') -> NoDup (mkeys (c_ct out)).
Proof.
  destruct c as [c sc]. cbn [c_ct]. intros Hl Hc Ho Hst E. destruct (rescale_total ce He c sc thr l o st Hl Hc Ho Hst) as [T1 T2].
  match type of T1 with ?P -> _ => destruct (Classical_Prop.classic P) as [Y|Y] end; [rewrite (T1 Y) in E; discriminate|].
  destruct (T2 Y) as (n & e' & out' & st2 & E2 & _ & _ & HC & _). rewrite E in E2. injection E2 as _ <- _. apply HC.
Qed.
Lemma uni_rescale c thr : call_ok ce (CRescale c thr) -> uniform (CRescale c thr).
Proof.
  destruct c as [c sc]. intros (l & Hl & Hc). cbn [c_ct] in Hc. destruct (rescale_errs (mkCk c sc) thr l Hc) as (e0 & HE).
  assert (S : forall c', same_call (CRescale (mkCk c sc) thr) c' -> c' = CRescale (mkCk c sc) thr) by (intros c' <-; reflexivity).
  assert (Z0 : rescale_steps (pa_Q pp) l sc thr 0 -> uniform (CRescale (mkCk c sc) thr)).
  { intros Hn. destruct (NewEvaluator o_id (e_lz env) (mkCkp pp (ce_scale ce))) as [c0 s0] eqn:EN. pose proof (NewEvaluator_ok o_id (e_lz env) (mkCkp pp (ce_scale ce)) (eo_pp _ He) o_id_ok) as HN. rewrite EN in HN. destruct HN as (_ & _ & _ & Hs0).
    destruct (rescale_new_zero ce He c sc thr l Hl Hc Hn o_id s0 o_id_ok Hs0) as (er & outr & str & Er & Zr & Kr & Sr & _). apply (uni_ct _ e0 (c_ct outr) sc S).
    intros o st Ho Hst. destruct (rescale_new_zero ce He c sc thr l Hl Hc Hn o st Ho Hst) as (e & out & st' & E & Z & K & Sc & _ & Hst'). exists out, st'. cbn [runCall]. rewrite E. cbn [bind]. rewrite (HE _ _ _ _ _ E).
    split; [reflexivity|]. split; [|auto]. apply (zeros_same l); auto.
    - eapply (rescale_nodup (mkCk c sc) thr l o st); eauto. - eapply (rescale_nodup (mkCk c sc) thr l o_id s0); eauto. apply o_id_ok. - intros id. rewrite (K id), (Kr id). reflexivity. }
  destruct (rescale_cases (pa_Q pp) l sc thr) as [D|[D [(n & Hn)|D2]]].
  - apply Z0. left. auto.
  - destruct n as [|n]; [apply Z0; right; auto|]. destruct (rescale_new ce He c sc thr l (Datatypes.S n) Hl Hc D Hn ltac:(lia)) as (cout & _ & _ & _ & R). apply (uni_ct _ None cout (scale_after (pa_Q pp) l sc (Datatypes.S n)) S).
    intros o st Ho Hst. destruct (R o st Ho Hst) as (out & st' & E & R1 & R2 & R3). exists out, st'. cbn [runCall]. rewrite E. auto.
  - right. exists PIndex. intros o c' st (Ho & _ & Hs & Hst). rewrite (S c' Hs). cbn [runCall]. rewrite (rescale_new_panics ce He c sc thr l Hl Hc D D2 o st Ho). reflexivity.
Qed.
Lemma uni_rescale_to c thr out : call_ok ce (CRescaleTo c thr out) -> uniform (CRescaleTo c thr out).
Proof.
  destruct c as [c sc], out as [out so]. intros (l & Hl & Hc & Ho0 & Hk). cbn [c_ct] in *. destruct (lifts_ex ce He l c Hl Hc) as (f & Hf).
  assert (S : forall c', same_call (CRescaleTo (mkCk c sc) thr (mkCk out so)) c' -> c' = CRescaleTo (mkCk c sc) thr (mkCk out so)) by (intros c' <-; reflexivity).
  set (e0 := if fleb thr f0 then Some EMinScale else if feqb sc f0 then Some EScale0 else if Nat.eqb l 0 then Some ELevel0 else None).
  assert (HE : forall o st e' r st', Rescale ce o (mkCk c sc) thr (mkCk out so) st = Ok (e', r, st') -> e' = e0).
  { intros o st e' r st'. unfold Rescale, e0. cbn [c_ct c_scale].
    destruct (fleb thr f0); [congruence|]. destruct (feqb sc f0); [congruence|]. rewrite (ct_level env l _ Hc). cbn [bind]. destruct (Nat.eqb l 0); [congruence|].
    destruct (rescaleLoop _ _ _ _) as [[scale nb]|]; cbn [bind]; [|discriminate]. destruct (Nat.eqb nb 0); [congruence|]. destruct (foldM _ _ _) as [[x y]|]; cbn [bind]; [|discriminate]. congruence. }
  assert (G : forall n, rescale_steps (pa_Q pp) l sc thr n -> uniform (CRescaleTo (mkCk c sc) thr (mkCk out so))).
  { intros n Hn. apply (uni_ct _ e0 (rs_out ce l n f out) (match e0 with None => scale_after (pa_Q pp) l sc n | Some _ => so end) S). intros o st Ho Hst.
    destruct (Rescale_gen ce He l n c sc thr f out so o st) as (e & st' & E & Hst' & _); auto.
    { apply Hc. } { split; [apply Ho0|]. intros id p Ep. destruct (ck_comp _ _ _ Ho0 id p Ep) as (A & B & _). auto. } { intros id. apply Hk. }
    cbn [runCall]. rewrite E. cbn [bind]. rewrite <- (HE _ _ _ _ _ E). eexists _, st'. split; [reflexivity|]. cbn [c_ct c_scale]. split; [|auto].
    assert (ND : NoDup (mkeys (rs_out ce l n f out))) by (rewrite rs_out_keys; apply Ho0). split; [auto|]. split; auto. }
  destruct (rescale_cases (pa_Q pp) l sc thr) as [D|[D [(n & Hn)|D2]]]; [apply (G O); left; auto|apply (G n); right; auto|].
  right. exists PIndex. intros o c' st (Ho & _ & Hs & Hst). rewrite (S c' Hs). cbn [runCall]. rewrite (Rescale_panics ce l c sc thr out so o st f Hl Hf (ck_0 _ _ _ Hc) D D2). reflexivity.
Qed.
Lemma uni_mul same op0 op1 rs : call_ok ce (CMulRelin same op0 op1 rs) -> uniform (CMulRelin same op0 op1 rs).
Proof.
  destruct op0 as [op0 s0], op1 as [op1 s1]. intros (g & A & U & s & r & Bs & Be & Dm & l0 & l1 & HS & _ & _). cbn [c_ct] in HS. destruct (mul_relin_u ce He g A U s r Bs Be Dm op0 op1 s0 s1 l0 l1 (rs_keys rs) HS) as [G1 G2].
  destruct (Classical_Prop.classic (exists n, rescale_steps (pa_Q pp) (Nat.min l0 l1) (fmul s0 s1) (ce_scale ce) n)) as [(n & Hn)|Hno].
  - destruct (G1 n Hn) as (cout & _ & R & _). left. exists (OCt None cout). intros o c' st (Ho & Hc & Hs & Hst). destruct c' as [| | | | |same' op0' op1' rs'| | | | |]; try contradiction; try discriminate. cbn in Hs. destruct Hs as (<- & <- & Hk).
    destruct Hc as (_ & _ & _ & _ & _ & _ & _ & _ & _ & _ & _ & Q0 & Q1). cbn [c_ct] in Q0, Q1. destruct (R same' rs' o st) as (out & rs2 & st' & E & R1 & R2 & R3 & _). { auto. }
    exists (OCt None out), st'. cbn [runCall]. rewrite E. split; [reflexivity|]. split; [|auto]. cbn. split; [auto|]. split; [now apply same_sym|congruence].
  - right. exists PIndex. intros o c' st (Ho & Hc & Hs & Hst). destruct c' as [| | | | |same' op0' op1' rs'| | | | |]; try contradiction; try discriminate. cbn in Hs. destruct Hs as (<- & <- & Hk).
    destruct Hc as (_ & _ & _ & _ & _ & _ & _ & _ & _ & _ & _ & Q0 & Q1). cbn [c_ct] in Q0, Q1. cbn [runCall]. rewrite (G2 Hno same' rs' o st); auto.
Qed.
Lemma like_of l op r h : (r = None <-> h = None) -> maybe_hoisted_at env l op h -> hoisted_like env l op r h.
Proof. intros H Hh. destruct r as [r|]; cbn. - destruct h as [h|]; [eauto|]. destruct H as [_ H]. discriminate H. reflexivity. - now apply H. Qed.
Lemma uni_mulh op0 op1 h0 h1 rlks : call_ok ce (CMulRelinHoisted op0 op1 h0 h1 rlks) -> uniform (CMulRelinHoisted op0 op1 h0 h1 rlks).
Proof.
  destruct op0 as [op0 s0], op1 as [op1 s1]. intros (g & A & U & s & r & Bs & Be & Dm & l0 & l1 & HS & H0 & H1). cbn [c_ct] in HS, H0, H1. destruct (mul_hoisted_u ce He g A U s r Bs Be Dm op0 op1 s0 s1 l0 l1 rlks h0 h1 HS H0 H1) as [G1 G2].
  assert (RD : forall o c' st, order_ok o -> call_ok ce c' -> same_call (CMulRelinHoisted (mkCk op0 s0) (mkCk op1 s1) h0 h1 rlks) c' -> ev_ok pp st -> exists k0 k1, c' = CMulRelinHoisted (mkCk op0 s0) (mkCk op1 s1) k0 k1 rlks /\
    (order_ok o /\ ev_ok pp st /\ hoisted_like env l0 op0 h0 k0 /\ hoisted_like env l1 op1 h1 k1)).
  { intros o c' st Ho Hc Hs Hst. destruct c' as [| | | | | |op0' op1' k0 k1 rlks'| | | |]; try contradiction; try discriminate. cbn in Hs. destruct Hs as (<- & <- & <- & E0 & E1). exists k0, k1. split; [reflexivity|].
    destruct Hc as (? & ? & ? & ? & ? & ? & ? & ? & l0' & l1' & HS' & K0 & K1). cbn [c_ct] in *. rewrite (level_unique l0' l0 op0 (ms_op0 _ _ _ _ _ _ _ _ _ _ _ _ _ _ HS') (ms_op0 _ _ _ _ _ _ _ _ _ _ _ _ _ _ HS)) in K0. rewrite (level_unique l1' l1 op1 (ms_op1 _ _ _ _ _ _ _ _ _ _ _ _ _ _ HS') (ms_op1 _ _ _ _ _ _ _ _ _ _ _ _ _ _ HS)) in K1.
    split; [auto|]. split; [auto|]. split; now apply like_of. }
  destruct (Classical_Prop.classic (exists n, rescale_steps (pa_Q pp) (Nat.min l0 l1) (fmul s0 s1) (ce_scale ce) n)) as [(n & Hn)|Hno].
  - destruct (G1 n Hn) as (cout & _ & R). left. exists (OCt None cout). intros o c' st (Ho & Hc & Hs & Hst). destruct (RD o c' st Ho Hc Hs Hst) as (k0 & k1 & -> & X). destruct (R o st k0 k1 X) as (out & st' & E & R1 & R2 & R3).
    exists (OCt None out), st'. cbn [runCall]. rewrite E. split; [reflexivity|]. split; [|auto]. cbn. split; [auto|]. split; [now apply same_sym|congruence].
  - right. exists PIndex. intros o c' st (Ho & Hc & Hs & Hst). destruct (RD o c' st Ho Hc Hs Hst) as (k0 & k1 & -> & X). cbn [runCall]. rewrite (G2 Hno o st k0 k1 X). reflexivity.
Qed.
Lemma call_uniform c : call_ok ce c -> uniform c.
Proof.
  intros Hc. destruct c as [c0 c1|c0 c1|c thr|c thr out|c pt psc|same op0 op1 rs|op0 op1 h0 h1 rlks|c k rks|c k h rks|c cks|c].
  - destruct c0 as [c0 s0], c1 as [c1 s1]. destruct Hc as ((l0 & ? & ?) & (l1 & ? & ?) & Ws). cbn [c_ct c_scale] in *. assert (S : forall c', same_call (CAdd (mkCk c0 s0) (mkCk c1 s1)) c' -> c' = CAdd (mkCk c0 s0) (mkCk c1 s1)) by (intros c' <-; reflexivity). destruct Ws as [<-|Ws].
    + destruct (add_eq ce He c0 c1 s0 l0 l1) as (co & _ & R); auto. apply (uni_ct _ None co s0 S). intros o st Ho Hst. destruct (R o st Ho Hst) as (out & st2 & E2 & R1 & R2). eexists _, st2. cbn [runCall]. rewrite E2. cbn [bind]. split; [reflexivity|]. auto.
    + destruct (add_new ce He c0 c1 s0 s1 l0 l1) as (co & _ & R); auto. apply (uni_ct _ None co (if fltb s1 s0 then s0 else s1) S). intros o st Ho Hst. destruct (R o st Ho Hst) as (out & st2 & E2 & R1 & R2). eexists _, st2. cbn [runCall]. rewrite E2. cbn [bind]. split; [reflexivity|]. split; [exact R1|]. split; [reflexivity|auto].
  - destruct c0 as [c0 s0], c1 as [c1 s1]. destruct Hc as ((l0 & ? & ?) & (l1 & ? & ?) & Ws). cbn [c_ct c_scale] in *. assert (S : forall c', same_call (CSub (mkCk c0 s0) (mkCk c1 s1)) c' -> c' = CSub (mkCk c0 s0) (mkCk c1 s1)) by (intros c' <-; reflexivity). destruct Ws as [<-|Ws].
    + destruct (sub_eq ce He c0 c1 s0 l0 l1) as (co & _ & R); auto. apply (uni_ct _ None co s0 S). intros o st Ho Hst. destruct (R o st Ho Hst) as (out & st2 & E2 & R1 & R2). eexists _, st2. cbn [runCall]. rewrite E2. cbn [bind]. split; [reflexivity|]. auto.
    + destruct (sub_new ce He c0 c1 s0 s1 l0 l1) as (co & _ & R); auto. apply (uni_ct _ None co (if fltb s1 s0 then s0 else s1) S). intros o st Ho Hst. destruct (R o st Ho Hst) as (out & st2 & E2 & R1 & R2). eexists _, st2. cbn [runCall]. rewrite E2. cbn [bind]. split; [reflexivity|]. split; [exact R1|]. split; [reflexivity|auto].
  - now apply uni_rescale.
  - now apply uni_rescale_to.
  - destruct c as [c s]. destruct Hc as (l & lp & M & Hl & Hc & Hn & Hp & Hlp). cbn [c_ct] in Hc. assert (S : forall c', same_call (CMulPtxt (mkCk c s) pt psc) c' -> c' = CMulPtxt (mkCk c s) pt psc) by (intros c' <-; reflexivity).
    destruct (Classical_Prop.classic (exists n, rescale_steps (pa_Q pp) l (fmul s psc) (ce_scale ce) n)) as [(n & Hn2)|Hno].
    + destruct (mul_ptxt ce He c s pt psc M l lp n Hl Hc Hn Hp Hlp Hn2) as (co & _ & _ & _ & _ & R). apply (uni_ct _ None co (scale_after (pa_Q pp) l (fmul s psc) n) S). intros o st Ho Hst. destruct (R o st Ho Hst) as (out & st2 & E2 & R1 & R2 & R3). exists out, st2. cbn [runCall]. rewrite E2. split; [reflexivity|]. split; [exact R1|]. split; [exact R2|auto].
    + right. exists PIndex. intros o c' st (Ho & _ & Hs & Hst). rewrite (S c' Hs). cbn [runCall]. now rewrite (mul_ptxt_panics ce He c s pt psc M l lp o st Hl Hc Hn Hp Hlp Hno Ho Hst).
  - now apply uni_mul.
  - now apply uni_mulh.
  - destruct c as [c sc]. destruct Hc as (g & s & Bs & Be & Dm & l & n & HS & HR). cbn [c_ct] in *. assert (S : forall c', same_call (CRotate (mkCk c sc) k rks) c' -> c' = CRotate (mkCk c sc) k rks) by (intros c' <-; reflexivity).
    assert (HN2 : 0 < Z.of_nat N / 2) by apply half_N.
    destruct (rotate_new ce He g s Bs Be Dm c sc l rks k (k mod (Z.of_nat N / 2)) n HS) as (co & _ & R); auto. { apply Z.mod_pos_bound. auto. } { apply cong_sym, cong_mod. lia. }
    apply (uni_ct _ None co sc S). intros o st Ho Hst. destruct (R o st Ho Hst) as (out & st2 & E2 & R1 & R2). eexists _, st2. cbn [runCall]. rewrite E2. cbn [bind]. split; [reflexivity|]. auto.
  - destruct c as [c sc]. destruct Hc as (g & s & Bs & Be & Dm & l & HS & Hh & HR). cbn [c_ct] in *. assert (HN2 : 0 < Z.of_nat N / 2) by apply half_N.
    assert (HR' : exists n, k mod (Z.of_nat N / 2) = 0 /\ n = 0 \/ k mod (Z.of_nat N / 2) <> 0 /\ rot_keys pp g Be s c (k mod (Z.of_nat N / 2)) rks /\ n = 1).
    { destruct (Z.eq_dec (k mod (Z.of_nat N / 2)) 0) as [Hz|Hz]; [exists 0; auto|]. exists 1. right. destruct HR; [contradiction|auto]. }
    destruct HR' as (n & HR'). destruct (rotate_hoisted ce He g s Bs Be Dm c sc l rks k (k mod (Z.of_nat N / 2)) n HS) as (co & _ & _ & R); auto. { apply Z.mod_pos_bound. auto. } { apply cong_sym, cong_mod. lia. }
    left. exists (OCt None (mkCk co sc)). intros o c' st (Ho & Hc & Hs & Hst). destruct c' as [| | | | | | | |c2 k2 h2 rks2| |]; try contradiction; try discriminate. cbn in Hs. destruct Hs as (<- & <- & <-).
    destruct Hc as (? & ? & ? & ? & ? & l' & HS' & Hh2 & _). cbn [c_ct] in *. rewrite (level_unique l' l c (rs_ct _ _ _ _ _ _ _ HS') (rs_ct _ _ _ _ _ _ _ HS)) in Hh2.
    destruct (R o h2 st Ho Hh2 Hst) as (out & st2 & E2 & R1 & R2). eexists _, st2. cbn [runCall]. rewrite E2. cbn [bind]. split; [reflexivity|]. split; [|auto]. cbn. split; [auto|]. split; [now apply same_sym|auto].
  - destruct c as [c sc]. destruct Hc as (g & s & Bs & Be & Dm & l & HS & Hmax & HK). cbn [c_ct] in *. assert (S : forall c', same_call (CConjugate (mkCk c sc) cks) c' -> c' = CConjugate (mkCk c sc) cks) by (intros c' <-; reflexivity).
    destruct (conjugate_new ce He g s Bs Be Dm c sc l cks HS Hmax HK) as (co & _ & R).
    apply (uni_ct _ None co sc S). intros o st Ho Hst. destruct (R o st Ho Hst) as (out & st2 & E2 & R1 & R2). eexists _, st2. cbn [runCall]. rewrite E2. cbn [bind]. split; [reflexivity|]. auto.
  - destruct c as [c sc]. destruct Hc as (l & Hl & Hc). cbn [c_ct] in *. destruct (NewEvaluator o_id (e_lz env) (mkCkp pp (ce_scale ce))) as [c0 s0] eqn:EN. pose proof (NewEvaluator_ok o_id (e_lz env) (mkCkp pp (ce_scale ce)) (eo_pp _ He) o_id_ok) as HN. rewrite EN in HN. destruct HN as (_ & _ & _ & Hs0).
    destruct (hoisted_new ce He c sc l o_id s0 Hl Hc o_id_ok Hs0) as (hr & str & _ & Dr & Kr & _). left. exists (OHoisted hr). intros o c' st (Ho & _ & <- & Hst). destruct (hoisted_new ce He c sc l o st Hl Hc Ho Hst) as (h & st' & E & D & K & Hst').
    exists (OHoisted h), st'. cbn [runCall]. rewrite E. split; [reflexivity|]. split; [|auto]. cbn. intros id. assert (NP : forall x : hoisted, ~ In id (mkeys x) -> sget x id = None). { intros x Hx. destruct (sget x id) eqn:Ex; [|reflexivity]. apply (mget_key _ seqb) in Ex. contradiction. }
    destruct (in_dec string_dec id (mkeys h)) as [Hi|Hi].
    + apply K in Hi. destruct (Dr id Hi) as (p & s & k & k' & E1 & E2 & E3 & _ & E4). destruct (D id Hi) as (p' & s' & q & q' & F1 & _ & F3 & _ & F4). rewrite E1 in F1. injection F1 as <-. rewrite E3, F3. f_equal. eapply dec_pool; eauto.
    + rewrite (NP h Hi). apply NP. rewrite Kr, <- K. exact Hi.
Qed.
(** every state in the history of an evaluator is well formed *)
Lemma history_ok st : ev_history ce st -> ev_ok pp st.
Proof.
  induction 1 as [o lz st Ho E|st o c out st' _ IH Ho Hc E].
  - pose proof (NewEvaluator_ok o lz (mkCkp pp (ce_scale ce)) (eo_pp _ He) Ho) as H. rewrite E in H. apply H.
  - assert (Sc : same_call c c) by (destruct c; cbn; auto; tauto). destruct (call_uniform c Hc) as [(x & H)|(e & H)].
    + destruct (H o c st) as (out' & st2 & E2 & _ & Hs). { auto. } rewrite E in E2. now injection E2 as _ <-.
    + rewrite (H o c st) in E; [discriminate|auto].
Qed.
(** an evaluator in its first state *)
Lemma history_new : exists st, ev_history ce st.
Proof.
  destruct (NewEvaluator o_id (e_lz env) (mkCkp pp (ce_scale ce))) as [ce' st] eqn:E. exists st. apply (H_new ce o_id (e_lz env)); [apply o_id_ok|]. rewrite E. f_equal. unfold NewEvaluator, NewKeySwitcher in E. cbn in E. injection E as <- _.
  destruct ce as [[p x d lz] sc]. cbn in *. destruct He as [_ E1 E2]. cbn in *. congruence.
Qed.
(** C20 *)
Lemma history_indep c1 c2 st1 st2 o1 o2 : call_ok ce c1 -> call_ok ce c2 -> same_call c1 c2 -> ev_history ce st1 -> ev_history ce st2 -> order_ok o1 -> order_ok o2 ->
  same_result (runCall ce o1 c1 st1) (runCall ce o2 c2 st2).
Proof.
  intros K1 K2 Hs H1 H2 Ho1 Ho2. apply history_ok in H1, H2. assert (S1 : same_call c1 c1) by (destruct c1; cbn; auto; tauto). destruct (call_uniform c1 K1) as [(x & H)|(e & H)].
  - destruct (H o1 c1 st1) as (a & sa & Ea & Sa & _). { auto. } destruct (H o2 c2 st2) as (b & sb & Eb & Sb & _). { auto. } rewrite Ea, Eb. cbn. destruct x as [ex cx|hx], a as [ea ca|ha], b as [eb cb|hb]; try contradiction; cbn in *.
    + destruct Sa as (Sa1 & Sa & Sa2), Sb as (Sb1 & Sb & Sb2). split; [congruence|]. split; [|congruence]. eapply same_trans; [apply same_sym; exact Sa|exact Sb].
    + intros id. now rewrite <- Sa, <- Sb.
  - rewrite (H o1 c1 st1), (H o2 c2 st2) by auto. reflexivity.
Qed.
End C.

(** concrete case: shipped moduli, a product at the top level for a new evaluator, then the same product again with the pools of the key
    set as the first one left them *)
Lemma history_world : exists ce st1 st2 st3 rs rs' out out', env_ok (ce_env ce) /\ pa_Q (e_pp (ce_env ce)) = shippedQ /\ pa_P (e_pp (ce_env ce)) = shippedP /\ pa_logN (e_pp (ce_env ce)) = 15%nat /\
  let call rs := CMulRelin false (mkCk (ones_ct (e_pp (ce_env ce)) 20 ["a"; "b"]%string) sc38) (mkCk (ones_ct (e_pp (ce_env ce)) 20 ["b"]%string) sc38) rs in
  ev_history ce st1 /\ ev_history ce st2 /\ ev_history ce st3 /\ call_ok ce (call rs) /\ call_ok ce (call rs') /\ same_call (call rs) (call rs') /\
  runCall ce o_id (call rs) st1 = Ok (out, st2) /\ runCall ce o_id (call rs') st2 = Ok (out', st3).
Proof.
  destruct ev_world as (ce & st0 & rs & g & A & U & s & r & Dm & He & Hsc & _ & HQ & HP & HN & H). destruct (history_new ce He) as (st1 & H1). pose proof (history_ok ce He _ H1) as O1.
  assert (HC : QCount (e_pp (ce_env ce)) = 21%nat) by (unfold QCount; rewrite HQ; reflexivity). destruct (H 20%nat 20%nat ltac:(lia) ltac:(lia)) as (HS & R0 & R1 & HR).
  destruct (mul_relin_u ce He _ _ _ _ _ _ _ _ _ _ sc38 sc38 _ _ _ HS) as [G _]. destruct (G 1%nat HR) as (cout & _ & G1 & _). clear G.
  destruct (G1 false rs o_id st1) as (out & rs' & st2 & E & _ & _ & O2 & K & P0 & P1); [pose proof o_id_ok; auto|]. destruct (G1 false rs' o_id st2) as (out' & rs2 & st3 & E' & _ & _ & O3 & _); [rewrite K; pose proof o_id_ok; auto|].
  assert (C1 : call_ok ce (CMulRelin false (mkCk (ones_ct (e_pp (ce_env ce)) 20 ["a"; "b"]%string) sc38) (mkCk (ones_ct (e_pp (ce_env ce)) 20 ["b"]%string) sc38) rs)) by (do 10 eexists; cbn [c_ct]; eauto).
  assert (C2 : call_ok ce (CMulRelin false (mkCk (ones_ct (e_pp (ce_env ce)) 20 ["a"; "b"]%string) sc38) (mkCk (ones_ct (e_pp (ce_env ce)) 20 ["b"]%string) sc38) rs')).
  { do 10 eexists. cbn [c_ct]. split; [rewrite K; exact HS|]. auto. }
  exists ce, st1, st2, st3, rs, rs', (OCt None out), (OCt None out'). split; [auto|]. split; [auto|]. split; [auto|]. split; [auto|]. cbn zeta.
  assert (F1 : forall st rs out rs2 st', MulRelinNew ce o_id false (mkCk (ones_ct (e_pp (ce_env ce)) 20 ["a"; "b"]%string) sc38) (mkCk (ones_ct (e_pp (ce_env ce)) 20 ["b"]%string) sc38) rs st = Ok (out, rs2, st') ->
    runCall ce o_id (CMulRelin false (mkCk (ones_ct (e_pp (ce_env ce)) 20 ["a"; "b"]%string) sc38) (mkCk (ones_ct (e_pp (ce_env ce)) 20 ["b"]%string) sc38) rs) st = Ok (OCt None out, st')) by (intros ? ? ? ? ? X; cbn [runCall]; rewrite X; reflexivity).
  pose proof (F1 _ _ _ _ _ E) as F. pose proof (F1 _ _ _ _ _ E') as F'. assert (H2 : ev_history ce st2) by exact (H_call ce st1 o_id _ _ st2 H1 o_id_ok C1 F). assert (H3 : ev_history ce st3) by exact (H_call ce st2 o_id _ _ st3 H2 o_id_ok C2 F').
  split; [auto|]. split; [auto|]. split; [auto|]. split; [auto|]. split; [auto|]. split; [cbn; auto|]. auto.
Qed.
