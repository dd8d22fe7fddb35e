(** AddNew and SubNew. *)
From Coq Require Import String ZArith Znumtheory List Lia Setoid Morphisms Bool Permutation.
From Verif Require Import Spec SpecProofs Go GoProofs Lattigo LattigoProofs Arith Fermat NegRing NegRingProofs NTT NTTProofs F64 F64Proofs BasisExt BasisExtProofs ModDownProofs DecomposeProofs RingOps RingOpsProofs Maps MapsProofs Params Elements KeySwitch KeySets EncDec Utils Evaluator KSProofs KSMulProofs Crt ParamsProofs KSAlg KSNorm Repr SpecCt KSSem SpecEnc EncProofs EncThms CkEncThms SpecEv EvProofs RescaleProofs EvThms F64More EvFloat ConstProofs ConstThms.
Import ListNotations.
Local Open Scope Z_scope.
Local Open Scope list_scope.

Section C.
Context (ce : ckenv).
Notation pp := (e_pp (ce_env ce)).
Context (He : env_ok (ce_env ce)).
Notation N := (pa_N pp).
Notation rQ := (ringQ pp).
Notation qq j := (nth j (pa_Q pp) 0).
Let Hpp : params_ok pp := eo_pp _ He.
Let HrQ : ring_ok rQ := po_rQ _ Hpp.
Let HN : (0 < N)%nat := deg_pos _.

(** ** the pool *)
Lemma pad_fold (has : string -> bool) mk (L : list string) : forall el : ciphertext, NoDup (mkeys el) -> (forall id p, sget el id = Some p -> plen p = QCount pp) -> plen mk = QCount pp ->
  let el' := fold_left (fun el id => if has id then el else sset el id mk) L el in
  NoDup (mkeys el') /\ (forall id p, sget el' id = Some p -> plen p = QCount pp) /\ (forall id, In id (mkeys el) -> In id (mkeys el')) /\ (forall id, In id L -> has id = false -> In id (mkeys el')).
Proof.
  induction L as [|a L IH]; intros el H1 H2 H3; cbn. { split; [auto|]. split; [auto|]. split; [auto|intros id []]. }
  destruct (has a) eqn:Ea.
  - destruct (IH el H1 H2 H3) as (G1 & G2 & G3 & G4). split; [auto|]. split; [auto|]. split; [auto|]. intros id [->|Hi] Hh; [congruence|auto].
  - destruct (IH (sset el a mk)) as (G1 & G2 & G3 & G4); [apply mset_nodup; [exact seqb|auto]| |auto|].
    { intros id p E. rewrite (mget_mset _ seqb) in E. destruct (String.eqb id a); [injection E as <-; auto|eauto]. }
    assert (HK : forall id, In id (mkeys el) \/ id = a -> In id (mkeys (sset el a mk))).
    { intros id Hi. apply (mget_In _ seqb). rewrite (mget_mset _ seqb). destruct (String.eqb_spec id a); [discriminate|]. destruct Hi as [Hi|]; [|contradiction]. now apply (mget_In _ seqb). }
    split; [auto|]. split; [auto|]. split; [intros id Hi; apply G3, HK; now left|]. intros id [->|Hi] Hh; [apply G3, HK; now right|auto].
Qed.
Lemma pad_ok o st ids : order_ok o -> ev_ok pp st -> exists pool, PadCiphertext o (ev_ct st) ids = Ok pool /\ ev_ok pp (set_ct pool st) /\ forall id, In id (mkeys ids) -> In id (mkeys pool).
Proof.
  intros Ho [H1 H2 H3 H4 H5]. unfold PadCiphertext, sptr, mptr. destruct (mget_ex _ seqb _ _ H2) as (p0 & E0). rewrite E0. cbn [bind].
  destruct (ctIDSet_ok o (ev_ct st) Ho) as (old & -> & Hold & Hin). cbn [bind]. pose proof (H3 _ _ E0) as L0. pose proof (po_Q _ Hpp) as HQ. unfold plen in L0. rewrite (idx_nth (p_co p0) 0 []) by lia. cbn [bind].
  assert (EL : ctLevel (ev_ct st) = Ok (QCount pp - 1)%nat). { unfold ctLevel, sptr, mptr. rewrite E0. cbn [bind]. unfold plen. rewrite L0. destruct (QCount pp); [lia|]. f_equal. lia. }
  rewrite EL. cbn [bind]. set (mk := setNTT _ _). eexists. split; [reflexivity|].
  destruct (pad_fold (idHas old) mk (o 1%nat (mkeys ids)) (ev_ct st) H1 H3) as (G1 & G2 & G3 & G4).
  { subst mk. unfold plen, setNTT, newPoly. cbn. rewrite repeat_length. lia. }
  split. { constructor; cbn [ev_ct ev_q ev_k set_ct]; auto. }
  intros id Hi. destruct (idHas old id) eqn:Eh; [|apply G4; [now rewrite order_in|auto]]. apply G3. apply idHas_In in Eh. now apply Hin in Eh.
Qed.

(** ** an operand multiplied by an integer constant, written into the pool *)
Definition cscale (l : nat) (c : f64) : f64 := if needsScale c then f_of_Z (qq l) else f_of_Z 1.
Definition mc_ct (l : nat) (c : f64) (ct : ciphertext) : ciphertext :=
  upd_all (mkeys ct) (mc_comp ce l (kfst ce c f0 (cscale l c)) (ksnd ce c f0 (cscale l c)) ct ct) ct.
Lemma getConst_real l c : (l < QCount pp)%nat -> getConstAndScale ce l (KFloat c) = Ok (c, f0, cscale l c).
Proof. intros Hl. unfold getConstAndScale. unfold QCount in Hl. rewrite (idx_nth (pa_Q pp) l 0) by lia. reflexivity. Qed.
Lemma cscale_finite l c : (l < QCount pp)%nat -> finite (cscale l c).
Proof. intros Hl. destruct (qbig pp Hpp l Hl) as [Hq1 HqW]. rewrite W_val in HqW. unfold cscale. destruct (needsScale c); apply finite_q; lia. Qed.
Lemma mc_ct_spec l c ct : (l < QCount pp)%nat -> ct_ok pp l ct -> finite c ->
  ct_ok pp l (mc_ct l c ct) /\ mkeys (mc_ct l c ct) = mkeys ct /\ times_const pp l (scaled_const c (cscale l c)) ct (mc_ct l c ct).
Proof.
  intros Hl Hc Fc. destruct (mult_gen ce He c f0 (cscale l c) (KFloat c) ct f0 ct f0 l l Hl Hc) as (cout & E & Hco & HK & HL & _); auto.
  { split; [auto|]. split; [auto|tauto]. } { rewrite Nat.min_id. now apply getConst_real. } { exact I. } { now apply cscale_finite. }
  assert (cout = mc_ct l c ct) as ->.
  { specialize (E o_id o_id_ok). unfold MultByConst in E. cbn [c_ct c_scale] in E. rewrite (ct_level (ce_env ce) l ct Hc) in E. cbn [bind] in E. rewrite Nat.min_id, (getConst_real l c Hl) in E. cbn [bind] in E.
    rewrite (mult_loop ce He l (kfst ce c f0 (cscale l c)) (ksnd ce c f0 (cscale l c))) in E; auto using o_id_ok; try apply Hc.
    - cbn [bind] in E. injection E as E. symmetry. exact E.
    - intros j Hj. destruct (multConsts_ok ce He c f0 (cscale l c) j ltac:(lia) Fc I (cscale_finite l c Hl)) as (a & b & E1 & _). unfold kfst, ksnd. now rewrite E1.
    - intros id Hi. destruct (mget_ex _ seqb ct id Hi) as (a & Ea). exists a, a. destruct (ck_comp _ _ _ Hc id a Ea) as (_ & La & _). repeat split; auto; lia. }
  split; [auto|]. split; [auto|]. intros id j Hi Hj. rewrite Nat.min_id in HL. change (modulus (pa_Q pp) j) with (qq j). rewrite (HL id j Hi Hj). rewrite (scaled_zero f0 _ eq_refl (cscale_finite l c Hl)).
  intros x _. unfold half_scaled, pscale. destruct (x <? N / 2)%nat; apply cong_eq; ring.
Qed.
(** tmp has T's limbs up to l *)
Definition agree (l : nat) (T tmp : ciphertext) : Prop := forall id, In id (mkeys T) -> exists a t, sget T id = Some a /\ sget tmp id = Some t /\ (l < plen t)%nat /\ forall j, (j <= l)%nat -> nth j (p_co t) [] = nth j (p_co a) [].
Lemma agree_refl l l' T : ct_ok pp l' T -> (l <= l')%nat -> agree l T T.
Proof. intros Hc Hl id Hi. destruct (mget_ex _ seqb T id Hi) as (a & E). exists a, a. destruct (ck_comp _ _ _ Hc id a E) as (_ & L & _). repeat split; auto. lia. Qed.
Lemma agree_le l l' T tmp : (l <= l')%nat -> agree l' T tmp -> agree l T tmp.
Proof. intros Hl H id Hi. destruct (H id Hi) as (a & t & E1 & E2 & L & R). exists a, t. repeat split; auto; [lia|]. intros j Hj. apply R. lia. Qed.
Lemma into_pool l c ct sc so st o : (l < QCount pp)%nat -> ct_ok pp l ct -> finite c -> order_ok o -> ev_ok pp st -> (forall id, In id (mkeys ct) -> In id (mkeys (ev_ct st))) ->
  exists pool sc', MultByConst ce o (mkCk ct sc) (KFloat c) (mkCk (ev_ct st) so) = Ok (mkCk pool sc') /\ ev_ok pp (set_ct pool st) /\ agree l (mc_ct l c ct) pool.
Proof.
  intros Hl Hc Fc Ho [H1 H2 H3 H4 H5] Hk. set (lo := kfst ce c f0 (cscale l c)). set (hi := ksnd ce c f0 (cscale l c)).
  assert (Hg : forall id, In id (mkeys ct) -> exists a p, sget ct id = Some a /\ sget (ev_ct st) id = Some p /\ (l < plen a)%nat /\ (l < plen p)%nat /\ plen p = QCount pp).
  { intros id Hi. destruct (mget_ex _ seqb ct id Hi) as (a & Ea). destruct (mget_ex _ seqb _ id (Hk id Hi)) as (p & Ep). exists a, p. destruct (ck_comp _ _ _ Hc id a Ea) as (_ & La & _). pose proof (H3 _ _ Ep). repeat split; auto; lia. }
  exists (upd_all (mkeys ct) (mc_comp ce l lo hi ct (ev_ct st)) (ev_ct st)), (fmul sc (cscale l c)). split; [|split].
  - unfold MultByConst. cbn [c_ct c_scale]. rewrite (ct_level (ce_env ce) l ct Hc). cbn [bind].
    assert (EL : ctLevel (ev_ct st) = Ok (QCount pp - 1)%nat). { unfold ctLevel, mptr. destruct (mget_ex _ seqb _ _ H2) as (p0 & E0). rewrite E0. cbn [bind]. rewrite (H3 _ _ E0). pose proof (po_Q _ Hpp). destruct (QCount pp); [lia|]. f_equal. lia. }
    rewrite EL. cbn [bind]. rewrite Nat.min_l by lia. rewrite (getConst_real l c Hl). cbn [bind].
    rewrite (mult_loop ce He l lo hi); auto; try apply Hc.
    + intros j Hj. destruct (multConsts_ok ce He c f0 (cscale l c) j ltac:(lia) Fc I (cscale_finite l c Hl)) as (a & b & E1 & _). unfold lo, hi, kfst, ksnd. now rewrite E1.
    + intros id Hi. destruct (Hg id Hi) as (a & p & ? & ? & ? & ? & _). eauto 6.
  - constructor; cbn [ev_ct ev_q ev_k set_ct]; rewrite ?upd_all_keys; auto. intros id p E. rewrite upd_all_get in E. destruct (sget (ev_ct st) id) as [p0|] eqn:Ep; [|discriminate]. injection E as <-. destruct (inb id (mkeys ct)) eqn:Eb; [|eauto].
    apply inb_In in Eb. destruct (Hg id Eb) as (a & p & Ea & Ep1 & La & Lp & Lq). rewrite Ep in Ep1. injection Ep1 as <-. unfold mc_comp. rewrite Ea, Ep. unfold plen in *. cbn [p_co]. rewrite app_length, map_length, seq_length, skipn_length. lia.
  - intros id Hi. unfold mc_ct in Hi. rewrite upd_all_keys in Hi. destruct (Hg id Hi) as (a & p & Ea & Ep & La & Lp & Lq). pose proof (proj2 (inb_In id (mkeys ct)) Hi) as Eb.
    exists (mc_comp ce l lo hi ct ct id), (mc_comp ce l lo hi ct (ev_ct st) id). split; [unfold mc_ct; rewrite upd_all_get, Ea, Eb; reflexivity|]. split; [rewrite upd_all_get, Ep, Eb; reflexivity|].
    unfold mc_comp. rewrite Ea, Ep. unfold plen in *. cbn [p_co]. split; [rewrite app_length, map_length, seq_length; lia|]. intros j Hj. rewrite !app_nth1 by (rewrite map_length, seq_length; lia). reflexivity.
Qed.

(** ** component-wise combination *)
Definition comb (op : Z -> list Z -> list Z -> list Z) (l : nat) (T0 T1 : ciphertext) (id : string) : poly :=
  mkPoly false (map (fun j => match sget T0 id, sget T1 id with
    | Some a, Some b => op (qq j) (nth j (p_co a) []) (nth j (p_co b) [])
    | Some a, None => nth j (p_co a) [] | None, Some b => nth j (p_co b) [] | None, None => [] end) (seq 0 (l + 1))).
Lemma poly_rows p q l : p_ntt p = p_ntt q -> plen p = (l + 1)%nat -> plen q = (l + 1)%nat -> (forall j, (j <= l)%nat -> nth j (p_co p) [] = nth j (p_co q) []) -> p = q.
Proof.
  destruct p as [n1 c1], q as [n2 c2]. cbn. intros -> L1 L2 H. f_equal. unfold plen in *. cbn in *. apply (nth_ext _ _ [] []); [lia|]. intros j Hj. apply H. lia.
Qed.
Lemma comb_len op l T0 T1 id : plen (comb op l T0 T1 id) = (l + 1)%nat.
Proof. unfold plen, comb. cbn. now rewrite map_length, seq_length. Qed.
Lemma comb_row op l T0 T1 id j : (j <= l)%nat -> nth j (p_co (comb op l T0 T1 id)) [] = match sget T0 id, sget T1 id with
    | Some a, Some b => op (qq j) (nth j (p_co a) []) (nth j (p_co b) [])
    | Some a, None => nth j (p_co a) [] | None, Some b => nth j (p_co b) [] | None, None => [] end.
Proof. intros Hj. unfold comb. cbn [p_co]. rewrite (nth_map_seq _ _ j) by lia. reflexivity. Qed.

Lemma step_op op l T0 T1 tmp0 tmp1 id a b p : (l < QCount pp)%nat -> agree l T0 tmp0 -> agree l T1 tmp1 -> In id (mkeys T0) -> In id (mkeys T1) ->
  sget tmp0 id = Some a -> sget tmp1 id = Some b -> p_ntt p = false -> plen p = (l + 1)%nat -> lvl2 rQ op l a b p = Ok (comb op l T0 T1 id).
Proof.
  intros Hl A0 A1 I0 I1 Ea Eb Np Lp. destruct (A0 id I0) as (a0 & a' & F1 & F2 & F3 & F4). rewrite Ea in F2. injection F2 as <-. destruct (A1 id I1) as (b0 & b' & G1 & G2 & G3 & G4). rewrite Eb in G2. injection G2 as <-.
  destruct (lvl2_ok rQ op l a b p HrQ) as (d & E & (W1 & W2 & W3) & HR); auto; try lia. rewrite E. f_equal. apply (poly_rows d _ l).
  - rewrite W1. exact Np. - rewrite W2. exact Lp. - apply comb_len.
  - intros j Hj. rewrite HR, comb_row, F1, G1, F4, G4 by lia. reflexivity.
Qed.
Lemma step_copy op l T0 T1 tmp id a b p : (l < QCount pp)%nat -> agree l T0 tmp -> In id (mkeys T0) -> ~ In id (mkeys T1) ->
  sget tmp id = Some a -> p_ntt p = false -> plen p = (l + 1)%nat -> b = comb op l T0 T1 id \/ b = comb op l T1 T0 id -> CopyValuesLvl rQ l a p = Ok b.
Proof.
  intros Hl A0 I0 I1 Ea Np Lp Hb. destruct (A0 id I0) as (a0 & a' & F1 & F2 & F3 & F4). rewrite Ea in F2. injection F2 as <-.
  assert (G1 : sget T1 id = None) by (destruct (sget T1 id) eqn:E; auto; exfalso; apply I1; eapply mget_key; eauto; exact seqb).
  unfold CopyValuesLvl. destruct (lvl1_ok rQ (fun _ _ x => x) l a p HrQ) as (d & E & (W1 & W2 & W3) & HR); auto; try lia. rewrite E. f_equal.
  assert (Hrow : forall j, (j <= l)%nat -> nth j (p_co b) [] = nth j (p_co a0) []) by (intros j Hj; destruct Hb as [-> | ->]; rewrite comb_row, F1, G1 by lia; reflexivity).
  apply (poly_rows d _ l).
  - rewrite W1, Np. now destruct Hb as [-> | ->]. - rewrite W2. exact Lp. - destruct Hb as [-> | ->]; apply comb_len.
  - intros j Hj. rewrite HR, Hrow, F4 by lia. reflexivity.
Qed.

(** the operand as evaluateInPlace uses it *)
Definition opnd (l : nat) (ct : ciphertext) (s s' : f64) : ciphertext := if ratioAbove s' s then mc_ct l (ffloor (fdiv s' s)) ct else ct.
Definition ratio_ok (s s' : f64) : Prop := ratioAbove s' s = true -> finite (ffloor (fdiv s' s)).
Lemma opnd_spec l ct s s' : (l < QCount pp)%nat -> ct_ok pp l ct -> ratio_ok s s' -> ct_ok pp l (opnd l ct s s') /\ mkeys (opnd l ct s s') = mkeys ct /\
  times_const pp l (if ratioAbove s' s then scaled_const (ffloor (fdiv s' s)) (cscale l (ffloor (fdiv s' s))) else 1) ct (opnd l ct s s').
Proof.
  intros Hl Hc Hr. unfold opnd. destruct (ratioAbove s' s) eqn:E. { now apply mc_ct_spec; auto. }
  split; [auto|]. split; [auto|]. intros id j _ _ x _. unfold pscale. apply cong_eq. ring.
Qed.
Definition one_side (s0 s1 : f64) : Prop := ratioAbove s1 s0 = true -> ratioAbove s0 s1 = false.

Theorem evaluate_ok op o c0 c1 s0 s1 l0 l1 ids so st : (l0 < QCount pp)%nat -> (l1 < QCount pp)%nat -> ct_ok pp l0 c0 -> ct_ok pp l1 c1 -> ratio_ok s0 s1 -> ratio_ok s1 s0 -> one_side s0 s1 ->
  order_ok o -> ev_ok pp st -> (forall x, In x (mkeys ids) <-> (In x (mkeys c0) \/ In x (mkeys c1)) /\ x <> "0"%string) ->
  let l := Nat.min l0 l1 in let out := NewCiphertext o pp ids l in
  exists st', evaluateInPlace ce (lvl2 rQ op) o (mkCk c0 s0) (mkCk c1 s1) (mkCk out so) st = Ok (mkCk (upd_all (mkeys out) (comb op l (opnd l0 c0 s0 s1) (opnd l1 c1 s1 s0)) out) so, st') /\ ev_ok pp st'.
Proof.
  intros Hl0 Hl1 Hc0 Hc1 Hr0 Hr1 Hone Ho Hst Hids l out. unfold evaluateInPlace. cbn [c_ct c_scale].
  destruct (ctIDSet_ok o c0 Ho) as (i0 & -> & Ok0 & K0). cbn [bind]. destruct (ctIDSet_ok o c1 Ho) as (i1 & -> & Ok1 & K1). cbn [bind]. destruct (idUnion_ok o i0 i1 Ho Ok0 Ok1) as (iu & -> & Oku & Ku). cbn [bind].
  destruct (pad_ok o st iu Ho Hst) as (pool & -> & Hst1 & Hpool). cbn [bind].
  destruct (NewCiphertext_ok o pp ids l Ho) as (A1 & A2 & A3). fold out in A1, A2, A3. change z0 with "0"%string in A2.
  rewrite (ct_level (ce_env ce) l0 c0 Hc0), (ct_level (ce_env ce) l1 c1 Hc1). cbn [bind].
  assert (Hz : forall id, In id (mkeys out) -> exists p, sget out id = Some p /\ p_ntt p = false /\ plen p = (l + 1)%nat).
  { intros id Hi. destruct (mget_ex _ seqb out id Hi) as (p & E). exists p. split; [exact E|]. rewrite (A3 _ _ E). split; [reflexivity|]. unfold plen, newPoly. cbn. now rewrite repeat_length. }
  assert (In0 : In "0"%string (mkeys out)) by (apply A2; now left).
  assert (EL : ctLevel out = Ok l). { destruct (Hz _ In0) as (p & E & _ & L). unfold ctLevel, mptr. rewrite E. cbn [bind]. rewrite L, Nat.add_1_r. reflexivity. }
  rewrite EL. cbn [bind]. fold l. rewrite Nat.min_id, Nat.ltb_irrefl. cbn [bind]. cbn [c_ct c_scale].
  assert (HP : forall id, In id (mkeys c0) \/ In id (mkeys c1) -> In id (mkeys pool)).
  { intros id Hi. destruct (String.eqb_spec id "0") as [->|Hne]; [apply (eo_0 _ _ Hst1)|]. apply Hpool, idHas_In. rewrite Ku. apply orb_true_iff. rewrite !idHas_In, K0, K1. tauto. }
  set (T0 := opnd l0 c0 s0 s1). set (T1 := opnd l1 c1 s1 s0). destruct (opnd_spec l0 c0 s0 s1 Hl0 Hc0 Hr0) as (HT0 & KT0 & _). destruct (opnd_spec l1 c1 s1 s0 Hl1 Hc1 Hr1) as (HT1 & KT1 & _). fold T0 in HT0, KT0. fold T1 in HT1, KT1.
  match goal with |- exists st', bind ?m _ = _ /\ _ => assert (Htmp : exists tmp0 tmp1 st', m = Ok (tmp0, tmp1, st') /\ ev_ok pp st' /\ agree l T0 tmp0 /\ agree l T1 tmp1) end.
  { destruct (ratioAbove s1 s0) eqn:R0.
    - destruct (into_pool l0 (ffloor (fdiv s1 s0)) c0 s0 so (set_ct pool st) o Hl0 Hc0 (Hr0 R0) Ho Hst1) as (po & sc' & E & Hp & Ha); [cbn; auto|]. rewrite E. cbn [bind c_ct]. eexists _, _, _. split; [reflexivity|]. split; [exact Hp|].
      split. + subst T0. unfold opnd. rewrite R0. eapply agree_le; [|exact Ha]. lia. + subst T1. unfold opnd. rewrite (Hone R0). eapply agree_refl; [exact Hc1|lia].
    - destruct (ratioAbove s0 s1) eqn:R1.
      + destruct (into_pool l1 (ffloor (fdiv s0 s1)) c1 s1 so (set_ct pool st) o Hl1 Hc1 (Hr1 R1) Ho Hst1) as (po & sc' & E & Hp & Ha); [cbn; auto|]. rewrite E. cbn [bind c_ct]. eexists _, _, _. split; [reflexivity|]. split; [exact Hp|].
        split. * subst T0. unfold opnd. rewrite R0. eapply agree_refl; [exact Hc0|lia]. * subst T1. unfold opnd. rewrite R1. eapply agree_le; [|exact Ha]. lia.
      + eexists _, _, _. split; [reflexivity|]. split; [exact Hst1|]. subst T0 T1. unfold opnd. rewrite R0, R1. split; eapply agree_refl; eauto; lia. }
  destruct Htmp as (tmp0 & tmp1 & st2 & -> & Hst2 & G0 & G1). cbn [bind].
  assert (Z0 : In "0"%string (mkeys T0)) by apply HT0. assert (Z1 : In "0"%string (mkeys T1)) by apply HT1.
  set (G := comb op l T0 T1).
  destruct (G0 _ Z0) as (a0' & a0 & _ & Ea0 & _). destruct (G1 _ Z1) as (b0' & b0 & _ & Eb0 & _). unfold sptr, mptr. rewrite Ea0, Eb0. cbn [bind]. destruct (Hz _ In0) as (p0 & E0 & N0 & L0). unfold ctUpd at 1, mptr. rewrite E0. cbn [bind].
  rewrite (step_op op l T0 T1 tmp0 tmp1 "0"%string a0 b0 p0) by (auto; lia). cbn [bind]. fold G.
  assert (Eout : sset out "0"%string (G "0"%string) = upd_all ["0"%string] G out).
  { apply mget_eq. - rewrite (mkeys_mset_in _ seqb), upd_all_keys; auto. - apply mset_nodup; [exact seqb|auto].
    - intros k Hk. rewrite (mget_mset _ seqb), upd_all_get. cbn [inb existsb]. destruct (String.eqb_spec k "0") as [->|]; [rewrite E0; reflexivity|]. cbn. destruct (sget out k); reflexivity. }
  rewrite Eout. set (out1 := upd_all ["0"%string] G out). destruct (ctIDSet_ok o out1 Ho) as (io & -> & Oko & Ko). cbn [bind].
  assert (K1' : mkeys out1 = mkeys out) by apply upd_all_keys.
  match goal with |- context [foldM ?F (o 2%nat (mkeys io)) out1] => assert (EF : foldM F (o 2%nat (mkeys io)) out1 = Ok (upd_all (o 2%nat (mkeys io)) G out1)) end.
  { apply fold_upd0; [now rewrite K1'|apply order_nodup; [auto|apply Oko]| |].
    - intros c id Hi _ Ec. rewrite order_in in Hi by auto. apply Ko in Hi as [Hi Hne]. rewrite K1' in Hi. pose proof (proj1 (A2 id) Hi) as Hi2. destruct Hi2 as [|Hi2]; [contradiction|]. apply Hids in Hi2 as [Hi2 _].
      destruct (Hz id Hi) as (p & Ep & Np & Lp). assert (Ec2 : sget c id = Some p). { rewrite Ec. unfold out1. rewrite upd_all_get, Ep. cbn [inb existsb]. destruct (String.eqb_spec id "0"); [contradiction|reflexivity]. }
      assert (B0 : idHas i0 id = true <-> In id (mkeys T0)) by (rewrite idHas_In, K0, KT0; tauto). assert (B1 : idHas i1 id = true <-> In id (mkeys T1)) by (rewrite idHas_In, K1, KT1; tauto).
      destruct (idHas i0 id) eqn:I0; cbn [negb].
      + pose proof (proj1 B0 eq_refl) as J0. destruct (G0 id J0) as (a' & a & _ & Ea & _). destruct (idHas i1 id) eqn:I1; cbn [negb].
        * pose proof (proj1 B1 eq_refl) as J1. destruct (G1 id J1) as (b' & b & _ & Eb & _). rewrite Ea, Eb. cbn [bind]. unfold ctUpd, mptr. rewrite Ec2. cbn [bind]. rewrite (step_op op l T0 T1 tmp0 tmp1 id a b p) by (auto; lia). reflexivity.
        * assert (J1 : ~ In id (mkeys T1)) by (rewrite <- B1; discriminate). rewrite Ea. cbn [bind]. unfold ctUpd, mptr. rewrite Ec2. cbn [bind]. rewrite (step_copy op l T0 T1 tmp0 id a (G id) p) by (auto; lia). reflexivity.
      + assert (J0 : ~ In id (mkeys T0)) by (rewrite <- B0; discriminate). assert (J1 : In id (mkeys T1)). { rewrite KT1. rewrite KT0 in J0. tauto. }
        destruct (G1 id J1) as (b' & b & _ & Eb & _). rewrite Eb. cbn [bind]. unfold ctUpd, mptr. rewrite Ec2. cbn [bind]. rewrite (step_copy op l T1 T0 tmp1 id b (G id) p) by (auto; lia). reflexivity.
    - intros id Hi. rewrite order_in in Hi by auto. now apply Ko in Hi. }
  exists st2. split; [|exact Hst2]. rewrite EF. cbn [bind].
  match goal with |- Ok (mkCk ?a _, _) = Ok (mkCk ?b _, _) => assert (X : a = b); [|rewrite X; reflexivity] end.
  apply mget_eq; [rewrite !upd_all_keys; exact K1'|rewrite upd_all_keys, K1'; exact A1|]. intros k Hk. rewrite upd_all_keys, K1' in Hk. rewrite !upd_all_get. unfold out1. rewrite upd_all_get. destruct (sget out k) as [p|] eqn:Ep; auto. f_equal.
  rewrite (proj2 (inb_In k (mkeys out)) Hk). destruct (inb k (o 2%nat (mkeys io))) eqn:Eb; auto. cbn [inb existsb]. destruct (String.eqb_spec k "0") as [->|Hne]; [reflexivity|]. exfalso.
  assert (In k (o 2%nat (mkeys io))) as X; [|apply inb_In in X; congruence]. rewrite order_in by auto. apply Ko. rewrite K1'. auto.
Qed.

(** ** what the combination means *)
Definition opsem (op : Z -> list Z -> list Z -> list Z) (g : zpoly -> zpoly -> zpoly) : Prop :=
  forall q x y A B, okmod q -> lrep N q (q + 1) x A -> lrep N q (q + 1) y B -> lrep N q (q + 1) (op q x y) (g A B).
Definition addop (q : Z) := pw2 (fun x y => CRed (wadd x y) q).
Definition subop (q : Z) := pw2 (fun x y => CRed (wsub (wadd x q) y) q).
Lemma add_sem : opsem addop padd.
Proof.
  intros q x y A B Hok Hx Hy. eapply pw2_lrep; [exact Hx|exact Hy|]. intros i u v Hi Hu Hv Cu Cv. destruct (CRed_add_spec u v q (q + 1) (q + 1) (q + 1) Hok) as [B1 B2]; auto; try lia. split; [exact B1|]. rewrite B2. unfold padd. now apply cong_add.
Qed.
Lemma sub_sem : opsem subop psub.
Proof.
  intros q x y A B Hok Hx Hy. eapply pw2_lrep; [exact Hx|exact Hy|]. intros i u v Hi Hu Hv Cu Cv. destruct (CRed_sub_spec u v q (q + 1) Hok) as [B1 B2]; auto; try lia. split; [exact B1|]. rewrite B2. unfold psub. now apply cong_sub.
Qed.
Lemma comb_lrep op g l l0 l1 T0 T1 id j : opsem op g -> (l <= l0)%nat -> (l <= l1)%nat -> (l < QCount pp)%nat -> ct_ok pp l0 T0 -> ct_ok pp l1 T1 -> (j <= l)%nat -> In id (mkeys T0) \/ In id (mkeys T1) ->
  lrep N (qq j) (qq j + 1) (nth j (p_co (comb op l T0 T1 id)) [])
    (if inb id (mkeys T0) then if inb id (mkeys T1) then g (limb T0 id j) (limb T1 id j) else limb T0 id j else limb T1 id j).
Proof.
  intros Hop H0 H1 Hl HT0 HT1 Hj Hid. rewrite comb_row by auto.
  assert (X0 : inb id (mkeys T0) = match sget T0 id with Some _ => true | None => false end).
  { destruct (sget T0 id) eqn:E. - apply inb_In. eapply mget_key; eauto. exact seqb. - destruct (inb id (mkeys T0)) eqn:E2; auto. apply inb_In, (mget_In _ seqb) in E2. congruence. }
  assert (X1 : inb id (mkeys T1) = match sget T1 id with Some _ => true | None => false end).
  { destruct (sget T1 id) eqn:E. - apply inb_In. eapply mget_key; eauto. exact seqb. - destruct (inb id (mkeys T1)) eqn:E2; auto. apply inb_In, (mget_In _ seqb) in E2. congruence. }
  destruct Hid as [Hid|Hid]; apply inb_In in Hid.
  - rewrite Hid in *. destruct (sget T0 id) as [a|] eqn:Ea; [|discriminate]. pose proof (limb_lrep ce l0 T0 id a j HT0 Ea ltac:(lia)) as R0. rewrite X1. destruct (sget T1 id) as [b|] eqn:Eb; [|exact R0].
    apply Hop; [apply (ring_okm' ce He); lia|exact R0|]. apply (limb_lrep ce l1); auto. lia.
  - rewrite Hid in *. destruct (sget T1 id) as [b|] eqn:Eb; [|discriminate]. pose proof (limb_lrep ce l1 T1 id b j HT1 Eb ltac:(lia)) as R1. rewrite X0. destruct (sget T0 id) as [a|] eqn:Ea; [|exact R1].
    apply Hop; [apply (ring_okm' ce He); lia| |exact R1]. apply (limb_lrep ce l0); auto. lia.
Qed.
End C.
