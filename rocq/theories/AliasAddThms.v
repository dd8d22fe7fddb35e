(** What add and sub compute when the receiver may be an operand. *)
From Coq Require Import Reals String ZArith Znumtheory List Lia Setoid Morphisms Bool Permutation.
From Coq.Floats Require Import SpecFloat.
From Verif Require Import Spec SpecProofs Go GoProofs Lattigo LattigoProofs Arith Fermat NegRing NegRingProofs NTT NTTProofs F64 F64Proofs BasisExt BasisExtProofs ModDownProofs DecomposeProofs RingOps RingOpsProofs Maps MapsProofs Params Elements KeySwitch KeySets EncDec Utils Evaluator KSProofs KSMulProofs Crt ParamsProofs KSAlg KSNorm Repr SpecCt KSSem SpecEnc EncProofs EncThms CkEncThms SpecEv EvProofs RescaleProofs EvThms F64More EvFloat ConstProofs ConstThms AddProofs ElemThms AddThms Alias AliasConst AliasAdd SpecInPlace AliasAddProofs.
Import ListNotations.
Local Open Scope Z_scope.
Local Open Scope list_scope.

Section C.
Context (ce : ckenv).
Notation pp := (e_pp (ce_env ce)).
Context (He : env_ok (ce_env ce)).
Notation N := (pa_N pp).
Notation rQ := (ringQ pp).
Notation qq j := (nth j (pa_Q pp) 0).
Let Hpp : params_ok pp := eo_pp _ He.
Let HrQ : ring_ok rQ := po_rQ _ Hpp.
Let HN : (0 < N)%nat := deg_pos _.

Lemma ratio_self s : ratioAbove s s = false.
Proof. unfold ratioAbove. now rewrite fltb_irrefl. Qed.

(** ** the components of some parties *)
Lemma only_keys K ct id : In id (mkeys (only K ct)) <-> In id K /\ In id (mkeys ct).
Proof.
  unfold only, mkeys. rewrite !in_map_iff. split.
  - intros ([k p] & <- & H). apply filter_In in H as [H1 H2]. cbn in *. destruct (in_dec string_dec k K); [|discriminate]. split; [auto|]. now exists (k, p).
  - intros [H ([k p] & <- & H2)]. exists (k, p). split; [reflexivity|]. apply filter_In. split; [auto|]. cbn in *. destruct (in_dec string_dec k K); [reflexivity|contradiction].
Qed.
Lemma only_nd K ct : NoDup (mkeys ct) -> NoDup (mkeys (only K ct)).
Proof.
  unfold only, mkeys. induction ct as [|[k p] ct IH]; cbn; [auto|]. intros H. inversion H as [|x xs H1 H2 EE]; subst. destruct (in_dec string_dec k K); [|auto]. cbn. constructor; [|auto].
  intros X. apply H1. apply in_map_iff in X as ([k' p'] & E & X). apply filter_In in X as [X _]. apply in_map_iff. now exists (k', p').
Qed.
Lemma only_get K ct id : In id K -> sget (only K ct) id = sget ct id.
Proof.
  intros H. unfold only. induction ct as [|[k p] ct IH]; [reflexivity|]. cbn. destruct (in_dec string_dec k K) as [Hk|Hk]; cbn.
  - destruct (String.eqb id k); [reflexivity|exact IH].
  - rewrite IH. destruct (String.eqb_spec id k) as [->|]; [contradiction|reflexivity].
Qed.
Lemma only_limb K ct id j : In id K -> forall x, limb (only K ct) id j x = limb ct id j x.
Proof. intros H x. unfold limb. now rewrite (only_get K ct id H). Qed.
Lemma only_all K ct : (forall id, In id (mkeys ct) -> In id K) -> only K ct = ct.
Proof.
  unfold only, mkeys. induction ct as [|[k p] ct IH]; cbn; [reflexivity|]. intros H. destruct (in_dec string_dec k K) as [|Hx]; [|exfalso; apply Hx; auto]. f_equal. apply IH. auto.
Qed.

Section Bin.
Context (src0 src1 : option ckct) (out : ckct) (l0 l1 lo : nat).
Let c0 := c_ct (rd src0 out).
Let c1 := c_ct (rd src1 out).
Let s0 := c_scale (rd src0 out).
Let s1 := c_scale (rd src1 out).
Let K := mkeys (c_ct out).
Hypothesis (Hl0 : (l0 < QCount pp)%nat) (Hl1 : (l1 < QCount pp)%nat) (Hc0 : ct_ok pp l0 c0) (Hc1 : ct_ok pp l1 c1) (Hco : ct_ok pp lo (c_ct out)).
Hypothesis (Hr0 : ratio_ok s0 s1) (Hr1 : ratio_ok s1 s0) (Hone : one_side s0 s1).
Hypothesis (HK : forall id, In id K -> In id (mkeys c0) \/ In id (mkeys c1)).
Let l := Nat.min (Nat.min l0 l1) lo.
(** the operands after DropLevel *)
Let l0' := if isNone src0 then l else l0.
Let l1' := if isNone src1 then l else l1.
Let d0 := if isNone src0 then cut (l + 1) c0 else c0.
Let d1 := if isNone src1 then cut (l + 1) c1 else c1.
Let T0 := opnd ce l0' d0 s0 s1.
Let T1 := opnd ce l1' d1 s1 s0.
Let R := if isNone src0 then T0 else if isNone src1 then T1 else cut (l + 1) (c_ct out).
Let sc := if isNone src0 then if ratioAbove s1 s0 then s1 else s0 else if isNone src1 then if ratioAbove s0 s1 then s0 else s1 else c_scale out.

Lemma Hl : (l < QCount pp)%nat. Proof. subst l. lia. Qed.
Lemma l0lo : src0 = None -> l0 = lo.
Proof. intros E. pose proof (ct_level (ce_env ce) l0 c0 Hc0) as A. pose proof (ct_level (ce_env ce) lo _ Hco) as B. unfold c0 in A. rewrite E in A. cbn [rd] in A. congruence. Qed.
Lemma l1lo : src1 = None -> l1 = lo.
Proof. intros E. pose proof (ct_level (ce_env ce) l1 c1 Hc1) as A. pose proof (ct_level (ce_env ce) lo _ Hco) as B. unfold c1 in A. rewrite E in A. cbn [rd] in A. congruence. Qed.
Lemma d0_ok : ct_ok pp l0' d0 /\ mkeys d0 = mkeys c0 /\ (l <= l0')%nat /\ (l0' < QCount pp)%nat /\ forall id j x, (j <= l)%nat -> limb d0 id j x = limb c0 id j x.
Proof.
  pose proof Hl. subst l0' d0. destruct (isNone src0).
  - split; [apply (cut_ok ce l0); [subst l; lia|exact Hc0]|]. split; [apply cut_keys|]. split; [lia|]. split; [lia|]. intros. apply cut_limb. lia.
  - split; [exact Hc0|]. split; [reflexivity|]. split; [subst l; lia|]. split; [exact Hl0|reflexivity].
Qed.
Lemma d1_ok : ct_ok pp l1' d1 /\ mkeys d1 = mkeys c1 /\ (l <= l1')%nat /\ (l1' < QCount pp)%nat /\ forall id j x, (j <= l)%nat -> limb d1 id j x = limb c1 id j x.
Proof.
  pose proof Hl. subst l1' d1. destruct (isNone src1).
  - split; [apply (cut_ok ce l1); [subst l; lia|exact Hc1]|]. split; [apply cut_keys|]. split; [lia|]. split; [lia|]. intros. apply cut_limb. lia.
  - split; [exact Hc1|]. split; [reflexivity|]. split; [subst l; lia|]. split; [exact Hl1|reflexivity].
Qed.
Lemma T0_ok : ct_ok pp l0' T0 /\ mkeys T0 = mkeys c0.
Proof. destruct d0_ok as (A & B & _ & C & _). destruct (opnd_spec ce He l0' d0 s0 s1 C A Hr0) as (D & E & _). split; [exact D|]. unfold T0. now rewrite E. Qed.
Lemma T1_ok : ct_ok pp l1' T1 /\ mkeys T1 = mkeys c1.
Proof. destruct d1_ok as (A & B & _ & C & _). destruct (opnd_spec ce He l1' d1 s1 s0 C A Hr1) as (D & E & _). split; [exact D|]. unfold T1. now rewrite E. Qed.
Lemma R_ok : ct_ok pp l R /\ mkeys R = K.
Proof.
  destruct T0_ok as [A0 B0]. destruct T1_ok as [A1 B1]. unfold R, l0', l1', K, c0, c1 in *. clearbody T0 T1. destruct src0; cbn [isNone rd] in *; [destruct src1; cbn [isNone rd] in *|].
  - split; [apply (cut_ok ce lo); [subst l; lia|exact Hco]|apply cut_keys]. - auto. - auto.
Qed.
(** the receiver and the temporaries of evaluateInPlace *)
Lemma evaluate_at op o st : order_ok o -> ev_ok pp st -> exists st', evaluateAt ce (lvl2 rQ op) o src0 src1 out st = Ok (mkCk (upd_all K (comb ce op l T0 T1) R) sc, st') /\ ev_ok pp st'.
Proof.
  intros Ho Hst. pose proof Hl as HlQ. unfold evaluateAt. fold c0 c1 s0 s1.
  destruct (ctIDSet_ok o c0 Ho) as (i0 & -> & Ok0 & K0). cbn [bind]. destruct (ctIDSet_ok o c1 Ho) as (i1 & -> & Ok1 & K1). cbn [bind]. destruct (idUnion_ok o i0 i1 Ho Ok0 Ok1) as (iu & -> & Oku & Ku). cbn [bind].
  destruct (pad_ok ce He o st iu Ho Hst) as (pool & -> & Hst1 & Hpool). cbn [bind].
  rewrite (ct_level (ce_env ce) l0 c0 Hc0), (ct_level (ce_env ce) l1 c1 Hc1), (ct_level (ce_env ce) lo _ Hco). cbn [bind]. fold l.
  assert (HP : forall id, In id (mkeys c0) \/ In id (mkeys c1) -> In id (mkeys pool)).
  { intros id Hi. destruct (String.eqb_spec id "0") as [->|Hne]; [apply (eo_0 _ _ Hst1)|]. apply Hpool, idHas_In. rewrite Ku. apply orb_true_iff. rewrite !idHas_In, K0, K1. tauto. }
  assert (ED : (if (l <? lo)%nat then DropLevel o out (lo - Nat.min l0 l1) else Ok out) = Ok (mkCk (cut (l + 1) (c_ct out)) (c_scale out))).
  { pose proof (drop_cut ce o (c_ct out) (c_scale out) lo l (lo - l) Ho Hco ltac:(subst l; lia) eq_refl) as X. replace (mkCk (c_ct out) (c_scale out)) with out in X by (destruct out; reflexivity).
    destruct (Nat.ltb_spec l lo) as [Hlt|]; [|exact X]. replace (lo - Nat.min l0 l1)%nat with (lo - l)%nat by (subst l; lia). exact X. }
  rewrite ED. cbn [bind c_ct c_scale]. set (D := cut (l + 1) (c_ct out)).
  match goal with |- exists st', bind ?m _ = _ /\ _ => assert (Htmp : exists tmp0 tmp1 st', m = Ok (tmp0, tmp1, mkCk R sc, st') /\ ev_ok pp st' /\ srcOk l R T0 tmp0 /\ srcOk l R T1 tmp1) end.
  { destruct d0_ok as (D0a & D0b & D0c & D0d & _). destruct d1_ok as (D1a & D1b & D1c & D1d & _). destruct R_ok as [RO _].
    unfold R, sc, T0, T1, d0, d1, l0', l1' in *. clear R sc T0 T1. unfold opnd.
    destruct src0 as [a|] eqn:S0; cbn [isNone option_map] in *; [destruct src1 as [b|] eqn:S1; cbn [isNone option_map] in *|].
    - destruct (ratioAbove s1 s0) eqn:R0.
      + destruct (into_pool ce He l0 (ffloor (fdiv s1 s0)) c0 s0 (c_scale out) (set_ct pool st) o Hl0 Hc0 (Hr0 R0) Ho Hst1) as (po & sc' & E & Hp & Ha); [cbn; auto|].
        assert (Ea : mkCk c0 s0 = a) by (unfold c0, s0; destruct a; reflexivity). rewrite Ea in E. cbn [rd]. cbv zeta. unfold ratioK. rewrite E. cbn [bind c_ct]. eexists _, _, _. split; [reflexivity|]. split; [exact Hp|]. rewrite (Hone R0).
        split; cbn [srcOk]; [eapply (agree_le ce); [|exact Ha]; lia|]. unfold c1. cbn [rd]. eapply agree_refl; [exact Hc1|lia].
      + destruct (ratioAbove s0 s1) eqn:R1.
        * destruct (into_pool ce He l1 (ffloor (fdiv s0 s1)) c1 s1 (c_scale out) (set_ct pool st) o Hl1 Hc1 (Hr1 R1) Ho Hst1) as (po & sc' & E & Hp & Ha); [cbn; auto|].
          assert (Ea : mkCk c1 s1 = b) by (unfold c1, s1; destruct b; reflexivity). rewrite Ea in E. cbn [rd]. cbv zeta. unfold ratioK. rewrite E. cbn [bind c_ct]. eexists _, _, _. split; [reflexivity|]. split; [exact Hp|].
          split; cbn [srcOk]; [|eapply (agree_le ce); [|exact Ha]; lia]. unfold c0. cbn [rd]. eapply agree_refl; [exact Hc0|lia].
        * eexists _, _, _. split; [reflexivity|]. split; [exact Hst1|]. split; cbn [srcOk]; [unfold c0; cbn [rd]; eapply agree_refl; [exact Hc0|lia]|unfold c1; cbn [rd]; eapply agree_refl; [exact Hc1|lia]].
    - change c1 with (c_ct out) in *. fold D in D1a, RO |- *. change s1 with (c_scale out) in *. destruct (ratioAbove (c_scale out) s0) eqn:R0.
      + rewrite (Hone R0). destruct (into_pool ce He l0 (ffloor (fdiv (c_scale out) s0)) c0 s0 (c_scale out) (set_ct pool st) o Hl0 Hc0 (Hr0 R0) Ho Hst1) as (po & sc' & E & Hp & Ha); [cbn; auto|].
        assert (Ea : mkCk c0 s0 = a) by (unfold c0, s0; destruct a; reflexivity). rewrite Ea in E. cbn [rd]. cbv zeta. unfold ratioK. rewrite E. cbn [bind c_ct]. eexists _, _, _. split; [reflexivity|]. split; [exact Hp|].
        split; cbn [srcOk]; [eapply (agree_le ce); [|exact Ha]; lia|reflexivity].
      + destruct (ratioAbove s0 (c_scale out)) eqn:R1.
        * destruct (in_place ce He l (ffloor (fdiv s0 (c_scale out))) D (c_scale out) o HlQ D1a (Hr1 R1) Ho) as (sc' & E). unfold ratioK. rewrite E. cbn [bind c_ct]. eexists _, _, _. split; [reflexivity|]. split; [exact Hst1|].
          split; cbn [srcOk]; [unfold c0; cbn [rd]; eapply agree_refl; [exact Hc0|lia]|try rewrite R1; reflexivity].
        * eexists _, _, _. split; [try rewrite R1; reflexivity|]. split; [exact Hst1|]. split; cbn [srcOk]; [unfold c0; cbn [rd]; eapply agree_refl; [exact Hc0|lia]|try rewrite R1; reflexivity].
    - change c0 with (c_ct out) in *. fold D in D0a, RO |- *. change s0 with (c_scale out) in *. destruct (ratioAbove (c_scale out) s1) eqn:R1.
      + assert (R0 : ratioAbove s1 (c_scale out) = false). { destruct (ratioAbove s1 (c_scale out)) eqn:X; [|reflexivity]. now rewrite (Hone X) in R1. } rewrite R0.
        destruct src1 as [b|] eqn:S1. 2:{ exfalso. unfold s1 in R1. cbn [rd] in R1. rewrite ratio_self in R1. discriminate. } cbn [isNone] in *.
        destruct (into_pool ce He l1 (ffloor (fdiv (c_scale out) s1)) c1 s1 (c_scale out) (set_ct pool st) o Hl1 Hc1 (Hr1 R1) Ho Hst1) as (po & sc' & E & Hp & Ha); [cbn; auto|].
        assert (Ea : mkCk c1 s1 = b) by (unfold c1, s1; destruct b; reflexivity). rewrite Ea in E. cbn [rd]. cbv zeta. unfold ratioK. rewrite E. cbn [bind c_ct]. eexists _, _, _. split; [try rewrite R0; reflexivity|]. split; [exact Hp|].
        split; cbn [srcOk]; [try rewrite R0; reflexivity|eapply (agree_le ce); [|exact Ha]; lia].
      + destruct (ratioAbove s1 (c_scale out)) eqn:R0.
        * destruct src1 as [b|] eqn:S1. 2:{ exfalso. unfold s1 in R0. cbn [rd] in R0. rewrite ratio_self in R0. discriminate. } cbn [isNone] in *.
          destruct (in_place ce He l (ffloor (fdiv s1 (c_scale out))) D (c_scale out) o HlQ D0a (Hr0 R0) Ho) as (sc' & E). unfold ratioK. rewrite E. cbn [bind c_ct]. eexists _, _, _. split; [try rewrite R0; reflexivity|]. split; [exact Hst1|].
          split; cbn [srcOk option_map]; [try rewrite R0; reflexivity|unfold c1; cbn [rd]; eapply agree_refl; [exact Hc1|lia]].
        * eexists _, _, _. split; [try rewrite R0; reflexivity|]. split; [exact Hst1|]. split; [cbn [srcOk]; try rewrite R0; reflexivity|].
          destruct src1 as [b|] eqn:S1; cbn [srcOk option_map isNone]; [unfold c1; cbn [rd]; eapply agree_refl; [exact Hc1|lia]|]. try rewrite R0. reflexivity. }
  destruct Htmp as (tmp0 & tmp1 & st' & Em & Hst' & S0 & S1). rewrite Em. cbn [bind c_ct c_scale].
  destruct R_ok as [RO RK]. destruct T0_ok as [T0O T0K]. destruct T1_ok as [T1O T1K].
  pose proof (eval_core ce He op l o i0 i1 tmp0 tmp1 T0 T1 R l0' l1' Hl Ho RO T0O T1O S0 S1) as X. unfold evalLoop in X.
  assert (Y : forall id, idHas i0 id = true <-> In id (mkeys T0) /\ id <> "0"%string) by (intros id; rewrite idHas_In, K0, T0K; tauto).
  assert (Z : forall id, idHas i1 id = true <-> In id (mkeys T1) /\ id <> "0"%string) by (intros id; rewrite idHas_In, K1, T1K; tauto).
  specialize (X Y Z). rewrite RK, T0K, T1K in X. specialize (X HK).
  exists st'. split; [|exact Hst'].
  destruct (sptr (rd tmp0 R) "0"%string) as [a0|] eqn:EA; [|discriminate X]. cbn [bind] in X |- *. destruct (sptr (rd tmp1 R) "0"%string) as [b0|] eqn:EB; [|discriminate X]. cbn [bind] in X |- *.
  match type of X with context [ctUpd ?r ?i ?f] => destruct (ctUpd r i f) as [o1|] eqn:EU; [|discriminate X] end. cbn [bind] in X |- *.
  destruct (ctIDSet o o1) as [oi|] eqn:EI; [|discriminate X]. cbn [bind] in X |- *. rewrite X. reflexivity.
Qed.

Let k0 := kfac ce l0' s0 s1.
Let k1 := kfac ce l1' s1 s0.
Lemma inb0 id : inb id (mkeys T0) = inb id (mkeys c0). Proof. now rewrite (proj2 T0_ok). Qed.
Lemma inb1 id : inb id (mkeys T1) = inb id (mkeys c1). Proof. now rewrite (proj2 T1_ok). Qed.
Lemma limb_peq M a b : (forall x, a x = b x) -> peq N M a b.
Proof. intros H x _. apply cong_eq. apply H. Qed.
Lemma fac0 id j : In id K -> (j <= l)%nat -> peq N (qq j) (limb T0 id j) (pscale k0 (limb (only K c0) id j)).
Proof.
  intros Hi Hj. destruct d0_ok as (A & B & C & D & E). unfold T0. rewrite (factors ce He l0' d0 s0 s1 id j D A Hr0 ltac:(lia)). apply limb_peq. intros x. unfold pscale. rewrite E by lia. now rewrite only_limb.
Qed.
Lemma fac1 id j : In id K -> (j <= l)%nat -> peq N (qq j) (limb T1 id j) (pscale k1 (limb (only K c1) id j)).
Proof.
  intros Hi Hj. destruct d1_ok as (A & B & C & D & E). unfold T1. rewrite (factors ce He l1' d1 s1 s0 id j D A Hr1 ltac:(lia)). apply limb_peq. intros x. unfold pscale. rewrite E by lia. now rewrite only_limb.
Qed.
Lemma keysK id : In id K <-> In id (mkeys (only K c0)) \/ In id (mkeys (only K c1)).
Proof. rewrite !only_keys. split; [|tauto]. intros H. destruct (HK id H); tauto. Qed.
Theorem add_at_gen : exists cout, combination pp l padd k0 k1 (only K c0) (only K c1) cout /\
  forall o st, order_ok o -> ev_ok pp st -> exists st', addAt ce o src0 src1 out st = Ok (mkCk cout sc, st') /\ ev_ok pp st'.
Proof.
  set (G := comb ce addop l T0 T1). exists (upd_all K G R). destruct R_ok as [RO RK]. destruct T0_ok as [TO0 TK0]. destruct T1_ok as [TO1 TK1]. destruct d0_ok as (_ & _ & L0 & _). destruct d1_ok as (_ & _ & L1 & _). pose proof Hl as HlQ. split.
  - destruct (full_ok ce l G (fun id j => if inb id (mkeys T0) then if inb id (mkeys T1) then padd (limb T0 id j) (limb T1 id j) else limb T0 id j else limb T1 id j) R) as (F1 & F2); [apply RO|apply RO| |].
    { intros id Hi. split; [reflexivity|]. split; [apply comb_len|]. intros j Hj. apply (comb_lrep ce He addop padd l l0' l1'); auto using add_sem. rewrite TK0, TK1. apply HK. now rewrite <- RK. }
    rewrite RK in F1, F2. apply combine_phase; auto; [apply only_nd, Hc0|apply only_nd, Hc1|intros id; rewrite upd_all_keys, RK; apply keysK|]. intros id j Hi Hj. rewrite upd_all_keys, RK in Hi. rewrite (F2 id j Hi Hj), inb0, inb1.
    rewrite <- (fac0 id j Hi Hj), <- (fac1 id j Hi Hj).
    destruct (inb id (mkeys c0)) eqn:B0; [destruct (inb id (mkeys c1)) eqn:B1; [reflexivity|]|].
    + intros x _. unfold padd. rewrite (limb_none T1 id j); [apply cong_eq; ring|]. rewrite <- inb_In, inb1, B1. discriminate.
    + intros x _. unfold padd. rewrite (limb_none T0 id j); [apply cong_eq; ring|]. rewrite <- inb_In, inb0, B0. discriminate.
  - intros o st Ho Hst. unfold addAt. change (AddLvl rQ) with (lvl2 rQ addop). exact (evaluate_at addop o st Ho Hst).
Qed.
(** negation of the components the first operand does not have *)
Definition negC (p : poly) : poly := mkPoly (p_ntt p) (map (fun j => map (fun x => wsub (qq j) x) (nth j (p_co p) [])) (seq 0 (l + 1))).
Lemma negC_len p : plen (negC p) = (l + 1)%nat. Proof. unfold plen, negC. cbn. now rewrite map_length, seq_length. Qed.
Lemma negC_step p : plen p = (l + 1)%nat -> NegLvl rQ l p p = Ok (negC p).
Proof.
  pose proof Hl as HlQ. intros Lp. unfold NegLvl. match goal with |- lvl1 rQ ?f l p p = _ => destruct (lvl1_ok rQ f l p p HrQ) as (d & E & (W1 & W2 & W3) & HR) end; try lia. { unfold QCount in *. cbn [r_mods ringQ]. lia. }
  rewrite E. f_equal. apply (poly_rows ce d _ l); [exact W1|lia|apply negC_len|]. intros j Hj. rewrite HR by lia. unfold negC. cbn [p_co]. rewrite (nth_map_seq _ _ j) by lia. reflexivity.
Qed.
Theorem sub_at_gen : exists cout, combination pp l psub k0 k1 (only K c0) (only K c1) cout /\
  forall o st, order_ok o -> ev_ok pp st -> exists st', subAt ce o src0 src1 out st = Ok (mkCk cout sc, st') /\ ev_ok pp st'.
Proof.
  set (G := comb ce subop l T0 T1). set (G2 := fun id => if inb id (mkeys c0) then G id else negC (G id)). exists (upd_all K G2 R). destruct R_ok as [RO RK]. destruct T0_ok as [TO0 TK0]. destruct T1_ok as [TO1 TK1]. destruct d0_ok as (_ & _ & L0 & _). destruct d1_ok as (_ & _ & L1 & _). pose proof Hl as HlQ.
  assert (HR : forall id j, In id K -> (j <= l)%nat -> lrep N (qq j) (qq j + 1) (nth j (p_co (G id)) []) (if inb id (mkeys T0) then if inb id (mkeys T1) then psub (limb T0 id j) (limb T1 id j) else limb T0 id j else limb T1 id j)).
  { intros id j Hi Hj. apply (comb_lrep ce He subop psub l l0' l1'); auto using sub_sem. rewrite TK0, TK1. now apply HK. }
  split.
  - destruct (full_ok ce l G2 (fun id j => if inb id (mkeys T0) then if inb id (mkeys T1) then psub (limb T0 id j) (limb T1 id j) else limb T0 id j else popp (limb T1 id j)) R) as (F1 & F2); [apply RO|apply RO| |].
    { intros id Hi. rewrite RK in Hi. specialize (HR id). unfold G2. rewrite <- inb0. destruct (inb id (mkeys T0)) eqn:B0. { split; [reflexivity|]. split; [apply comb_len|auto]. }
      split; [reflexivity|]. split; [apply negC_len|]. intros j Hj. unfold negC. cbn [p_co]. rewrite (nth_map_seq _ _ j) by lia. eapply map_lrep; [apply (HR j Hi Hj)|]. intros i x Hi2 Hx Hc.
      destruct (qbig pp Hpp j ltac:(lia)) as [Hq1 HqW]. unfold wsub. rewrite wrap_small by lia. split; [lia|]. unfold popp. rewrite <- Hc. exists 1. ring. }
    rewrite RK in F1, F2. apply combine_phase; auto; [apply only_nd, Hc0|apply only_nd, Hc1|intros id; rewrite upd_all_keys, RK; apply keysK|]. intros id j Hi Hj. rewrite upd_all_keys, RK in Hi. rewrite (F2 id j Hi Hj), inb0, inb1.
    rewrite <- (fac0 id j Hi Hj), <- (fac1 id j Hi Hj).
    destruct (inb id (mkeys c0)) eqn:B0; [destruct (inb id (mkeys c1)) eqn:B1; [reflexivity|]|].
    + intros x _. unfold psub. rewrite (limb_none T1 id j); [apply cong_eq; ring|]. rewrite <- inb_In, inb1, B1. discriminate.
    + intros x _. unfold psub, popp. rewrite (limb_none T0 id j); [apply cong_eq; ring|]. rewrite <- inb_In, inb0, B0. discriminate.
  - intros o st Ho Hst. unfold subAt. change (SubLvl rQ) with (lvl2 rQ subop). destruct (evaluate_at subop o st Ho Hst) as (st' & -> & Hst'). cbn [bind c_ct c_scale]. fold G.
    assert (In0 : In "0"%string K) by apply Hco. set (out1 := upd_all K G R). assert (KO : mkeys out1 = K) by (unfold out1; now rewrite upd_all_keys).
    assert (GO : forall id, In id K -> sget out1 id = Some (G id)). { intros id Hi. unfold out1. rewrite <- RK. apply full_get. now rewrite RK. }
    assert (EL : ctLevel out1 = Ok l). { unfold ctLevel, mptr. rewrite (GO _ In0). cbn [bind]. subst G. rewrite comb_len, Nat.add_1_r. reflexivity. }
    assert (E0 : ctLevel (c_ct (rd src0 (mkCk out1 sc))) = Ok l0'). { unfold l0'. destruct src0 as [a|] eqn:S0; cbn [isNone rd c_ct]; [exact (ct_level (ce_env ce) l0 _ Hc0)|exact EL]. }
    assert (E1 : ctLevel (c_ct (rd src1 (mkCk out1 sc))) = Ok l1'). { unfold l1'. destruct src1 as [a|] eqn:S1; cbn [isNone rd c_ct]; [exact (ct_level (ce_env ce) l1 _ Hc1)|exact EL]. }
    assert (EK : mkeys (c_ct (rd src0 (mkCk out1 sc))) = mkeys c0). { unfold c0. destruct src0 as [a|]; cbn [rd c_ct]; [reflexivity|exact KO]. }
    rewrite E0, E1, EL. cbn [bind]. replace (Nat.min (Nat.min l0' l1') l) with l by lia.
    destruct (ctIDSet_ok o (c_ct (rd src0 (mkCk out1 sc))) Ho) as (i0 & -> & Ok0 & K0). cbn [bind]. rewrite EK in K0. destruct (ctIDSet_ok o out1 Ho) as (io & -> & Oko & Ko). cbn [bind].
    match goal with |- context [foldM ?F (o 3%nat (mkeys io)) out1] => assert (EF : foldM F (o 3%nat (mkeys io)) out1 = Ok (upd_all (o 3%nat (mkeys io)) G2 out1)) end.
    { apply fold_upd0; [rewrite KO; apply Hco|apply order_nodup; [auto|apply Oko]| |].
      - intros c id Hi Kc Ec. rewrite order_in in Hi by auto. apply Ko in Hi as [Hi Hne]. rewrite KO in Hi. assert (Ec2 : sget c id = Some (G id)) by (rewrite Ec; now apply GO).
        assert (BB : idHas i0 id = inb id (mkeys c0)). { apply eq_true_iff_eq. rewrite idHas_In, inb_In, K0. tauto. } rewrite BB. unfold G2. destruct (inb id (mkeys c0)); cbn [negb].
        + f_equal. apply mget_eq; [rewrite (mkeys_mset_in _ seqb); [reflexivity|rewrite Kc, KO; exact Hi]|rewrite Kc, KO; apply Hco|]. intros k _. rewrite (mget_mset _ seqb). destruct (String.eqb_spec k id) as [->|]; [exact Ec2|reflexivity].
        + unfold ctUpd, mptr. rewrite Ec2. cbn [bind]. rewrite negC_step by apply comb_len. reflexivity.
      - intros id Hi. rewrite order_in in Hi by auto. now apply Ko in Hi. }
    rewrite EF. cbn [bind]. exists st'. split; [|exact Hst']. do 3 f_equal.
    apply mget_eq; [rewrite !upd_all_keys, RK; exact KO|rewrite upd_all_keys, KO; apply Hco|]. intros k Hk. rewrite upd_all_keys, KO in Hk. rewrite (upd_all_get _ G2 out1), (GO k Hk), upd_all_get. assert (Hk2 := Hk). rewrite <- RK in Hk2. destruct (mget_ex _ seqb R k Hk2) as (p & ->). rewrite (proj2 (inb_In _ _) Hk). f_equal.
    destruct (inb k (o 3%nat (mkeys io))) eqn:Eb; auto. unfold G2. destruct (String.eqb_spec k "0") as [->|Hne]. { now rewrite (proj2 (inb_In _ _) (ck_0 _ _ _ Hc0)). } exfalso.
    assert (In k (o 3%nat (mkeys io))) as X; [|apply inb_In in X; congruence]. rewrite order_in by auto. apply Ko. rewrite KO. auto.
Qed.
End Bin.
End C.

Section D.
Context (ce : ckenv).
Notation pp := (e_pp (ce_env ce)).
Context (He : env_ok (ce_env ce)).
Notation N := (pa_N pp).
Notation qq j := (nth j (pa_Q pp) 0).

Lemma above_factor s s' : comparable s s' -> ratioAbove s' s = (1 <? align_factor s s').
Proof.
  intros ((a & Fa & Ha) & (b & Fb & Hb) & H1 & H2). pose proof (ratioAbove_spec s s' a b Fa Fb Ha Hb H1) as HR. unfold align_factor. apply eq_true_iff_eq. rewrite HR, Z.ltb_lt. lia.
Qed.
Section At.
Context (src0 src1 : option ckct) (out : ckct) (l0 l1 lo : nat).
Notation c0 := (rd src0 out).
Notation c1 := (rd src1 out).
Notation K := (mkeys (c_ct out)).
Hypothesis (Hl0 : (l0 < QCount pp)%nat) (Hl1 : (l1 < QCount pp)%nat) (Hc0 : ct_ok pp l0 (c_ct c0)) (Hc1 : ct_ok pp l1 (c_ct c1)) (Hco : ct_ok pp lo (c_ct out)).
Hypothesis (HC : comparable (c_scale c0) (c_scale c1)).
Hypothesis (HK : forall id, In id K -> In id (mkeys (c_ct c0)) \/ In id (mkeys (c_ct c1))).
Lemma scale_at : (if isNone src0 then if ratioAbove (c_scale c1) (c_scale c0) then c_scale c1 else c_scale c0 else if isNone src1 then if ratioAbove (c_scale c0) (c_scale c1) then c_scale c0 else c_scale c1 else c_scale out) =
  sum_scale (isNone src0) (isNone src1) (c_scale c0) (c_scale c1) (c_scale out).
Proof. unfold sum_scale. now rewrite (above_factor _ _ HC), (above_factor _ _ (comparable_sym _ _ HC)). Qed.
Theorem add_at : exists cout, combination pp (Nat.min (Nat.min l0 l1) lo) padd (align_factor (c_scale c0) (c_scale c1)) (align_factor (c_scale c1) (c_scale c0)) (only K (c_ct c0)) (only K (c_ct c1)) cout /\
  forall o st, order_ok o -> ev_ok pp st -> exists st', addAt ce o src0 src1 out st = Ok (mkCk cout (sum_scale (isNone src0) (isNone src1) (c_scale c0) (c_scale c1) (c_scale out)), st') /\ ev_ok pp st'.
Proof.
  destruct (comparable_kfac ce (if isNone src0 then Nat.min (Nat.min l0 l1) lo else l0) _ _ HC) as [E0 R0]. destruct (comparable_kfac ce (if isNone src1 then Nat.min (Nat.min l0 l1) lo else l1) _ _ (comparable_sym _ _ HC)) as [E1 R1].
  destruct (add_at_gen ce He src0 src1 out l0 l1 lo Hl0 Hl1 Hc0 Hc1 Hco R0 R1 (comparable_one _ _ HC) HK) as (cout & H1 & H2). rewrite E0, E1 in H1. rewrite scale_at in H2. exists cout. split; auto.
Qed.
Theorem sub_at : exists cout, combination pp (Nat.min (Nat.min l0 l1) lo) psub (align_factor (c_scale c0) (c_scale c1)) (align_factor (c_scale c1) (c_scale c0)) (only K (c_ct c0)) (only K (c_ct c1)) cout /\
  forall o st, order_ok o -> ev_ok pp st -> exists st', subAt ce o src0 src1 out st = Ok (mkCk cout (sum_scale (isNone src0) (isNone src1) (c_scale c0) (c_scale c1) (c_scale out)), st') /\ ev_ok pp st'.
Proof.
  destruct (comparable_kfac ce (if isNone src0 then Nat.min (Nat.min l0 l1) lo else l0) _ _ HC) as [E0 R0]. destruct (comparable_kfac ce (if isNone src1 then Nat.min (Nat.min l0 l1) lo else l1) _ _ (comparable_sym _ _ HC)) as [E1 R1].
  destruct (sub_at_gen ce He src0 src1 out l0 l1 lo Hl0 Hl1 Hc0 Hc1 Hco R0 R1 (comparable_one _ _ HC) HK) as (cout & H1 & H2). rewrite E0, E1 in H1. rewrite scale_at in H2. exists cout. split; auto.
Qed.
End At.
(** into the first operand, which has all the parties: the sum *)
Theorem add_into_first c0 c1 l0 l1 : (l0 < QCount pp)%nat -> (l1 < QCount pp)%nat -> ct_ok pp l0 (c_ct c0) -> ct_ok pp l1 (c_ct c1) -> comparable (c_scale c0) (c_scale c1) ->
  (forall id, In id (mkeys (c_ct c1)) -> In id (mkeys (c_ct c0))) ->
  exists cout, combination pp (Nat.min l0 l1) padd (align_factor (c_scale c0) (c_scale c1)) (align_factor (c_scale c1) (c_scale c0)) (c_ct c0) (c_ct c1) cout /\
  forall o st, order_ok o -> ev_ok pp st -> exists st', addAt ce o None (Some c1) c0 st = Ok (mkCk cout (if 1 <? align_factor (c_scale c0) (c_scale c1) then c_scale c1 else c_scale c0), st') /\ ev_ok pp st'.
Proof.
  intros Hl0 Hl1 Hc0 Hc1 HC HK. destruct (add_at None (Some c1) c0 l0 l1 l0 Hl0 Hl1 Hc0 Hc1 Hc0 HC) as (cout & H1 & H2); [cbn; auto|]. cbn [rd] in H1. rewrite !only_all in H1 by auto.
  replace (Nat.min (Nat.min l0 l1) l0) with (Nat.min l0 l1) in H1 by lia. exists cout. split; [exact H1|exact H2].
Qed.
(** ** a party only the other operand has *)
Definition unit_of (id : string) : ciphertext := [("0"%string, canon ce 0 (pconst 0)); (id, canon ce 0 (pconst 1))].
Let Hpp : params_ok pp := eo_pp _ He.
Let HN : (0 < N)%nat := deg_pos _.
Lemma unit_ok id : id <> "0"%string -> ct_ok pp 0 (unit_of id).
Proof.
  intros Hid. assert (H0 : (0 < QCount pp)%nat) by (pose proof (po_Q _ Hpp); lia). constructor; [cbn; constructor; [intros [X|[]]; auto|constructor; [intros []|constructor]]|now left|].
  intros i p E. assert (exists k, p = canon ce 0 (pconst k)) as (k & ->). { cbn in E. destruct (String.eqb i "0"); [injection E as <-; eauto|]. destruct (String.eqb i id); [injection E as <-; eauto|discriminate]. }
  destruct (canon_held ce He 0 (pconst k) H0) as [HP HL]. split; [reflexivity|]. split; [exact HL|]. intros j Hj. destruct (canon_limb_ok ce He 0 (pconst k) j H0 Hj) as [A B]. split; [exact A|]. intros x Hx. specialize (B x Hx). lia.
Qed.
Lemma unit_phase id : id <> "0"%string -> peq N (qq 0) (phase N (fun _ => pone) (unit_of id) 0) pone.
Proof.
  intros Hid. assert (H0 : (0 < QCount pp)%nat) by (pose proof (po_Q _ Hpp); lia). unfold phase. cbn [unit_of mkeys map fst psumL]. change (secret (fun _ => pone) "0") with pone. assert (secret (fun _ => pone) id = pone) as -> by (unfold secret; destruct (String.eqb id "0"); reflexivity). rewrite !(pmul_one_l N (qq 0) HN).
  destruct (canon_held ce He 0 (pconst 0) H0) as [HP0 HL0]. destruct (canon_held ce He 0 (pconst 1) H0) as [HP1 HL1].
  assert (G : sget (unit_of id) id = Some (canon ce 0 (pconst 1))). { cbn. destruct (String.eqb_spec id "0"); [contradiction|]. now rewrite String.eqb_refl. }
  pose proof (limb_prep (ce_env ce) 0 (fun q => q) (unit_of id) "0" (canon ce 0 (pconst 0)) (pconst 0) 0 eq_refl HP0 ltac:(lia)) as E0. pose proof (limb_prep (ce_env ce) 0 (fun q => q) (unit_of id) id (canon ce 0 (pconst 1)) (pconst 1) 0 G HP1 ltac:(lia)) as E1.
  unfold unit_of in E0, E1. rewrite E0, E1. intros x _. unfold padd, pzero, pconst, pone. apply cong_eq. destruct x; reflexivity.
Qed.
Lemma only_unit_phase a b : a <> "0"%string -> b <> "0"%string -> a <> b -> peq N (qq 0) (phase N (fun _ => pone) (only (mkeys (unit_of a)) (unit_of b)) 0) pzero.
Proof.
  intros Ha Hb Hab. assert (only (mkeys (unit_of a)) (unit_of b) = ct_const ce 0) as ->; [|rewrite (ct_const_phase ce He 0); intros x _; unfold pconst, pzero; apply cong_eq; destruct x; reflexivity].
  unfold only, unit_of, ct_const. cbn [mkeys map fst filter]. destruct (in_dec string_dec "0"%string _) as [_|X]; [|exfalso; apply X; now left]. destruct (in_dec string_dec b _) as [[X|[X|[]]]|_]; [congruence|congruence|reflexivity].
Qed.
Theorem add_lost a b : a <> "0"%string -> b <> "0"%string -> a <> b -> exists c0 c1, ct_ok pp 0 c0 /\ ct_ok pp 0 c1 /\ (forall id, party c0 id <-> id = a) /\ (forall id, party c1 id <-> id = b) /\
  forall o st, order_ok o -> ev_ok pp st -> exists cout st', addAt ce o None (Some (mkCk c1 (f_of_Z 2))) (mkCk c0 (f_of_Z 2)) st = Ok (mkCk cout (f_of_Z 2), st') /\
    peq N (qq 0) (phase N (fun _ => pone) cout 0) (phase N (fun _ => pone) c0 0) /\
    ~ peq N (qq 0) (phase N (fun _ => pone) cout 0) (padd (phase N (fun _ => pone) c0 0) (phase N (fun _ => pone) c1 0)).
Proof.
  intros Ha Hb Hab. assert (H0 : (0 < QCount pp)%nat) by (pose proof (po_Q _ Hpp); lia). exists (unit_of a), (unit_of b). split; [now apply unit_ok|]. split; [now apply unit_ok|].
  split. { intros id. unfold party. cbn. intuition congruence. } split. { intros id. unfold party. cbn. intuition congruence. }
  assert (HC : comparable (f_of_Z 2) (f_of_Z 2)). { split; [exists (Rdefinitions.IZR 2); split; [apply fval_Z; lia|apply RIneq.IZR_lt; lia]|]. split; [exists (Rdefinitions.IZR 2); split; [apply fval_Z; lia|apply RIneq.IZR_lt; lia]|]. split; vm_compute; reflexivity. }
  assert (E2 : align_factor (f_of_Z 2) (f_of_Z 2) = 1) by (vm_compute; reflexivity).
  destruct (add_at None (Some (mkCk (unit_of b) (f_of_Z 2))) (mkCk (unit_of a) (f_of_Z 2)) 0 0 0 H0 H0 (unit_ok a Ha) (unit_ok b Hb) (unit_ok a Ha) HC) as (cout & (A1 & A2 & A3) & B); [cbn; auto|]. cbn [rd c_ct c_scale isNone] in *.
  unfold sum_scale in B. rewrite E2 in A3, B. cbn [Z.ltb] in B. intros o st Ho Hst. destruct (B o st Ho Hst) as (st' & E & _). exists cout, st'. split; [exact E|].
  specialize (A3 (fun _ => pone) 0%nat ltac:(lia)). change (modulus (pa_Q pp) 0) with (qq 0) in A3. rewrite (only_all _ (unit_of a)) in A3 by auto. rewrite (only_unit_phase a b Ha Hb Hab), (unit_phase a Ha) in A3.
  assert (X1 : peq N (qq 0) (phase N (fun _ => pone) cout 0) pone). { rewrite A3. intros x _. unfold padd, pscale, pzero. apply cong_eq. ring. }
  split; [now rewrite X1, (unit_phase a Ha)|]. rewrite X1, (unit_phase a Ha), (unit_phase b Hb). intros X. specialize (X 0%nat HN). destruct X as [k Hk]. unfold padd, pone in Hk. cbn in Hk.
  destruct (qbig pp Hpp 0 ltac:(lia)) as [Hq _]. destruct (Z.eq_dec k 0); nia.
Qed.
End D.

(** ** AddNew and SubNew are add and sub into a new ciphertext *)
Lemma at_distinct ce f o c0 c1 out st : evaluateAt ce f o (Some c0) (Some c1) out st = evaluateInPlace ce f o c0 c1 out st.
Proof.
  unfold evaluateAt, evaluateInPlace. cbn [rd isNone option_map].
  repeat match goal with |- bind ?a _ = bind ?a _ => destruct a; cbn [bind]; [|reflexivity] end.
  unfold ratioK. destruct (ratioAbove (c_scale c1) (c_scale c0)); [|destruct (ratioAbove (c_scale c0) (c_scale c1))].
  - match goal with |- context [MultByConst ?a ?b ?c ?d ?e] => destruct (MultByConst a b c d e) end; reflexivity.
  - match goal with |- context [MultByConst ?a ?b ?c ?d ?e] => destruct (MultByConst a b c d e) end; reflexivity.
  - reflexivity.
Qed.
Theorem new_at ce o c0 c1 st : AddNew ce o c0 c1 st = bind (newCiphertextBinary ce o c0 c1) (fun out => addAt ce o (Some c0) (Some c1) out st) /\
  SubNew ce o c0 c1 st = bind (newCiphertextBinary ce o c0 c1) (fun out => subAt ce o (Some c0) (Some c1) out st).
Proof.
  unfold AddNew, SubNew, addAt, subAt. destruct (newCiphertextBinary ce o c0 c1) as [out|]; cbn [bind]; [|split; reflexivity]. rewrite !at_distinct. split; reflexivity.
Qed.
