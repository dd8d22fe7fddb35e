(** What AddNew and SubNew compute. *)
From Coq Require Import Reals String ZArith Znumtheory List Lia Setoid Morphisms Bool Permutation.
From Coq.Floats Require Import SpecFloat.
From Verif Require Import Spec SpecProofs Go GoProofs Lattigo LattigoProofs Arith Fermat NegRing NegRingProofs NTT NTTProofs F64 F64Proofs BasisExt BasisExtProofs ModDownProofs DecomposeProofs RingOps RingOpsProofs Maps MapsProofs Params Elements KeySwitch KeySets EncDec Utils Evaluator KSProofs KSMulProofs Crt ParamsProofs KSAlg KSNorm Repr SpecCt KSSem SpecEnc EncProofs EncThms CkEncThms SpecEv EvProofs RescaleProofs EvThms F64More EvFloat ConstProofs ConstThms AddProofs.
Import ListNotations.
Local Open Scope Z_scope.
Local Open Scope list_scope.

Section C.
Context (ce : ckenv).
Notation pp := (e_pp (ce_env ce)).
Context (He : env_ok (ce_env ce)).
Notation N := (pa_N pp).
Notation rQ := (ringQ pp).
Notation qq j := (nth j (pa_Q pp) 0).
Let Hpp : params_ok pp := eo_pp _ He.
Let HrQ : ring_ok rQ := po_rQ _ Hpp.
Let HN : (0 < N)%nat := deg_pos _.

Definition kfac (l : nat) (s s' : f64) : Z := if ratioAbove s' s then scaled_const (ffloor (fdiv s' s)) (cscale ce l (ffloor (fdiv s' s))) else 1.
(** the union of the parties *)
Lemma binary_ids o c0 c1 s0 s1 l0 l1 : order_ok o -> ct_ok pp l0 c0 -> ct_ok pp l1 c1 -> exists ids,
  newCiphertextBinary ce o (mkCk c0 s0) (mkCk c1 s1) = Ok (mkCk (NewCiphertext o pp ids (Nat.min l0 l1)) (MaxFloat64 s0 s1)) /\
  forall x, In x (mkeys ids) <-> (In x (mkeys c0) \/ In x (mkeys c1)) /\ x <> "0"%string.
Proof.
  intros Ho Hc0 Hc1. unfold newCiphertextBinary. cbn [c_ct c_scale]. rewrite (ct_level (ce_env ce) l0 c0 Hc0), (ct_level (ce_env ce) l1 c1 Hc1). cbn [bind].
  destruct (ctIDSet_ok o c0 Ho) as (i0 & -> & Ok0 & K0). cbn [bind]. destruct (ctIDSet_ok o c1 Ho) as (i1 & -> & Ok1 & K1). cbn [bind]. destruct (idUnion_ok o i0 i1 Ho Ok0 Ok1) as (iu & -> & Oku & Ku). cbn [bind].
  exists iu. split; [reflexivity|]. intros x. rewrite <- idHas_In, Ku, orb_true_iff, !idHas_In, K0, K1. tauto.
Qed.
Lemma full_same G (a b : ciphertext) : same_ct a b -> same_ct (upd_all (mkeys a) G a) (upd_all (mkeys b) G b).
Proof.
  intros H. pose proof H as (H1 & H2 & H3). split; [now rewrite upd_all_keys|]. split; [now rewrite upd_all_keys|]. intros id. rewrite !upd_all_get, H3. destruct (sget b id) eqn:E; auto. f_equal.
  assert (X : In id (mkeys b)) by (eapply mget_key; eauto; exact seqb). rewrite (proj2 (inb_In _ _) X). apply (same_ct_keys _ _ H) in X. now rewrite (proj2 (inb_In _ _) X).
Qed.
Lemma full_get G (a : ciphertext) id : In id (mkeys a) -> sget (upd_all (mkeys a) G a) id = Some (G id).
Proof. intros H. rewrite upd_all_get. destruct (mget_ex _ seqb a id H) as (p & ->). now rewrite (proj2 (inb_In _ _) H). Qed.

(** a ciphertext all of whose components are given as lists of limbs *)
Lemma full_ok l (G : string -> poly) (R : string -> nat -> zpoly) (a : ciphertext) : NoDup (mkeys a) -> In "0"%string (mkeys a) ->
  (forall id, In id (mkeys a) -> p_ntt (G id) = false /\ plen (G id) = (l + 1)%nat /\ forall j, (j <= l)%nat -> lrep N (qq j) (qq j + 1) (nth j (p_co (G id)) []) (R id j)) ->
  ct_ok pp l (upd_all (mkeys a) G a) /\ forall id j, In id (mkeys a) -> (j <= l)%nat -> peq N (qq j) (limb (upd_all (mkeys a) G a) id j) (R id j).
Proof.
  intros H1 H0 H2. split.
  - constructor; rewrite ?upd_all_keys; auto. intros id p E. assert (Hi : In id (mkeys a)) by (rewrite <- (upd_all_keys (mkeys a) G a); eapply mget_key; eauto; exact seqb).
    rewrite (full_get G a id Hi) in E. injection E as <-. destruct (H2 id Hi) as (A & B & C). split; [auto|]. split; [auto|]. intros j Hj. destruct (C j Hj) as [D E]. split; [exact D|]. intros x Hx. destruct (E x Hx). lia.
  - intros id j Hi Hj x Hx. destruct (H2 id Hi) as (_ & _ & C). unfold limb. rewrite (full_get G a id Hi). apply (C j Hj). exact Hx.
Qed.

Lemma combine_phase l g k0 k1 c0 c1 cout : (g = padd \/ g = psub) -> NoDup (mkeys c0) -> NoDup (mkeys c1) -> ct_ok pp l cout -> (forall id, In id (mkeys cout) <-> In id (mkeys c0) \/ In id (mkeys c1)) ->
  (forall id j, In id (mkeys cout) -> (j <= l)%nat -> peq N (qq j) (limb cout id j) (g (pscale k0 (limb c0 id j)) (pscale k1 (limb c1 id j)))) ->
  combination pp l g k0 k1 c0 c1 cout.
Proof.
  intros Hg H0 H1 Hc HK HL. split; [auto|]. split; [auto|]. intros s j Hj. change (modulus (pa_Q pp) j) with (qq j). pose proof (ck_nd _ _ _ Hc) as Hnd.
  assert (E0 : peq N (qq j) (pscale k0 (phase N s c0 j)) (psumL (fun id => pmul N (secret s id) (pscale k0 (limb c0 id j))) (mkeys cout))).
  { rewrite (phase_over pp (qq j) s c0 j (mkeys cout)); [|auto|auto|intros x Hx; apply HK; now left]. rewrite psumL_scale. apply psumL_ext. intros id _. now rewrite pscale_mul_r. }
  assert (E1 : peq N (qq j) (pscale k1 (phase N s c1 j)) (psumL (fun id => pmul N (secret s id) (pscale k1 (limb c1 id j))) (mkeys cout))).
  { rewrite (phase_over pp (qq j) s c1 j (mkeys cout)); [|auto|auto|intros x Hx; apply HK; now right]. rewrite psumL_scale. apply psumL_ext. intros id _. now rewrite pscale_mul_r. }
  unfold phase at 1. destruct Hg as [-> | ->]; rewrite E0, E1.
  - rewrite <- psumL_padd. apply psumL_ext. intros id Hi. rewrite (HL id j Hi Hj). apply pmul_padd_r; auto.
  - rewrite <- psumL_psub. apply psumL_ext. intros id Hi. rewrite (HL id j Hi Hj). apply pmul_psub_r; auto.
Qed.

Lemma factors l ct s s' id j : (l < QCount pp)%nat -> ct_ok pp l ct -> ratio_ok s s' -> (j <= l)%nat -> peq N (qq j) (limb (opnd ce l ct s s') id j) (pscale (kfac l s s') (limb ct id j)).
Proof.
  intros Hl Hc Hr Hj. destruct (opnd_spec ce He l ct s s' Hl Hc Hr) as (H1 & H2 & H3). destruct (in_dec String.string_dec id (mkeys ct)) as [Hi|Hi]; [now apply H3|].
  intros x _. unfold pscale. rewrite (limb_none ct id j Hi), limb_none by (now rewrite H2). apply cong_eq. ring.
Qed.

Section Bin.
Context (c0 c1 : ciphertext) (s0 s1 : f64) (l0 l1 : nat).
Hypothesis (Hl0 : (l0 < QCount pp)%nat) (Hl1 : (l1 < QCount pp)%nat) (Hc0 : ct_ok pp l0 c0) (Hc1 : ct_ok pp l1 c1).
Hypothesis (Hr0 : ratio_ok s0 s1) (Hr1 : ratio_ok s1 s0) (Hone : one_side s0 s1).
Let l := Nat.min l0 l1.
Let T0 := opnd ce l0 c0 s0 s1.
Let T1 := opnd ce l1 c1 s1 s0.
Let HT0 := opnd_spec ce He l0 c0 s0 s1 Hl0 Hc0 Hr0.
Let HT1 := opnd_spec ce He l1 c1 s1 s0 Hl1 Hc1 Hr1.
Lemma inbK0 id : inb id (mkeys T0) = inb id (mkeys c0). Proof. destruct HT0 as (_ & E & _). unfold T0. now rewrite E. Qed.
Lemma inbK1 id : inb id (mkeys T1) = inb id (mkeys c1). Proof. destruct HT1 as (_ & E & _). unfold T1. now rewrite E. Qed.

Theorem add_gen : exists cout, combination pp l padd (kfac l0 s0 s1) (kfac l1 s1 s0) c0 c1 cout /\
  forall o st, order_ok o -> ev_ok pp st -> exists out st',
    AddNew ce o (mkCk c0 s0) (mkCk c1 s1) st = Ok (mkCk out (MaxFloat64 s0 s1), st') /\ same_ct out cout /\ ev_ok pp st'.
Proof.
  destruct (binary_ids o_id c0 c1 s0 s1 l0 l1 o_id_ok Hc0 Hc1) as (idr & _ & Kr). set (outr := NewCiphertext o_id pp idr l). destruct (NewCiphertext_ok o_id pp idr l o_id_ok) as (A1 & A2 & A3). fold outr in A1, A2, A3. change z0 with "0"%string in A2.
  assert (KO : forall id, In id (mkeys outr) <-> In id (mkeys c0) \/ In id (mkeys c1)).
  { intros id. rewrite A2, Kr. pose proof (ck_0 _ _ _ Hc0). destruct (String.eqb_spec id "0") as [->|]; tauto. }
  set (G := comb ce addop l T0 T1). exists (upd_all (mkeys outr) G outr). split.
  - destruct (full_ok l G (fun id j => if inb id (mkeys T0) then if inb id (mkeys T1) then padd (limb T0 id j) (limb T1 id j) else limb T0 id j else limb T1 id j) outr A1) as (F1 & F2); [apply A2; now left| |].
    { intros id Hi. split; [reflexivity|]. split; [apply comb_len|]. intros j Hj. apply (comb_lrep ce He addop padd l l0 l1); auto using add_sem; try lia; [apply HT0|apply HT1|]. apply KO in Hi. rewrite <- !inb_In, inbK0, inbK1, !inb_In; exact Hi. }
    apply combine_phase; auto; [apply Hc0|apply Hc1|intros id; rewrite upd_all_keys; apply KO|]. intros id j Hi Hj. rewrite upd_all_keys in Hi. rewrite (F2 id j Hi Hj), inbK0, inbK1.
    rewrite <- (factors l0 c0 s0 s1 id j Hl0 Hc0 Hr0 ltac:(lia)), <- (factors l1 c1 s1 s0 id j Hl1 Hc1 Hr1 ltac:(lia)). fold T0 T1.
    destruct (inb id (mkeys c0)) eqn:B0; [destruct (inb id (mkeys c1)) eqn:B1; [reflexivity|]|].
    + intros x _. unfold padd. rewrite (limb_none T1 id j); [apply cong_eq; ring|]. rewrite <- inb_In, inbK1, B1. discriminate.
    + intros x _. unfold padd. rewrite (limb_none T0 id j); [apply cong_eq; ring|]. rewrite <- inb_In, inbK0, B0. discriminate.
  - intros o st Ho Hst. unfold AddNew. destruct (binary_ids o c0 c1 s0 s1 l0 l1 Ho Hc0 Hc1) as (ids & -> & Kx). cbn [bind]. change (AddLvl rQ) with (lvl2 rQ addop).
    destruct (evaluate_ok ce He addop o c0 c1 s0 s1 l0 l1 ids (MaxFloat64 s0 s1) st Hl0 Hl1 Hc0 Hc1 Hr0 Hr1 Hone Ho Hst Kx) as (st' & -> & Hst'). eexists _, _. split; [reflexivity|]. split; [|exact Hst'].
    apply full_same. apply NewCt_same; auto using o_id_ok. intros x. rewrite Kx, Kr. tauto.
Qed.

(** negation of the components the first operand does not have *)
Definition negc (p : poly) : poly := mkPoly (p_ntt p) (map (fun j => map (fun x => wsub (qq j) x) (nth j (p_co p) [])) (seq 0 (l + 1))).
Lemma negc_len p : plen (negc p) = (l + 1)%nat. Proof. unfold plen, negc. cbn. now rewrite map_length, seq_length. Qed.
Lemma negc_step p : plen p = (l + 1)%nat -> NegLvl rQ l p p = Ok (negc p).
Proof.
  intros Lp. unfold NegLvl. match goal with |- lvl1 rQ ?f l p p = _ => destruct (lvl1_ok rQ f l p p HrQ) as (d & E & (W1 & W2 & W3) & HR) end; try lia. { unfold QCount in *. cbn [r_mods ringQ]. lia. }
  rewrite E. f_equal. apply (poly_rows ce d _ l); [exact W1|lia|apply negc_len|]. intros j Hj. rewrite HR by lia. unfold negc. cbn [p_co]. rewrite (nth_map_seq _ _ j) by lia. reflexivity.
Qed.
Theorem sub_gen : exists cout, combination pp l psub (kfac l0 s0 s1) (kfac l1 s1 s0) c0 c1 cout /\
  forall o st, order_ok o -> ev_ok pp st -> exists out st',
    SubNew ce o (mkCk c0 s0) (mkCk c1 s1) st = Ok (mkCk out (MaxFloat64 s0 s1), st') /\ same_ct out cout /\ ev_ok pp st'.
Proof.
  destruct (binary_ids o_id c0 c1 s0 s1 l0 l1 o_id_ok Hc0 Hc1) as (idr & _ & Kr). set (outr := NewCiphertext o_id pp idr l). destruct (NewCiphertext_ok o_id pp idr l o_id_ok) as (A1 & A2 & A3). fold outr in A1, A2, A3. change z0 with "0"%string in A2.
  assert (KO : forall id, In id (mkeys outr) <-> In id (mkeys c0) \/ In id (mkeys c1)).
  { intros id. rewrite A2, Kr. pose proof (ck_0 _ _ _ Hc0). destruct (String.eqb_spec id "0") as [->|]; tauto. }
  set (G := comb ce subop l T0 T1). set (G2 := fun id => if inb id (mkeys c0) then G id else negc (G id)). exists (upd_all (mkeys outr) G2 outr). split.
  - destruct (full_ok l G2 (fun id j => if inb id (mkeys T0) then if inb id (mkeys T1) then psub (limb T0 id j) (limb T1 id j) else limb T0 id j else popp (limb T1 id j)) outr A1) as (F1 & F2); [apply A2; now left| |].
    { intros id Hi. apply KO in Hi.
      assert (HR : forall j, (j <= l)%nat -> lrep N (qq j) (qq j + 1) (nth j (p_co (G id)) []) (if inb id (mkeys T0) then if inb id (mkeys T1) then psub (limb T0 id j) (limb T1 id j) else limb T0 id j else limb T1 id j)).
      { intros j Hj. apply (comb_lrep ce He subop psub l l0 l1); auto using sub_sem; try lia; [apply HT0|apply HT1|]. rewrite <- !inb_In, inbK0, inbK1, !inb_In; exact Hi. }
      unfold G2. rewrite <- inbK0. destruct (inb id (mkeys T0)) eqn:B0. { split; [reflexivity|]. split; [apply comb_len|exact HR]. }
      split; [reflexivity|]. split; [apply negc_len|]. intros j Hj. unfold negc. cbn [p_co]. rewrite (nth_map_seq _ _ j) by lia. eapply map_lrep; [apply (HR j Hj)|]. intros i x Hi2 Hx Hc.
      destruct (qbig pp Hpp j ltac:(lia)) as [Hq1 HqW]. unfold wsub. rewrite wrap_small by lia. split; [lia|]. unfold popp. rewrite <- Hc. exists 1. ring. }
    apply combine_phase; auto; [apply Hc0|apply Hc1|intros id; rewrite upd_all_keys; apply KO|]. intros id j Hi Hj. rewrite upd_all_keys in Hi. rewrite (F2 id j Hi Hj), inbK0, inbK1.
    rewrite <- (factors l0 c0 s0 s1 id j Hl0 Hc0 Hr0 ltac:(lia)), <- (factors l1 c1 s1 s0 id j Hl1 Hc1 Hr1 ltac:(lia)). fold T0 T1.
    destruct (inb id (mkeys c0)) eqn:B0; [destruct (inb id (mkeys c1)) eqn:B1; [reflexivity|]|].
    + intros x _. unfold psub. rewrite (limb_none T1 id j); [apply cong_eq; ring|]. rewrite <- inb_In, inbK1, B1. discriminate.
    + intros x _. unfold psub, popp. rewrite (limb_none T0 id j); [apply cong_eq; ring|]. rewrite <- inb_In, inbK0, B0. discriminate.
  - intros o st Ho Hst. unfold SubNew. destruct (binary_ids o c0 c1 s0 s1 l0 l1 Ho Hc0 Hc1) as (ids & -> & Kx). cbn [bind]. change (SubLvl rQ) with (lvl2 rQ subop).
    destruct (evaluate_ok ce He subop o c0 c1 s0 s1 l0 l1 ids (MaxFloat64 s0 s1) st Hl0 Hl1 Hc0 Hc1 Hr0 Hr1 Hone Ho Hst Kx) as (st' & -> & Hst'). cbn [bind c_ct c_scale]. fold l. fold T0 T1 G.
    set (outo := NewCiphertext o pp ids l). destruct (NewCiphertext_ok o pp ids l Ho) as (B1 & B2 & B3). fold outo in B1, B2, B3. change z0 with "0"%string in B2.
    assert (In0 : In "0"%string (mkeys outo)) by (apply B2; now left). set (out1 := upd_all (mkeys outo) G outo). assert (K1 : mkeys out1 = mkeys outo) by apply upd_all_keys.
    rewrite (ct_level (ce_env ce) l0 c0 Hc0), (ct_level (ce_env ce) l1 c1 Hc1). cbn [bind].
    assert (EL : ctLevel out1 = Ok l). { unfold ctLevel, mptr, out1. rewrite (full_get G outo _ In0). cbn [bind]. subst G. rewrite comb_len, Nat.add_1_r. reflexivity. }
    rewrite EL. cbn [bind]. fold l. rewrite Nat.min_id. destruct (ctIDSet_ok o c0 Ho) as (i0 & -> & Ok0 & K0). cbn [bind]. destruct (ctIDSet_ok o out1 Ho) as (io & -> & Oko & Ko). cbn [bind].
    match goal with |- context [foldM ?F (o 3%nat (mkeys io)) out1] => assert (EF : foldM F (o 3%nat (mkeys io)) out1 = Ok (upd_all (o 3%nat (mkeys io)) G2 out1)) end.
    { apply fold_upd0; [now rewrite K1|apply order_nodup; [auto|apply Oko]| |].
      - intros c id Hi Kc Ec. rewrite order_in in Hi by auto. apply Ko in Hi as [Hi Hne]. rewrite K1 in Hi. assert (Ec2 : sget c id = Some (G id)) by (rewrite Ec; now apply full_get).
        assert (BB : idHas i0 id = inb id (mkeys c0)). { apply eq_true_iff_eq. rewrite idHas_In, inb_In, K0. tauto. } rewrite BB. unfold G2. destruct (inb id (mkeys c0)); cbn [negb].
        + f_equal. apply mget_eq; [rewrite (mkeys_mset_in _ seqb); [reflexivity|rewrite Kc, K1; exact Hi]|now rewrite Kc, K1|]. intros k _. rewrite (mget_mset _ seqb). destruct (String.eqb_spec k id) as [->|]; [exact Ec2|reflexivity].
        + unfold ctUpd, mptr. rewrite Ec2. cbn [bind]. rewrite negc_step by apply comb_len. reflexivity.
      - intros id Hi. rewrite order_in in Hi by auto. now apply Ko in Hi. }
    rewrite EF. cbn [bind]. eexists _, _. split; [reflexivity|]. split; [|exact Hst'].
    assert (X : upd_all (o 3%nat (mkeys io)) G2 out1 = upd_all (mkeys outo) G2 outo).
    { apply mget_eq; [rewrite !upd_all_keys; exact K1|rewrite upd_all_keys, K1; exact B1|]. intros k Hk. rewrite upd_all_keys, K1 in Hk. rewrite !upd_all_get. unfold out1. rewrite (full_get G outo k Hk). destruct (mget_ex _ seqb outo k Hk) as (p & ->). rewrite (proj2 (inb_In _ _) Hk). f_equal.
      destruct (inb k (o 3%nat (mkeys io))) eqn:Eb; auto. unfold G2. destruct (String.eqb_spec k "0") as [->|Hne]. { now rewrite (proj2 (inb_In _ _) (ck_0 _ _ _ Hc0)). } exfalso.
      assert (In k (o 3%nat (mkeys io))) as X; [|apply inb_In in X; congruence]. rewrite order_in by auto. apply Ko. rewrite K1. auto. }
    rewrite X. apply full_same. apply NewCt_same; auto using o_id_ok. intros x. rewrite Kx, Kr. tauto.
Qed.
End Bin.
End C.

Section D.
Context (ce : ckenv).
Notation pp := (e_pp (ce_env ce)).
Context (He : env_ok (ce_env ce)).
Notation N := (pa_N pp).
Notation qq j := (nth j (pa_Q pp) 0).

Lemma comparable_kfac l s s' : comparable s s' -> kfac ce l s s' = align_factor s s' /\ ratio_ok s s'.
Proof.
  intros ((a & Fa & Ha) & (b & Fb & Hb) & H1 & H2). destruct (ratio_scaled s s' a b Fa Fb Ha Hb H1) as (E1 & E2). pose proof (ratioAbove_spec s s' a b Fa Fb Ha Hb H1) as HR. split.
  - unfold kfac, align_factor. destruct (ratioAbove s' s) eqn:E.
    + apply proj1 in HR. specialize (HR eq_refl). unfold cscale. rewrite E1, E2. lia.
    + assert (~ 2 <= ftrunc (fdiv s' s)) by (intros X; apply HR in X; congruence). lia.
  - intros _. exact (ratio_finite s s' a b Fa Fb Ha Hb H1).
Qed.
Lemma comparable_sym s s' : comparable s s' -> comparable s' s.
Proof. intros (A & B & C & D). repeat split; auto. Qed.
Lemma comparable_one s s' : comparable s s' -> one_side s s'.
Proof.
  intros ((a & Fa & Ha) & (b & Fb & Hb) & H1 & H2) R. unfold ratioAbove in *. apply andb_prop in R as [R _]. apply (fltb_spec _ _ _ _ Fa Fb) in R.
  destruct (fltb s' s) eqn:E; [|reflexivity]. apply (fltb_spec _ _ _ _ Fb Fa) in E. exfalso. eapply Raxioms.Rlt_asym; eauto.
Qed.
Theorem add_new c0 c1 s0 s1 l0 l1 : (l0 < QCount pp)%nat -> (l1 < QCount pp)%nat -> ct_ok pp l0 c0 -> ct_ok pp l1 c1 -> comparable s0 s1 ->
  exists cout, combination pp (Nat.min l0 l1) padd (align_factor s0 s1) (align_factor s1 s0) c0 c1 cout /\
  forall o st, order_ok o -> ev_ok pp st -> exists out st',
    AddNew ce o (mkCk c0 s0) (mkCk c1 s1) st = Ok (mkCk out (if fltb s1 s0 then s0 else s1), st') /\ same_ct out cout /\ ev_ok pp st'.
Proof.
  intros Hl0 Hl1 Hc0 Hc1 HC. destruct (comparable_kfac l0 s0 s1 HC) as [E0 R0]. destruct (comparable_kfac l1 s1 s0 (comparable_sym _ _ HC)) as [E1 R1].
  destruct (add_gen ce He c0 c1 s0 s1 l0 l1 Hl0 Hl1 Hc0 Hc1 R0 R1 (comparable_one _ _ HC)) as (cout & H1 & H2). rewrite E0, E1 in H1. exists cout. split; auto.
Qed.
Theorem sub_new c0 c1 s0 s1 l0 l1 : (l0 < QCount pp)%nat -> (l1 < QCount pp)%nat -> ct_ok pp l0 c0 -> ct_ok pp l1 c1 -> comparable s0 s1 ->
  exists cout, combination pp (Nat.min l0 l1) psub (align_factor s0 s1) (align_factor s1 s0) c0 c1 cout /\
  forall o st, order_ok o -> ev_ok pp st -> exists out st',
    SubNew ce o (mkCk c0 s0) (mkCk c1 s1) st = Ok (mkCk out (if fltb s1 s0 then s0 else s1), st') /\ same_ct out cout /\ ev_ok pp st'.
Proof.
  intros Hl0 Hl1 Hc0 Hc1 HC. destruct (comparable_kfac l0 s0 s1 HC) as [E0 R0]. destruct (comparable_kfac l1 s1 s0 (comparable_sym _ _ HC)) as [E1 R1].
  destruct (sub_gen ce He c0 c1 s0 s1 l0 l1 Hl0 Hl1 Hc0 Hc1 R0 R1 (comparable_one _ _ HC)) as (cout & H1 & H2). rewrite E0, E1 in H1. exists cout. split; auto.
Qed.
(** ** equal scales: no hypothesis on the scale is needed (C18) *)
Lemma fltb_irrefl x : fltb x x = false.
Proof. unfold fltb, SFltb. destruct x as [[]|[]| |[] m e]; cbn; auto; rewrite Z.compare_refl, Pos.compare_cont_refl; reflexivity. Qed.
Theorem add_eq c0 c1 s0 l0 l1 : (l0 < QCount pp)%nat -> (l1 < QCount pp)%nat -> ct_ok pp l0 c0 -> ct_ok pp l1 c1 ->
  exists cout, combination pp (Nat.min l0 l1) padd 1 1 c0 c1 cout /\
  forall o st, order_ok o -> ev_ok pp st -> exists out st',
    AddNew ce o (mkCk c0 s0) (mkCk c1 s0) st = Ok (mkCk out s0, st') /\ same_ct out cout /\ ev_ok pp st'.
Proof.
  intros Hl0 Hl1 Hc0 Hc1. assert (E : ratioAbove s0 s0 = false) by (unfold ratioAbove; now rewrite fltb_irrefl).
  destruct (add_gen ce He c0 c1 s0 s0 l0 l1 Hl0 Hl1 Hc0 Hc1) as (cout & H1 & H2); [intros X; congruence|intros X; congruence|intros X; congruence|].
  unfold kfac in H1. rewrite E in H1. exists cout. split; auto. intros o st Ho Hst. unfold MaxFloat64 in H2. rewrite fltb_irrefl in H2. auto.
Qed.
Theorem sub_eq c0 c1 s0 l0 l1 : (l0 < QCount pp)%nat -> (l1 < QCount pp)%nat -> ct_ok pp l0 c0 -> ct_ok pp l1 c1 ->
  exists cout, combination pp (Nat.min l0 l1) psub 1 1 c0 c1 cout /\
  forall o st, order_ok o -> ev_ok pp st -> exists out st',
    SubNew ce o (mkCk c0 s0) (mkCk c1 s0) st = Ok (mkCk out s0, st') /\ same_ct out cout /\ ev_ok pp st'.
Proof.
  intros Hl0 Hl1 Hc0 Hc1. assert (E : ratioAbove s0 s0 = false) by (unfold ratioAbove; now rewrite fltb_irrefl).
  destruct (sub_gen ce He c0 c1 s0 s0 l0 l1 Hl0 Hl1 Hc0 Hc1) as (cout & H1 & H2); [intros X; congruence|intros X; congruence|intros X; congruence|].
  unfold kfac in H1. rewrite E in H1. exists cout. split; auto. intros o st Ho Hst. unfold MaxFloat64 in H2. rewrite fltb_irrefl in H2. auto.
Qed.
(** ** scales 2 and 3: the sum is not at scale 3 (C19) *)
Definition ct_const (k : Z) : ciphertext := [("0"%string, canon ce 0 (pconst k))].
Let Hpp : params_ok pp := eo_pp _ He.
Let HN : (0 < N)%nat := deg_pos _.
Lemma ct_const_ok k : ct_ok pp 0 (ct_const k).
Proof.
  assert (H0 : (0 < QCount pp)%nat) by (pose proof (po_Q _ Hpp); lia). constructor; [constructor; [intros []|constructor]|now left|]. intros id p E. cbn in E. destruct (String.eqb_spec id "0"); [|discriminate]. injection E as <-.
  destruct (canon_held ce He 0 (pconst k) H0) as [HP HL]. split; [reflexivity|]. split; [exact HL|]. intros j Hj. destruct (canon_limb_ok ce He 0 (pconst k) j H0 Hj) as [A B]. split; [exact A|]. intros x Hx. specialize (B x Hx). lia.
Qed.
Lemma ct_const_phase k s : peq N (qq 0) (phase N s (ct_const k) 0) (pconst k).
Proof.
  assert (H0 : (0 < QCount pp)%nat) by (pose proof (po_Q _ Hpp); lia). unfold phase. cbn [ct_const mkeys map fst psumL]. change (secret s "0") with pone. rewrite (pmul_one_l N (qq 0) HN).
  destruct (canon_held ce He 0 (pconst k) H0) as [HP HL]. pose proof (limb_prep (ce_env ce) 0 (fun q => q) (ct_const k) "0" (canon ce 0 (pconst k)) (pconst k) 0 eq_refl HP ltac:(lia)) as E. unfold ct_const in E. rewrite E.
  intros x _. unfold padd, pzero. apply cong_eq. ring.
Qed.
Lemma scales23 : comparable (f_of_Z 2) (f_of_Z 3) /\ align_factor (f_of_Z 2) (f_of_Z 3) = 1 /\ align_factor (f_of_Z 3) (f_of_Z 2) = 1 /\ fltb (f_of_Z 3) (f_of_Z 2) = false.
Proof.
  split. { split; [exists (Rdefinitions.IZR 2); split; [apply fval_Z; lia|apply RIneq.IZR_lt; lia]|]. split; [exists (Rdefinitions.IZR 3); split; [apply fval_Z; lia|apply RIneq.IZR_lt; lia]|]. split; vm_compute; reflexivity. }
  split; [vm_compute; reflexivity|]. split; vm_compute; reflexivity.
Qed.
Theorem add_scale_wrong : 3 < qq 0 -> exists c0 c1 cout, ct_ok pp 0 c0 /\ ct_ok pp 0 c1 /\
  (forall s, peq N (qq 0) (phase N s c0 0) (pconst (2 * 1))) /\ (forall s, peq N (qq 0) (phase N s c1 0) (pconst (3 * 1))) /\
  (forall o st, order_ok o -> ev_ok pp st -> exists out st', AddNew ce o (mkCk c0 (f_of_Z 2)) (mkCk c1 (f_of_Z 3)) st = Ok (mkCk out (f_of_Z 3), st') /\ same_ct out cout) /\
  forall s, ~ peq N (qq 0) (phase N s cout 0) (pconst (3 * (1 + 1))).
Proof.
  intros Hq. assert (H0 : (0 < QCount pp)%nat) by (pose proof (po_Q _ Hpp); lia). destruct scales23 as (HC & E1 & E2 & E3). exists (ct_const 2), (ct_const 3).
  destruct (add_new (ct_const 2) (ct_const 3) _ _ 0 0 H0 H0 (ct_const_ok 2) (ct_const_ok 3) HC) as (cout & (A1 & A2 & A3) & B). rewrite E1, E2 in A3. rewrite E3 in B. exists cout.
  split; [apply ct_const_ok|]. split; [apply ct_const_ok|]. split; [intros s; apply ct_const_phase|]. split; [intros s; apply ct_const_phase|]. split.
  - intros o st Ho Hst. destruct (B o st Ho Hst) as (out & st' & X & Y & _). eauto.
  - intros s X. specialize (A3 s 0%nat ltac:(lia)). change (modulus (pa_Q pp) 0) with (qq 0) in A3. rewrite A3, !ct_const_phase in X. specialize (X 0%nat HN). unfold padd, pscale, pconst in X. destruct X as [k Hk]. destruct (Z.eq_dec k 0); nia.
Qed.
End D.
