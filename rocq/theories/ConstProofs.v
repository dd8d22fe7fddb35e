(** MultByConst. *)
From Coq Require Import String ZArith Znumtheory List Lia Setoid Morphisms Bool Permutation.
From Verif Require Import Spec SpecProofs Go GoProofs Lattigo LattigoProofs Arith Fermat NegRing NegRingProofs NTT NTTProofs F64 BasisExt BasisExtProofs ModDownProofs DecomposeProofs RingOps RingOpsProofs Maps MapsProofs Params Elements KeySwitch KeySets EncDec Utils Evaluator KSProofs KSMulProofs Crt ParamsProofs KSAlg KSNorm Repr SpecCt KSSem SpecEnc EncProofs EncThms CkEncThms SpecEv EvProofs RescaleProofs EvThms EvFloat.
Import ListNotations.
Local Open Scope Z_scope.
Local Open Scope list_scope.

Section C.
Context (ce : ckenv).
Notation pp := (e_pp (ce_env ce)).
Context (He : env_ok (ce_env ce)).
Notation N := (pa_N pp).
Notation rQ := (ringQ pp).
Notation qq j := (nth j (pa_Q pp) 0).
Notation id_b := (fun q : Z => q).
Let Hpp : params_ok pp := eo_pp _ He.
Let HrQ : ring_ok rQ := po_rQ _ Hpp.
Let HN : (0 < N)%nat := deg_pos _.

Lemma ring_okm' j : (j < QCount pp)%nat -> okmod (qq j).
Proof. intros Hj. apply (ring_okm rQ j HrQ Hj). Qed.

(** the value X^(N/2) has modulo q at the primitive root psi *)
Notation i4 j := (root4 pp j).
Lemma part_ok c s q : finite c -> finite s -> 0 < q < W -> exists r, (if negb (feqb c f0) then scaleUpExact c s q else Ok 0) = Ok r /\ 0 <= r <= q /\ cong q r (scaled_const c s).
Proof.
  intros Hc Hs Hq. destruct (feqb c f0) eqn:E; cbn [negb].
  - exists 0. rewrite (scaled_zero c s E Hs). split; [reflexivity|]. split; [lia|reflexivity].
  - apply scaleUpExact_ok; auto using finite_not_nan. apply fmul_not_nan; auto using finite_abs.
Qed.
Lemma multConsts_ok re im s j : (j < QCount pp)%nat -> finite re -> finite im -> finite s -> exists lo hi,
  multConsts ce re im s (qq j) (nth j (pa_psiQ pp) 0) = Ok (lo, hi) /\ 0 <= lo < qq j /\ 0 <= hi < qq j /\
  cong (qq j) lo (W * (scaled_const re s + scaled_const im s * i4 j)) /\ cong (qq j) hi (W * (scaled_const re s - scaled_const im s * i4 j)).
Proof.
  intros Hj Hre Him Hs. destruct (qbig pp Hpp j Hj) as [Hq1 HqW]. pose proof (ring_okm' j Hj) as Hok. set (q := qq j) in *.
  destruct (part_ok re s q Hre Hs ltac:(lia)) as (sr & E1 & B1 & C1). unfold multConsts. rewrite E1. cbn [bind].
  destruct (feqb im f0) eqn:E0; cbn [negb].
  - rewrite (scaled_zero im s E0 Hs). destruct (MForm_spec sr q Hok ltac:(lia)) as [M1 M2]. eexists _, _. split; [reflexivity|]. split; [exact M1|]. split; [exact M1|].
    split; rewrite M2, C1; apply cong_eq; ring.
  - destruct (part_ok im s q Him Hs ltac:(lia)) as (si & E2 & B2 & C2). rewrite E0 in E2. cbn [negb] in E2. rewrite E2. cbn [bind]. change (nth j (pa_psiQ pp) 0 ^ (Z.of_nat N / 2)) with (i4 j).
    pose proof (Z.mod_pos_bound (i4 j) q ltac:(lia)) as Bi. destruct (MForm_spec (i4 j mod q) q Hok ltac:(lia)) as [M1 M2].
    set (mi := MForm (i4 j mod q) q (BRedParams q)) in *.
    destruct (MRed_prod si mi q (scaled_const im s) (i4 j * W) (scaled_const im s * i4 j) Hok ltac:(lia) M1 C2) as [M3 M4].
    { rewrite M2. apply cong_mul; [apply cong_mod; lia|reflexivity]. } { apply cong_eq; ring. }
    set (sp := MRed si mi q (MRedParams q)) in *.
    destruct (CRed_add_spec sr sp q (q + 1) q q Hok ltac:(lia) M3 ltac:(lia) ltac:(lia) ltac:(lia)) as [A1 A2].
    assert (Ew : wsub q sp = q - sp) by (unfold wsub; rewrite wrap_small; lia).
    destruct (CRed_add_spec sr (wsub q sp) q (q + 1) (q + 1) (q + 1) Hok ltac:(lia) ltac:(lia) ltac:(lia) ltac:(lia) ltac:(lia)) as [A3 A4].
    destruct (MForm_spec (CRed (wadd sr sp) q) q Hok ltac:(lia)) as [F1 F2]. destruct (MForm_spec (CRed (wadd sr (wsub q sp)) q) q Hok ltac:(lia)) as [F3 F4].
    eexists _, _. split; [reflexivity|]. split; [exact F1|]. split; [exact F3|]. split.
    + rewrite F2, A2, C1, M4. apply cong_eq. ring.
    + rewrite F4, A4, Ew, C1, M4. exists W. ring.
Qed.

(** multiplication of the two halves of a limb *)
Notation halves := (half_scaled N).
Lemma mulHalves_ok q lo hi x A cl ch : okmod q -> lrep N q (q + 1) x A -> 0 <= lo < q -> 0 <= hi < q -> cong q lo (W * cl) -> cong q hi (W * ch) ->
  lrep N q q (mulHalves ce q lo hi x) (halves cl ch A).
Proof.
  intros Hok [Lx Hx] Bl Bh Cl Ch. unfold mulHalves. set (h := (N / 2)%nat). assert (Hh : (h <= N)%nat) by (apply Nat.div_le_upper_bound; lia).
  split; [rewrite app_length, !map_length, firstn_length, skipn_length; lia|]. intros i Hi. unfold half_scaled. fold h.
  destruct (Hx i Hi) as [B C]. destruct (Nat.ltb_spec i h).
  - rewrite app_nth1 by (rewrite map_length, firstn_length; lia). rewrite nth_map0 by (rewrite firstn_length; lia). rewrite nth_firstn_lt by lia.
    apply (MRed_prod _ _ q (A i) (W * cl)); auto. apply cong_eq. ring.
  - rewrite app_nth2; rewrite map_length, firstn_length; [|lia]. rewrite nth_map0 by (rewrite skipn_length; lia). rewrite nth_skipnl. replace (h + (i - Nat.min h (List.length x)))%nat with i by lia.
    apply (MRed_prod _ _ q (A i) (W * ch)); auto. apply cong_eq. ring.
Qed.

(** the component MultByConst leaves *)
Definition mc_comp (level : nat) (lo hi : nat -> Z) (c0 out : ciphertext) (id : string) : poly :=
  match sget c0 id, sget out id with
  | Some a, Some p => mkPoly (p_ntt p) (map (fun j => mulHalves ce (qq j) (lo j) (hi j) (nth j (p_co a) [])) (seq 0 (level + 1)) ++ skipn (level + 1) (p_co p))
  | _, _ => newPoly 0 0
  end.
Lemma mult_loop level lo hi re im s c0 out o : (level < QCount pp)%nat -> order_ok o -> NoDup (mkeys c0) -> NoDup (mkeys out) ->
  (forall j, (j <= level)%nat -> multConsts ce re im s (qq j) (nth j (pa_psiQ pp) 0) = Ok (lo j, hi j)) ->
  (forall id, In id (mkeys c0) -> exists a p, sget c0 id = Some a /\ sget out id = Some p /\ (level < plen a)%nat /\ (level < plen p)%nat) ->
  foldM (fun out u =>
      bind (sptr c0 u) (fun a =>
      ctUpd out u (fun p =>
        bind (mapM (fun i =>
            bind (idx (pa_Q pp) i) (fun q => bind (idx (pa_psiQ pp) i) (fun psi =>
            bind (multConsts ce re im s q psi) (fun '(lo, hi) =>
            bind (idx (p_co a) i) (fun x => Ok (mulHalves ce q lo hi x)))))) (seq 0 (level + 1))) (fun ls =>
        write level ls p)))) (o 0%nat (mkeys c0)) out = Ok (upd_all (mkeys c0) (mc_comp level lo hi c0 out) out).
Proof.
  intros Hl Ho Hnd0 Hnd Hm Hc. rewrite (upd_all_perm (mkeys c0) (o 0%nat (mkeys c0))) by (apply Permutation_sym, Ho). apply fold_upd0; auto.
  - now apply order_nodup.
  - intros c id Hid _ Ec. rewrite order_in in Hid by auto. destruct (Hc id Hid) as (a & p & Ea & Ep & La & Lp). unfold ctUpd, mptr. rewrite Ea. cbn [bind]. rewrite Ec, Ep. cbn [bind].
    rewrite (mapM_ok _ (fun j => mulHalves ce (qq j) (lo j) (hi j) (nth j (p_co a) []))).
    2:{ intros j Hj. apply in_seq in Hj. pose proof (ro_len rQ HrQ) as HL. cbn [r_mods r_psi ringQ] in HL. unfold QCount in Hl. rewrite (idx_nth (pa_Q pp) j 0), (idx_nth (pa_psiQ pp) j 0) by lia. cbn [bind].
        rewrite Hm by lia. cbn [bind]. rewrite (idx_nth (p_co a) j []) by (unfold plen in La; lia). reflexivity. }
    cbn [bind]. unfold write. destruct (Nat.leb_spec (plen p) level); [lia|]. cbn [bind]. unfold mc_comp. rewrite Ea, Ep. reflexivity.
  - intros id Hid. rewrite order_in in Hid by auto. destruct (Hc id Hid) as (a & p & _ & Ep & _). eapply mget_key; eauto. exact seqb.
Qed.
End C.
