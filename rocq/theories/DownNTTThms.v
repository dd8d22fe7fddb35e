(** Proofs about DownNTT.v. *)
From Coq Require Import ZArith Znumtheory List Lia Bool.
From Verif Require Import Go GoProofs Lattigo LattigoProofs Arith NegRing NegRingProofs NTT NTTProofs F64 BasisExt BasisExtProofs ModDownProofs DecomposeProofs RingOps RingOpsProofs Params KSProofs BasisSpec DownNTT SpecDown.
Import ListNotations.
Local Open Scope Z_scope.
Open Scope go_scope.

Lemma NTTLazy_nth lz logN q psi l i : 1 < q -> (i < deg logN)%nat ->
  0 <= nth i (NTTLazy lz logN q psi l) 0 < 2 * q /\ cong q (nth i (NTTLazy lz logN q psi l) 0) (nth i (NTT logN q psi l) 0).
Proof.
  intros Hq Hi. unfold NTTLazy.
  assert (L : length (NTT logN q psi l) = deg logN) by (unfold NTT; rewrite map_length, seq_length; reflexivity).
  set (F := fun '(k, x) => if lz q l k then x + q else x).
  rewrite (nth_indep _ 0 (F (0%nat, 0))) by (rewrite map_length, combine_length, seq_length; lia).
  rewrite (map_nth F), combine_nth by (rewrite seq_length; lia). rewrite seq_nth by lia. cbn [Nat.add F].
  assert (R : 0 <= nth i (NTT logN q psi l) 0 < q).
  { unfold NTT. set (G := fun i => (sumn (deg logN) (fun k => nth k l 0 * psi ^ (slot_exp logN i * Z.of_nat k))) mod q).
    rewrite (nth_indep _ 0 (G 0%nat)) by (rewrite map_length, seq_length; lia). rewrite (map_nth G). apply Z.mod_pos_bound. lia. }
  destruct (lz q l i); split; try lia; [exists 1; ring|reflexivity].
Qed.
Lemma NTTLazy_length lz logN q psi l : length (NTTLazy lz logN q psi l) = deg logN.
Proof. unfold NTTLazy. rewrite map_length, combine_length, seq_length. unfold NTT. rewrite map_length, seq_length. lia. Qed.

Section D.
Context (pp : params) (Hpp : params_ok pp).
Notation N := (pa_N pp).
Notation rQ := (ringQ pp).
Notation rP := (ringP pp).
Notation b := (NewFastBasisExtender (pa_Q pp) (pa_P pp)).

Lemma coprimeB levelP j : (j < QCount pp)%nat -> rel_prime (nth j (pa_Q pp) 0) (prodZ (firstn levelP (pa_P pp))).
Proof.
  intros Hj. apply rel_prime_prodZ. apply Forall_firstn. destruct (po_good _ Hpp) as [_ _ HpQ HpP Hnd].
  apply Forall_forall. intros p Hp. rewrite Forall_forall in HpQ, HpP.
  assert (In (nth j (pa_Q pp) 0) (pa_Q pp)) by (apply nth_In; exact Hj).
  apply primes_coprime; auto. intros E0. rewrite <- E0 in Hp. eapply NoDup_app_disj; eauto.
Qed.
Lemma posB levelP : 0 < prodZ (firstn levelP (pa_P pp)).
Proof.
  destruct (po_good _ Hpp) as [_ HP _ _ _].
  assert (F : Forall (fun p => 0 < p) (firstn levelP (pa_P pp))).
  { apply Forall_firstn. eapply Forall_impl; [|exact HP]. intros p [_ ?]. lia. }
  induction F; cbn; [lia|]. apply Z.mul_pos_pos; auto.
Qed.

Lemma moddown_ntt : forall lzi lzn levelQ levelP p1Q p1P p2Q X,
  (levelQ < QCount pp)%nat -> (levelP < PCount pp)%nat ->
  nrep2 rQ (levelQ + 1) (p_co p1Q) X -> nrep rP (levelP + 1) (p_co p1P) X -> shp N (p_co p1P) -> (levelQ < plen p2Q)%nat ->
  exists y out D, ModDownQPtoQNTT lzi lzn rQ rP b levelQ levelP p1Q p1P p2Q = Ok (y, out) /\
    wrote (levelQ + 1) p2Q out /\ nrep rQ (levelQ + 1) (p_co out) D /\ floored N (prodZ (firstn (levelP + 1) (pa_P pp))) X D /\
    wrote (levelP + 1) p1P y /\ prep rP (fun p => 2 * p) (levelP + 1) (p_co y) X /\
    forall pQ, prep rQ (fun q => 2 * q) (levelQ + 1) pQ X -> exists out', ModDownQPtoQ b levelQ levelP pQ (p_co y) = Ok out' /\ prep rQ (fun q => q) (levelQ + 1) out' D.
Proof.
  intros lzi lzn levelQ levelP p1Q p1P p2Q X HQ HP RQ RP SP HD. pose proof (po_rQ _ Hpp) as HrQ. pose proof (po_rP _ Hpp) as HrP.
  unfold ModDownQPtoQNTT.
  assert (LP : (levelP < plen p1P)%nat) by (destruct RP as (_ & ? & _); unfold plen; lia).
  destruct (InvNTTLazyLvl_ok rP HrP lzi levelP p1P p1P X RP LP) as (y & Ey & Wy & Ry). rewrite Ey. cbn [bind].
  assert (Sy : shp N (p_co y)).
  { apply Forall_of_nth with (d := []). intros j Hj. fold (plen y) in Hj. destruct (Nat.lt_ge_cases j (levelP + 1)) as [Hl|Hl].
    - destruct Ry as (_ & _ & Ry). specialize (Ry j Hl). destruct (ring_q1 rP j HrP) as [Q1 Q2]; [cbn; unfold PCount in HP; lia|].
      split; [apply Ry|]. eapply lrep_words; [|exact Ry]. lia.
    - destruct Wy as (_ & W2 & W3). rewrite W3 by lia. rewrite W2 in Hj. eapply Forall_forall in SP; [exact SP|]. apply nth_In. exact Hj. }
  assert (SW : Forall words (p_co y) /\ Forall (fun l => length l = N) (p_co y)) by (split; eapply Forall_impl; try exact Sy; cbn; tauto).
  pose proof (po_good _ Hpp) as GM. pose proof (NewFastBasisExtender_ok _ _ GM) as E.
  destruct (ModUpPtoQ_ok (pa_Q pp) (pa_P pp) b levelP levelQ N (p_co y) GM E HQ) as (up & Y & Eu & U1 & U2 & U3 & U4 & U5);
    [pose proof (po_P _ Hpp); lia|exact HP|fold (plen y); destruct Wy as (_ & -> & _); exact LP|apply SW|apply SW|].
  rewrite Eu. cbn [bind]. destruct (eo_mdPtoQ _ _ _ E) as [Hmd1 Hmd2].
  rewrite (idx_nth _ levelP []) by (unfold PCount in HP; lia). cbn [bind].
  set (B := prodZ (firstn (levelP + 1) (pa_P pp))) in *. pose proof (posB (levelP + 1)) as HB. fold B in HB.
  set (D := fun x => (X x - nth x Y 0) / B).
  assert (HYX : forall x, (x < N)%nat -> cong B (X x) (nth x Y 0)).
  { intros x Hx. apply crt_cong.
    - destruct (good_moduli_sym _ _ GM) as [_ _ Hp _ Hnd]. apply primes_pairwise; [now apply Forall_firstn|]. apply NoDup_firstn. now apply NoDup_app_l in Hnd.
    - apply Forall_of_nth with (d := 0). intros j Hj. rewrite firstn_length in Hj. rewrite nth_firstn by lia.
      rewrite (U4 j x) by lia. symmetry. destruct Ry as (_ & _ & Ry). apply (Ry j ltac:(lia)). exact Hx. }
  assert (HD0 : forall x, (x < N)%nat -> B * D x = X x - nth x Y 0).
  { intros x Hx. destruct (HYX x Hx) as [m Hm]. unfold D. rewrite Hm, Z.div_mul by lia. ring. }
  destruct (mapM_seq_spec (fun i =>
      bind (idx (r_mods rQ) i) (fun qi => bind (idx (p_co p1Q) i) (fun p1tmp => bind (idx up i) (fun p3tmp => bind (idx (nth levelP (modDownPtoQ b) []) i) (fun inv =>
      bind (idx (r_psi rQ) i) (fun psi =>
      Ok (map (fun '(x, y) => moddown_word x y qi inv) (combine p1tmp (NTTLazy lzn (r_logN rQ) qi psi p3tmp)))))))))
     (fun j l => lrep N (qj rQ j) (qj rQ j) l (nttf (r_logN rQ) (psij rQ j) D)) (levelQ + 1) 0) as (out & Eo & Hlo & Hout).
  - intros j Hj. destruct RQ as (R1 & R2 & R3). destruct (Hmd2 levelP j HP ltac:(unfold QCount in HQ; lia)) as (Hr1 & Hr2 & Hr3).
    rewrite (idx_nth (r_mods rQ) j 0), (idx_nth (p_co p1Q) j []), (idx_nth up j []) by lia.
    rewrite (idx_nth (nth levelP (modDownPtoQ b) []) j 0) by (rewrite Hr1; unfold QCount in HQ; lia).
    assert (Lpsi : length (r_psi rQ) = length (r_mods rQ)) by apply HrQ.
    rewrite (idx_nth (r_psi rQ) j 0) by lia.
    cbn [bind]. eexists. split; [reflexivity|].
    fold (qj rQ j). fold (psij rQ j).
    destruct (R3 j ltac:(lia)) as [L1 Hx1].
    pose proof (ro_nm _ HrQ j ltac:(lia)) as Hnm. destruct (ring_q1 rQ j HrQ ltac:(lia)) as [Q1 _]. pose proof (ring_q rQ j HrQ ltac:(lia)) as M61.
    split. { rewrite map_length, combine_length, NTTLazy_length, L1. change (r_N rQ) with N. change (deg (r_logN rQ)) with N. lia. }
    intros i Hi. rewrite nth_combine_map by (rewrite NTTLazy_length, ?L1; first [reflexivity|exact Hi]).
    destruct (NTTLazy_nth lzn (r_logN rQ) (qj rQ j) (psij rQ j) (nth j up []) i Q1 Hi) as [Z1 Z2].
    destruct (NTT_nth (r_logN rQ) (qj rQ j) (psij rQ j) Hnm (nth j up []) i Hi) as [_ Z3].
    destruct (Hx1 i Hi) as [X1 X2].
    destruct (moddown_word_spec (nth i (nth j (p_co p1Q) []) 0) (nth i (NTTLazy lzn (r_logN rQ) (qj rQ j) (psij rQ j) (nth j up [])) 0) (qj rQ j) (nth j (nth levelP (modDownPtoQ b) []) 0) B M61) as [V1 V2]; [exact X1|lia|exact Hr2| |].
    { unfold B. rewrite Nat.add_1_r. exact Hr3. }
    split; [exact V1|].
    unfold cong. apply Gauss with B; [|apply (coprimeB (levelP + 1) j); lia].
    rewrite Z.mul_sub_distr_l. change (cong (qj rQ j) (B * moddown_word (nth i (nth j (p_co p1Q) []) 0) (nth i (NTTLazy lzn (r_logN rQ) (qj rQ j) (psij rQ j) (nth j up [])) 0) (qj rQ j) (nth j (nth levelP (modDownPtoQ b) []) 0)) (B * nttf (r_logN rQ) (psij rQ j) D i)).
    rewrite V2, X2, Z2, Z3.
    destruct (U5 j ltac:(lia)) as [LU _]. destruct (limb_of_nth _ _ _ _ LU) as [LU1 LU2].
    assert (PE : peq N (qj rQ j) (lpoly (nth j up [])) (lpoly Y)).
    { intros x Hx. unfold lpoly. apply LU2. lia. }
    rewrite (nttf_peq (r_logN rQ) (qj rQ j) (psij rQ j) _ _ i PE).
    rewrite <- nttf_sub, <- nttf_scale. apply nttf_peq. intros x Hx. unfold psub, pscale, lpoly. rewrite (HD0 x Hx). reflexivity.
  - rewrite Eo. cbn [bind]. destruct (write_ok levelQ out p2Q Hlo HD) as (d & Ed & Wd & Nd). rewrite Ed. cbn [bind].
    exists y, d, D. split; [reflexivity|]. split; [exact Wd|]. split; [|split; [|split; [exact Wy|split; [exact Ry|]]]].
    + split; [apply RQ|]. split; [fold (plen d); destruct Wd as (_ & -> & _); lia|]. intros j Hj. rewrite Nd by lia. apply (Hout [] j). lia.
    + intros x Hx. destruct (near_range_kappa (nth x Y 0) (X x mod B) B HB (U3 x Hx)) as (kap & Ek & Hk1 & Hk2).
      { rewrite <- (HYX x Hx). exists (X x / B). rewrite (Z.div_mod (X x) B) at 1 by lia. ring. }
      { apply Z.mod_pos_bound. lia. }
      exists kap. split; [lia|]. split; [exact Hk2|]. pose proof (HD0 x Hx) as H0. rewrite Ek in H0. pose proof (Z.div_mod (X x) B ltac:(lia)).
      apply Z.mul_reg_l with B; [lia|]. rewrite H0. rewrite Z.mul_sub_distr_l. lia.
    + intros pQ (P1 & P2 & P3). unfold ModDownQPtoQ. rewrite Eu. cbn [bind]. rewrite (idx_nth _ levelP []) by (unfold PCount in HP; lia). cbn [bind].
      destruct (moddown_limbs_spec levelQ (pa_Q pp) (nth levelP (modDownPtoQ b) []) pQ up Y N B) as (o' & Eo' & [Ho1 Ho2]); auto.
      * apply GM.
      * destruct (Hmd2 levelP 0%nat HP ltac:(unfold QCount in HQ; lia)) as [-> _]. unfold QCount in HQ. lia.
      * split; [exact P2|]. intros j Hj. split; [apply (P3 j Hj)|]. intros x Hx. apply (P3 j Hj). exact Hx.
      * intros j Hj. apply U5. lia.
      * intros j Hj. destruct (Hmd2 levelP j HP ltac:(unfold QCount in HQ; lia)) as (_ & R & C). split; auto. unfold B. now rewrite Nat.add_1_r.
      * exists o'. split; [exact Eo'|]. split; [exact P1|]. split; [lia|]. intros j Hj. destruct (Ho2 j ltac:(lia)) as [O1 O2]. split; [rewrite O1; exact U2|].
        intros x Hx. destruct (O2 x) as [O3 O4]; [rewrite U2; exact Hx|]. split; [exact O3|].
        unfold cong. apply Gauss with B; [|apply (coprimeB (levelP + 1) j); lia]. rewrite Z.mul_sub_distr_l, (HD0 x Hx).
        change (cong (nth j (pa_Q pp) 0) (B * nth x (nth j o' []) 0) (X x - nth x Y 0)). rewrite O4. apply cong_sub; [|reflexivity]. apply (P3 j Hj). exact Hx.
Qed.
End D.
