(** Products whose operands have a zero component "0", computed in place: zero goes in, zero comes out. *)
From Coq Require Import String ZArith Znumtheory List Lia Setoid Morphisms Bool Permutation Arith.
From Verif Require Import Spec SpecProofs Go GoProofs Lattigo LattigoProofs Arith NegRing NegRingProofs NTT NTTProofs F64 BasisExt BasisExtProofs ModDownProofs DecomposeProofs RingOps RingOpsProofs Maps MapsProofs Params Elements KeySwitch KeySets KeyGen EncDec Utils Evaluator Repr KSProofs KSMulProofs ParamsProofs KeyGenProofs SpecCt KSSem Alias AliasProofs.
Import ListNotations.
Local Open Scope Z_scope.
Local Open Scope list_scope.

Lemma small_cong0 q x : 0 <= x < q -> cong q x 0 -> x = 0.
Proof. intros H [m Hm]. assert (m = 0) by nia. lia. Qed.
(** the basis extension of words that represent zero *)
Lemma up_zero k col Q ps pr :
  let qs := firstn k Q in
  tables_ok qs ps pr -> (1 <= k <= 32)%nat -> (k <= length Q)%nat -> (k <= length col)%nat ->
  Forall mod61 Q -> Forall mod61 ps -> Forall (fun x => 0 <= x < W) col -> (forall i, (i < k)%nat -> cong (nth i Q 0) (nth i col 0) 0) ->
  exists ys v, recon 0 k col Q (qoverqiinvqi pr) = Ok (ys, v) /\
    (forall j, (j < length ps)%nat ->
       exists z, multSum k ys v (nth j ps 0) (nth j (vtimesqmodp pr) []) (nth j (qoverqimodp pr) []) = Ok z /\ cong (nth j ps 0) z 0 /\ 0 <= z < 6 * nth j ps 0).
Proof.
  intros qs HT Hk HlQ Hlc HQ HP Hcol Hz.
  assert (Hlq : length qs = k) by (unfold qs; rewrite firstn_length; lia).
  assert (Hqs : Forall mod61 qs) by (unfold qs; now apply Forall_firstn).
  assert (Hnth : forall i, (i < k)%nat -> nth i qs 0 = nth i Q 0) by (intros i Hi; unfold qs; now apply nth_firstn).
  pose proof (tk_len_inv _ _ _ HT) as Hli. rewrite Hlq in Hli.
  destruct (recon_spec 0 k col Q (qoverqiinvqi pr)) as (ys & v & E & Hly & Hys & Hv & Hb); auto.
  { intros i Hi. cbn [Nat.add]. rewrite <- Hnth by auto. apply (tk_inv _ _ _ HT). lia. }
  cbn [Nat.add] in *.
  assert (Hy0 : forall i, (i < k)%nat -> nth i ys 0 = 0).
  { intros i Hi. destruct (Hys i Hi) as [R C]. apply (small_cong0 (nth i Q 0)); [auto|]. rewrite (Hz i Hi), Z.mul_0_l in C.
    assert (Hq : mod61 (nth i Q 0)) by (apply Forall_nth_Z; auto; lia). apply (cong_mul_cancel _ W); [now apply okmod_coprime, mod61_ok|]. rewrite Z.mul_0_r, Z.mul_comm. exact C. }
  assert (S0 : forall c : nat -> Z, sumn k (fun i => nth i ys 0 * c i) = 0).
  { intros c. rewrite (sumn_ext _ _ (fun _ => 0)); [clear; induction k; cbn; lia|]. intros i Hi. now rewrite (Hy0 i Hi). }
  assert (Hv0 : v = 0).
  { pose proof (prodZ_pos61 qs Hqs) as HPp. specialize (Hb (prodZ qs) (except qs) HPp). rewrite S0 in Hb. cbv zeta in Hb.
    destruct Hb as [Hb _]. { intros i Hi. rewrite <- Hnth by auto. apply except_mul. lia. } change (2 ^ 42) with 4398046511104 in Hb. clear - Hb Hv HPp. destruct Hv as [Hv _]. nia. }
  subst v. exists ys, 0. split; [exact E|]. intros j Hj. set (p := nth j ps 0). assert (Hp : mod61 p) by now apply Forall_nth_Z.
  destruct (multSum_spec k ys 0 p (nth j (vtimesqmodp pr) []) (nth j (qoverqimodp pr) []) 4) as (z & Ez & Rz & Cz); auto; try lia.
  - rewrite (tk_row _ _ _ HT j Hj). exact Hlq.
  - rewrite (tk_vrow _ _ _ HT j Hj). lia.
  - intros i Hi. rewrite (Hy0 i Hi). lia.
  - intros i Hi. apply (tk_tab _ _ _ HT j i Hj). lia.
  - rewrite (sumn_ext _ _ (fun i => nth i ys 0 * 1)) by (intros; ring). rewrite S0. rewrite W_val. lia.
  - apply (tk_v _ _ _ HT j (Z.to_nat 0) Hj). cbn. lia.
  - exists z. split; [exact Ez|]. split; [|lia]. rewrite S0 in Cz. destruct (tk_v _ _ _ HT j 0%nat Hj ltac:(lia)) as [_ Cv]. fold p in Cv. change (Z.to_nat 0) with 0%nat in Cz. rewrite Cv in Cz.
    apply (cong_mul_cancel _ W); [now apply okmod_coprime, mod61_ok|]. rewrite Z.mul_comm. rewrite Cz. apply cong_eq. cbn. ring.
Qed.
Lemma modUp_zero p1 n2 Q P pr N :
  let k := length p1 in
  tables_ok (firstn k Q) P pr -> (1 <= k <= 32)%nat -> (k <= length Q)%nat -> (n2 <= length P)%nat ->
  Forall mod61 Q -> Forall mod61 P -> Forall words p1 -> Forall (fun l => length l = N) p1 ->
  (forall i x, (i < k)%nat -> (x < N)%nat -> cong (nth i Q 0) (nth x (nth i p1 []) 0) 0) ->
  exists p2, modUpExact p1 n2 Q P pr = Ok p2 /\ length p2 = n2 /\ forall j, (j < n2)%nat -> limb_of (nth j P 0) (6 * nth j P 0) (nth j p2 []) (repeat 0 N).
Proof.
  intros k HT Hk HlQ HlP HQ HP Hw HN Hz.
  assert (Hnc : ncoef p1 = N). { unfold ncoef. rewrite Forall_forall in HN. apply HN. apply nth_In. lia. }
  destruct (mapM_seq_spec (fun x => modUpExact_coef (column p1 x) Q P n2 pr) (fun x c => length c = n2 /\ forall j, (j < n2)%nat -> 0 <= nth j c 0 < 6 * nth j P 0 /\ cong (nth j P 0) (nth j c 0) 0) N 0) as (cols & E & Hlc & HR).
  - intros x Hx. unfold modUpExact_coef. rewrite column_length. fold k.
    destruct (up_zero k (column p1 x) Q P pr HT) as (ys & v & Er & Hzz); auto.
    { rewrite column_length. fold k. lia. } { now apply column_words. } { intros i Hi. rewrite column_nth by (fold k; lia). now apply Hz. }
    rewrite Er. cbn [bind].
    destruct (mapM_seq_spec (fun j => bind (idx P j) (fun pj => bind (idx (vtimesqmodp pr) j) (fun vt =>
        bind (idx (qoverqimodp pr) j) (fun tb => multSum k ys v pj vt tb))))
      (fun j z => 0 <= z < 6 * nth j P 0 /\ cong (nth j P 0) z 0) n2 0) as (zs & Ezs & Hlz & Hzs).
    { intros j Hj. rewrite (idx_nth P j 0) by lia.
      rewrite (idx_nth (vtimesqmodp pr) j []) by (rewrite (tk_len_v _ _ _ HT); lia).
      rewrite (idx_nth (qoverqimodp pr) j []) by (rewrite (tk_len_tab _ _ _ HT); lia). cbn [bind].
      destruct (Hzz j ltac:(lia)) as (z & Ez & Cz & Rz). exists z. auto. }
    exists zs. split; [exact Ezs|]. split; [exact Hlz|]. intros j Hj. apply (Hzs 0 j Hj).
  - unfold modUpExact. rewrite Hnc, E. cbn [bind]. exists (limbs_of n2 cols). split; [reflexivity|]. split; [apply limbs_of_length|].
    intros j Hj. rewrite limbs_of_nth by auto. apply limb_of_intro; [rewrite map_length, repeat_length; lia|]. rewrite repeat_length. intros x Hx.
    rewrite (nth_mapl _ cols x [] 0) by lia. destruct (HR [] x Hx) as [_ H]. cbn [Nat.add] in H. rewrite nth_repeat. destruct (H j Hj). auto.
Qed.

Section Env.
Context (env : kenv) (He : env_ok env).
Notation pp := (e_pp env).
Notation N := (pa_N pp).
Notation rQ := (ringQ pp).
Notation rP := (ringP pp).
Notation Bt := (Beta pp).
Notation lvP := (levelP pp).
Let Hpp := Hpp env He.
Let HQ := HrQ env He.
Let HP := HrP env He.

Lemma is_ep_zero l : (l < QCount pp)%nat -> is_ep env l pzero pzero.
Proof.
  intros Hl. destruct (finishEP_ok env He l pzero Hl) as (C & R & HC & _). intros c1 c Hq Hs Hc.
  destruct (HC c1 c Hq Hs Hc) as (c1' & c' & E & G1 & G2 & G3). exists c1', c'. split; [auto|]. split; [auto|]. split; [auto|].
  pose proof (lvP1 env He) as HlP. destruct Hq as [Q1 Q2]. destruct Hs as [[D1 D2] [D3 D4]]. rewrite <- HlP in Q2. unfold finishEP in E.
  destruct (InvNTTLazyLvl_ok rQ HQ (e_lz env) l (qQ c1) (qQ c1) pzero Q1 ltac:(lia)) as (x & Ex & Wx & Rx).
  destruct (InvNTTLazyLvl_ok rP HP (e_lz env) lvP (qP c1) (qP c1) pzero Q2 ltac:(lia)) as (y & Ey & Wy & Ry).
  rewrite Ex in E. cbn [bind] in E. rewrite Ey in E. cbn [bind] in E. unfold ModDownQPtoQ, ModUpPtoQ in E.
  pose proof (NewFastBasisExtender_ok _ _ (po_good _ Hpp)) as HX. rewrite <- (eo_ext _ He) in HX.
  assert (Ly : plen y = PCount pp) by (rewrite (wrote_len Wy); auto). assert (Lx : plen x = QCount pp) by (rewrite (wrote_len Wx); auto).
  assert (SX : forall j, (j < l + 1)%nat -> lrep N (nth j (pa_Q pp) 0) (2 * nth j (pa_Q pp) 0) (nth j (p_co x) []) pzero) by apply Rx.
  assert (SY : forall j, (j < lvP + 1)%nat -> lrep N (nth j (pa_P pp) 0) (2 * nth j (pa_P pp) 0) (nth j (p_co y) []) pzero) by apply Ry.
  assert (WY2 : shp N (p_co y)).
  { apply Forall_of_nth with (d := []). intros j Hj. fold (plen y) in Hj. split; [apply (SY j); lia|].
    eapply lrep_words; [|apply (SY j); lia]. destruct (ring_q1 rP j HP) as [HW1 HW]; [cbn; fold (PCount pp); lia|]. cbn [r_mods ringP ringQ] in HW1, HW. lia. }
  rewrite slice_ok in E by (fold (plen y); lia). cbn [bind] in E.
  destruct (idx_inv (paramsPtoQ (e_ext env)) lvP) as (pr & Ei & En); [rewrite (eo_PtoQ_len _ _ _ HX); fold (PCount pp); lia|]. rewrite Ei in E. cbn [bind] in E.
  assert (Ef : firstn (lvP + 1) (p_co y) = p_co y). { apply firstn_all2. fold (plen y). lia. } rewrite Ef in E.
  rewrite (eo_Q _ _ _ HX), (eo_P _ _ _ HX) in E.
  assert (Lyc : length (p_co y) = PCount pp) by exact Ly.
  destruct (modUp_zero (p_co y) (l + 1) (pa_P pp) (pa_Q pp) pr N) as (up & Eu & Lu & Hu); rewrite ?Lyc.
  { pose proof (eo_PtoQ _ _ _ HX _ _ En) as HT. rewrite HlP in HT. exact HT. }
  { pose proof (po_P _ Hpp). lia. } { unfold PCount. lia. } { unfold QCount in Hl. lia. } { apply (gm_P _ _ (po_good _ Hpp)). } { apply (gm_Q _ _ (po_good _ Hpp)). }
  { eapply Forall_impl; [|exact WY2]. cbn. tauto. } { eapply Forall_impl; [|exact WY2]. cbn. tauto. }
  { intros i z Hi Hz. destruct (SY i ltac:(lia)) as [_ G]. destruct (G z Hz) as [_ G']. exact G'. }
  rewrite Eu in E. cbn [bind] in E. destruct (eo_mdPtoQ _ _ _ HX) as [Hmd1 Hmd2].
  rewrite (idx_nth _ lvP []) in E by (rewrite Hmd1; fold (PCount pp); lia). cbn [bind] in E.
  assert (HPl : (lvP < length (pa_P pp))%nat) by (fold (PCount pp); lia). assert (HQl : (l < length (pa_Q pp))%nat) by exact Hl.
  destruct (moddown_limbs_spec l (pa_Q pp) (nth lvP (modDownPtoQ (e_ext env)) []) (p_co x) up (repeat 0 N) N (prodZ (firstn (lvP+1) (pa_P pp)))) as (out & Eo & Ho1 & Ho2).
  { apply (gm_Q _ _ (po_good _ Hpp)). } { exact Hl. }
  { destruct (Hmd2 lvP 0%nat HPl ltac:(lia)) as [-> _]. lia. }
  { apply repeat_length. }
  { split; [fold (plen x); lia|]. intros j Hj. split; [apply (SX j Hj)|]. intros z Hz. apply (SX j Hj). exact Hz. }
  { exact Lu. } { intros j Hj. apply Hu. lia. }
  { intros j Hj. destruct (Hmd2 lvP j HPl ltac:(lia)) as (_ & R0 & C0). split; auto. now rewrite Nat.add_1_r. }
  rewrite Eo in E. cbn [bind] in E. destruct (write_ok l out c) as (c2 & Ec & Wc & Fc); [auto|auto|]. rewrite Ec in E. cbn [bind] in E. injection E as _ <-.
  split; [cbn; lia|]. split; [fold (plen c2); rewrite (wrote_len Wc); lia|]. intros j Hj. cbn. rewrite Fc by lia. destruct (Ho2 j ltac:(lia)) as [HL HXX]. rewrite repeat_length in HL, HXX.
  split; [exact HL|]. intros i Hi. destruct (HXX i Hi) as [HB HCg]. split; [exact HB|].
  apply (cong_mul_cancel _ (bigP pp)).
  { apply rel_prime_sym. unfold bigP. apply rel_prime_prodZ. apply Forall_of_nth with (d := 0). intros jj Hjj.
    apply (good_coprime (pa_Q pp) (pa_P pp)); [apply Hpp|apply nth_In; unfold QCount in Hl; lia|now apply nth_In]. }
  assert (EPP : prodZ (firstn (lvP + 1) (pa_P pp)) = bigP pp) by (rewrite HlP; unfold bigP, PCount; now rewrite firstn_all). rewrite EPP in HCg. rewrite HCg, nth_repeat.
  destruct (SX j Hj) as [_ G]. destruct (G i Hi) as [_ G']. rewrite G'. apply cong_eq. unfold pzero. ring.
Qed.
Lemma is_ep_zero' l S0 : (l < QCount pp)%nat -> peq N 0 S0 pzero -> is_ep env l S0 pzero.
Proof. intros Hl HS. eapply (is_ep_peq env He); [symmetry; exact HS|]. now apply is_ep_zero. Qed.
(** digits of zero, when every block is one prime *)
Definition Dz : nat -> zpoly := fun _ => lpoly (repeat 0 N).
Lemma digits_zero l : (l < QCount pp)%nat -> Alpha pp = 1%nat -> digits env l (plimbs rQ (l + 1) pzero) Dz.
Proof.
  intros Hl Ha. destruct (cdigits_exist env He l pzero Hl) as (D & HD). intros i Hi. destruct (HD i Hi) as (oq & op & Y & E & HR & _). exists oq, op, (repeat 0 N). split; [exact E|]. split; [|reflexivity].
  assert (Hil : (i < l + 1)%nat). { pose proof (Beta_ceiling pp l (proj1 (po_alpha _ Hpp))) as HB. rewrite Ha in HB. destruct HB as (_ & _ & HB); [pose proof (po_Q52 _ Hpp); unfold QCount in *; lia|pose proof (po_P _ Hpp); unfold PCount in *; lia|]. lia. }
  assert (EZ : nth i (plimbs rQ (l + 1) pzero) [] = repeat 0 N).
  { unfold plimbs. rewrite nth_map_seq by lia. apply (nth_ext _ _ 0 0); [now rewrite map_length, seq_length, repeat_length|]. rewrite map_length, seq_length. intros n Hn. rewrite nth_map_seq by auto. rewrite nth_repeat. apply Zmod_0_l. }
  unfold DecomposeAndSplit in E. rewrite Ha in E. cbn [Nat.eqb] in E. rewrite decompLvl_val in E by lia. rewrite Nat.mul_1_r in E. replace (Nat.min 1 (l + 1 - i)) with 1%nat in E by lia.
  change (Z.of_nat 1 - 2 =? -1) with true in E. cbv iota in E. rewrite (idx_nth _ i []) in E by (unfold plimbs; rewrite map_length, seq_length; lia). cbn [bind] in E. rewrite EZ in E. injection E as <- <-.
  destruct HR as (H1 & H2 & H3 & _). split; [apply repeat_length|]. split; [auto|]. split; [auto|]. split; [|split; [|split]].
  - intros x Hx. rewrite nth_repeat. unfold near_range. pose proof (prodZ_pos61 (block (pa_Q pp) (Alpha pp) i l)) as HPp. rewrite Ha in *. assert (0 < prodZ (block (pa_Q pp) 1 i l)). { apply HPp. unfold block. apply Forall_firstn, Forall_skipn. apply (gm_Q _ _ (po_good _ Hpp)). } change (2 ^ 42) with 4398046511104. lia.
  - intros j x Hj1 Hj2 Hj3 Hx. rewrite Ha in *. assert (j = i) as -> by lia. rewrite EZ. reflexivity.
  - intros j Hj. rewrite nth_repeat_lt by lia. apply limb_of_intro; [auto|]. rewrite repeat_length. intros x Hx. rewrite nth_repeat. rewrite W_val. split; [lia|reflexivity].
  - intros j Hj. rewrite nth_repeat_lt by lia. apply limb_of_intro; [auto|]. rewrite repeat_length. intros x Hx. rewrite nth_repeat. rewrite W_val. split; [lia|reflexivity].
Qed.
Lemma Dz_zero t : peq N 0 (Dz t) pzero.
Proof. intros i Hi. unfold Dz, lpoly. rewrite nth_repeat. reflexivity. Qed.
Lemma psumL_zero {A} (f : A -> zpoly) L : (forall x, In x L -> peq N 0 (f x) pzero) -> peq N 0 (psumL f L) pzero.
Proof.
  induction L as [|a L IH]; intros H; cbn; [reflexivity|]. rewrite (H a (or_introl eq_refl)), IH by (intros; apply H; now right). intros i Hi. unfold padd, pzero. apply cong_eq. ring.
Qed.
Lemma gsum_zero_r l B D : (forall t, (t < Bt l)%nat -> peq N 0 (D t) pzero) -> peq N 0 (gsum env l B D) pzero.
Proof. intros H. apply psumL_zero. intros t Ht. apply in_seq in Ht. rewrite (H t) by lia. apply pmul_zero_r, (HN0 env). Qed.
Lemma gsum_zero_l l B D : (forall t, (t < Bt l)%nat -> peq N 0 (B t) pzero) -> peq N 0 (gsum env l B D) pzero.
Proof. intros H. apply psumL_zero. intros t Ht. apply in_seq in Ht. rewrite (H t) by lia. rewrite pmul_comm by apply (HN0 env). apply pmul_zero_r, (HN0 env). Qed.
Lemma gvec_zero K D ids t : (forall id, In id ids -> peq N 0 (K id t) pzero) -> peq N 0 (gvec env K D ids t) pzero.
Proof. intros H. apply psumL_zero. intros id Hid. rewrite (H id Hid). rewrite pmul_comm by apply (HN0 env). apply pmul_zero_r, (HN0 env). Qed.
End Env.
