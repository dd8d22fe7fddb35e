(** Rotation and conjugation: the permutation loop, the key-switching sums, and which polynomials the output components represent. *)
From Coq Require Import String ZArith Znumtheory List Lia Setoid Morphisms Bool Permutation.
From Verif Require Import Spec SpecProofs Go GoProofs Lattigo LattigoProofs Arith NegRing NegRingProofs NTT NTTProofs F64 BasisExt BasisExtProofs ModDownProofs DecomposeProofs RingOps RingOpsProofs Maps MapsProofs Params Elements KeySwitch KSProofs KSMulProofs KSAlg KSNorm Crt ParamsProofs KeyGenProofs SpecCt KSSem Galois EncProofs.
Import ListNotations.
Local Open Scope Z_scope.
Local Open Scope list_scope.

(** * the permutation loop, word by word *)
Lemma permute_limb_nth logN g g' q x old : (1 <= logN <= 30)%nat ->
  0 <= g < 2 * Z.of_nat (deg logN) -> Z.Odd g -> cong (2 * Z.of_nat (deg logN)) (g * g') 1 -> length old = deg logN ->
  length (permute_limb logN g q x old) = deg logN /\
  forall m, (m < deg logN)%nat ->
    nth m (permute_limb logN g q x old) 0 =
      let z := g' * Z.of_nat m in let v := nth (Z.to_nat (z mod Z.of_nat (deg logN))) x 0 in
      if Z.even (z / Z.of_nat (deg logN)) then v else wsub q v.
Proof.
  intros HL Hg Hodd Hgg Hold. pose proof (deg_pos logN) as HN. set (N := deg logN) in *. set (n := Z.of_nat N) in *.
  assert (Hn0 : 0 < n) by lia.
  assert (Hn30 : n <= 2 ^ 30) by (unfold n, N; rewrite deg_Z; apply Z.pow_le_mono_r; lia).
  assert (Hraw : forall i, (i < N)%nat -> wmul (Z.of_nat i) g = Z.of_nat i * g).
  { intros i Hi. unfold wmul. apply wrap_small. rewrite W_val. change (2 ^ 30) with 1073741824 in Hn30. nia. }
  set (k := fun i => Z.to_nat ((Z.of_nat i * g) mod n)).
  set (v := fun i => if ((Z.of_nat i * g) / n) mod 2 =? 0 then nth i x 0 else wsub q (nth i x 0)).
  assert (EQ : permute_limb logN g q x old = fold_left (fun out i => upd out (k i) (v i)) (seq 0 N) old).
  { unfold permute_limb. fold N. fold n.
    assert (HH : forall l o, (forall i, In i l -> (i < N)%nat) ->
      fold_left (fun out i => upd out (Z.to_nat (wmul (Z.of_nat i) g mod n)) (if wmul (Z.of_nat i) g / n mod 2 =? 0 then nth i x 0 else wsub q (nth i x 0))) l o =
      fold_left (fun out i => upd out (k i) (v i)) l o).
    { induction l as [|i l IH]; intros o Ho; [reflexivity|]. cbn [fold_left]. rewrite (Hraw i) by (apply Ho; now left).
      apply IH. intros; apply Ho; now right. }
    apply HH. intros i Hi. apply in_seq in Hi. lia. }
  assert (Hgn : cong n (g * g') 1). { destruct Hgg as [u Hu]. exists (2 * u). rewrite Hu. ring. }
  destruct (scatter k v old N) as [HLen HV].
  { intros i Hi. unfold k. pose proof (Z.mod_pos_bound (Z.of_nat i * g) n Hn0). lia. }
  { intros i j Hi Hj E. unfold k in E.
    pose proof (Z.mod_pos_bound (Z.of_nat i * g) n Hn0). pose proof (Z.mod_pos_bound (Z.of_nat j * g) n Hn0).
    assert (E' : (Z.of_nat i * g) mod n = (Z.of_nat j * g) mod n) by lia.
    assert (C : cong n (Z.of_nat i * g) (Z.of_nat j * g)) by (rewrite <- (cong_mod n (Z.of_nat i * g)), E', cong_mod by lia; reflexivity).
    assert (C2 : cong n (Z.of_nat i) (Z.of_nat j)).
    { transitivity (Z.of_nat i * g * g'); [rewrite <- Z.mul_assoc, Hgn; apply cong_eq; ring|]. rewrite C, <- Z.mul_assoc, Hgn. apply cong_eq; ring. }
    destruct C2 as [u Hu]. assert (u = 0) by nia. subst u. lia. }
  rewrite EQ. set (out := fold_left _ _ _) in *. split; [lia|]. intros m Hm. cbv zeta.
  set (i := Z.to_nat ((g' * Z.of_nat m) mod n)).
  pose proof (Z.mod_pos_bound (g' * Z.of_nat m) n Hn0) as Hmod.
  assert (Hi : (i < N)%nat) by (unfold i; lia).
  assert (Hiz : Z.of_nat i = (g' * Z.of_nat m) mod n) by (unfold i; lia).
  pose proof (Z.div_mod (g' * Z.of_nat m) n ltac:(lia)) as HD. rewrite <- Hiz in HD. set (t := (g' * Z.of_nat m) / n) in *.
  destruct Hodd as [h Hh]. destruct Hgg as [u Hu].
  assert (HE : Z.of_nat i * g = Z.of_nat m + n * (t + 2 * (u * Z.of_nat m - t * (h + 1)))).
  { assert (Z.of_nat i = g' * Z.of_nat m - n * t) by lia. rewrite H.
    replace ((g' * Z.of_nat m - n * t) * g) with ((g * g' - 1) * Z.of_nat m + Z.of_nat m - n * t * g) by ring.
    rewrite Hu, Hh. ring. }
  assert (Hki : k i = m).
  { unfold k. rewrite HE, (Z.mul_comm n), Z.mod_add, Z.mod_small by lia. lia. }
  pose proof (HV i Hi) as HVm. rewrite Hki in HVm. rewrite HVm. unfold v.
  rewrite HE, (Z.mul_comm n), Z.div_add, (Z.div_small (Z.of_nat m)) by lia. rewrite Z.add_0_l.
  replace (t + 2 * (u * Z.of_nat m - t * (h + 1))) with (t + (u * Z.of_nat m - t * (h + 1)) * 2) by ring. rewrite Z.mod_add by lia.
  rewrite Zmod_even. destruct (Z.even t); reflexivity.
Qed.
Lemma permute_limb_old logN g g' q x old old' : (1 <= logN <= 30)%nat ->
  0 <= g < 2 * Z.of_nat (deg logN) -> Z.Odd g -> cong (2 * Z.of_nat (deg logN)) (g * g') 1 -> length old = deg logN -> length old' = deg logN ->
  permute_limb logN g q x old = permute_limb logN g q x old'.
Proof.
  intros HL Hg Ho Hc H1 H2. destruct (permute_limb_nth logN g g' q x old) as [L1 N1]; auto. destruct (permute_limb_nth logN g g' q x old') as [L2 N2]; auto.
  apply (nth_ext _ _ 0 0); [lia|]. intros m Hm. rewrite N1, N2 by lia. reflexivity.
Qed.
Lemma pCopy_short dst src : (plen dst <= plen src)%nat -> pCopy dst src = mkPoly (p_ntt src) (firstn (plen dst) (p_co src)).
Proof. intros H. unfold pCopy. rewrite Nat.min_l by auto. rewrite skipn_all2 by (unfold plen; lia). now rewrite app_nil_r. Qed.
Lemma rel_prime_inv n g g' : cong (2 * n) (g * g') 1 -> rel_prime g' n.
Proof.
  intros [u Hu]. apply bezout_rel_prime. apply (Bezout_intro g' n 1 g (- 2 * u)). lia.
Qed.

Section Env.
Context (env : kenv) (He : env_ok env).
Notation pp := (e_pp env).
Notation N := (pa_N pp).
Notation rQ := (ringQ pp).
Notation Bt := (Beta pp).
Let Hpp := Hpp env He.
Let HQ := HrQ env He.

(** * switching the components of the parties L from sin to sout *)
Section Switch.
Context (l : nat) (L : list string) (f : string -> zpoly) (D : string -> nat -> zpoly) (g : nat -> Z) (A : nat -> zpoly)
  (sin sout : string -> zpoly) (e : string -> nat -> zpoly) (Bs Be Dm : Z).
Hypothesis Hl : (l < QCount pp)%nat.
Hypothesis Hg : gadget pp g.
Hypothesis Hs : forall i, In i L -> pnorm_le N (sout i) Bs.
Hypothesis Herr : forall i t, In i L -> (t < Bt l)%nat -> pnorm_le N (e i t) Be.
Hypothesis HDn : forall i t, In i L -> (t < Bt l)%nat -> pnorm_le N (D i t) Dm.
Hypothesis HDc : forall i j, In i L -> (j <= l)%nat -> peq N (nth j (pa_Q pp) 0) (D i (j / Alpha pp)%nat) (f i).
Definition swK (i : string) t := padd (psub (e i t) (pmul N (sout i) (A t))) (pscale (bigP pp) (pmul N (pconst (g t)) (sin i))).

Lemma switch_sem : exists C Ca w,
  (forall i, In i L -> is_ep env l (gsum env l (swK i) (D i)) (C i) /\ is_ep env l (gsum env l A (D i)) (Ca i)) /\
  pnorm_le N (pscale (bigP pp) w) (Z.of_nat (length L) * ks_noise N (Z.of_nat (Bt l)) Bs Be Dm (bigP pp)) /\
  forall j, (j <= l)%nat -> peq N (nth j (pa_Q pp) 0) (psumL (fun i => padd (C i) (pmul N (sout i) (Ca i))) L)
    (padd (psumL (fun i => pmul N (sin i) (f i)) L) w).
Proof.
  assert (HN : (0 < N)%nat) by apply deg_pos.
  destruct (choose_str (pzero, pzero) L (fun id CR => is_ep env l (gsum env l (swK id) (D id)) (fst CR) /\ peq N 0 (pscale (bigP pp) (fst CR)) (psub (gsum env l (swK id) (D id)) (snd CR)) /\ pnorm_le N (snd CR) (2 * bigP pp))) as (F1 & HF1).
  { intros id _. destruct (finishEP_ok env He l (gsum env l (swK id) (D id)) Hl) as (C & R & H). now exists (C, R). }
  destruct (choose_str (pzero, pzero) L (fun id CR => is_ep env l (gsum env l A (D id)) (fst CR) /\ peq N 0 (pscale (bigP pp) (fst CR)) (psub (gsum env l A (D id)) (snd CR)) /\ pnorm_le N (snd CR) (2 * bigP pp))) as (F2 & HF2).
  { intros id _. destruct (finishEP_ok env He l (gsum env l A (D id)) Hl) as (C & R & H). now exists (C, R). }
  set (C := fun id => fst (F1 id)). set (Ca := fun id => fst (F2 id)). set (ts := seq 0 (Bt l)). set (G := fun t => pconst (g t)).
  set (W1 := fun i => psub (padd (C i) (pmul N (sout i) (Ca i))) (pmul N (sin i) (psumL (fun t => pmul N (G t) (D i t)) ts))).
  exists C, Ca, (psumL W1 L). split; [|split].
  - intros i Hi. split; [apply (HF1 i Hi)|apply (HF2 i Hi)].
  - eapply pnorm_peq; [apply psumL_scale|]. apply pnorm_psumL. intros i Hi.
    eapply pnorm_peq; [symmetry; apply (ks_alg N HN ts (bigP pp) G (D i) (e i) A (sout i) (sin i) (C i) (Ca i) (snd (F1 i)) (snd (F2 i)))|].
    + apply (HF1 i Hi).
    + apply (HF2 i Hi).
    + change (ks_noise N (Z.of_nat (Bt l)) Bs Be Dm (bigP pp)) with (ks_bound N (Z.of_nat (Bt l)) Bs Be Dm (bigP pp)).
      replace (Z.of_nat (Bt l)) with (Z.of_nat (length ts)) by (unfold ts; now rewrite seq_length).
      apply ks_norm; auto.
      * intros t Ht. apply in_seq in Ht. apply Herr; auto; lia.
      * intros t Ht. apply in_seq in Ht. apply HDn; auto; lia.
      * apply (HF1 i Hi).
      * apply (HF2 i Hi).
  - intros j Hj. set (q := nth j (pa_Q pp) 0). rewrite <- psumL_add. apply psumL_ext. intros i Hi. unfold W1.
    rewrite (recombine N HN q ts (j / Alpha pp)%nat G (D i) (f i)).
    + intros x _. unfold padd, psub. apply cong_eq. ring.
    + apply seq_NoDup.
    + apply in_seq. pose proof (Beta_cover env He l j Hl Hj). lia.
    + intros t Ht. apply in_seq in Ht. apply (gadget_row env He l g); auto. lia.
    + now apply HDc.
Qed.
End Switch.

(** * Rotate and RotateHoisted *)
Section Rot.
Context (ctIn ctOut : ciphertext) (li l : nat) (rks : rotset) (rotidx : Z) (av : swk) (f : string -> zpoly) (B D : string -> nat -> zpoly) (A : nat -> zpoly)
  (C Ca : string -> zpoly) (gal' : Z) (c0 : poly) (L : list string).
Let kk := normNeg (pa_logN pp) rotidx.
Let gal := galColumn (pa_logN pp) kk.
Let z := "0"%string.
Hypothesis HI : ct_ok pp li ctIn.
Hypothesis HLids : ids_of ctIn L.
Hypothesis HO : ct_ok pp l ctOut.
Hypothesis Hl : (l <= li < QCount pp)%nat.
Hypothesis Hkeys : forall id, In id (mkeys ctOut) <-> In id (mkeys ctIn).
Hypothesis Hf : forall id, In id (mkeys ctIn) -> exists p, sget ctIn id = Some p /\ prep rQ (fun q => q + 1) (li + 1) (p_co p) (f id) /\ p_ntt p = false /\ plen p = (li + 1)%nat /\ shp N (p_co p).
Hypothesis Hc0 : sget ctIn z = Some c0.
Hypothesis Hcrs : zget (pa_CRS pp) kk = Some av.
Hypothesis HA : rowsb env l av A.
Hypothesis Hrk : forall id, In id L -> exists rk, GetRotationKey rks id kk = Ok rk /\ rowsb env l (rk_val rk) (B id).
Hypothesis Hep : forall id, In id L -> is_ep env l (gsum env l (B id) (D id)) (C id) /\ is_ep env l (gsum env l A (D id)) (Ca id).
Hypothesis Hgal' : cong (2 * Z.of_nat N) (gal * gal') 1.

Definition rbody (id : string) : zpoly := if String.eqb id "0" then padd (f "0"%string) (psumL C L) else Ca id.
Definition rlimb (id : string) (j : nat) : list Z :=
  if String.eqb id "0" && (match L with [] => true | _ => false end) then nth j (p_co c0) [] else nth j (plimbs rQ (l + 1) (rbody id)) [].
Definition rout (id : string) : poly :=
  mkPoly false (map (fun j => permute_limb (pa_logN pp) gal (nth j (pa_Q pp) 0) (rlimb id j) (repeat 0 N)) (seq 0 (l + 1))).

Let HlN : (1 <= pa_logN pp <= 30)%nat. Proof. exact (ro_log rQ HQ). Qed.
Let Hgal : 0 <= gal < 2 * Z.of_nat N /\ Z.Odd gal. Proof. apply galColumn_ok. Qed.

Lemma rlimb_prep id : In id (mkeys ctIn) -> forall co, length co = (l + 1)%nat -> (forall j, (j < l + 1)%nat -> nth j co [] = rlimb id j) ->
  prep rQ (fun q => q + 1) (l + 1) co (rbody id).
Proof.
  intros Hin co HL Hco. assert (HlQ : (l + 1 <= length (r_mods rQ))%nat) by (unfold QCount in Hl; cbn [r_mods ringQ]; lia).
  destruct (String.eqb id "0" && (match L with [] => true | _ => false end)) eqn:E.
  - apply andb_true_iff in E as [E1 E2]. apply String.eqb_eq in E1 as ->. destruct (Hf _ Hin) as (p & Ep & HP & _).
    unfold z in Hc0. rewrite Ep in Hc0. injection Hc0 as ->.
    eapply prep_ext; [| |]; [lia| |].
    + intros j Hj. rewrite Hco by auto. unfold rlimb. cbn [String.eqb andb]. destruct L; [|discriminate]. cbn. reflexivity.
    + apply (prep_le rQ _ (li + 1)); [lia|]. eapply (prep_p0 env); [|exact HP]. unfold rbody. cbn [String.eqb]. destruct L; [|discriminate].
      intros i _. apply cong_eq. unfold padd. cbn. unfold pzero. ring.
  - eapply prep_ext; [| |apply (prep_mono rQ (fun q => q)); [cbn; lia|apply (plimbs_prep rQ (l + 1) (rbody id) HQ HlQ)]]; [lia|].
    intros j Hj. rewrite Hco by auto. unfold rlimb. rewrite E. reflexivity.
Qed.
Lemma rout_ok id : In id (mkeys ctIn) -> p_ntt (rout id) = false /\ plen (rout id) = (l + 1)%nat /\
  prep rQ (fun q => q + 1) (l + 1) (p_co (rout id)) (sigma_inv N gal' (rbody id)).
Proof.
  intros Hin. split; [reflexivity|]. unfold plen. cbn [rout p_co]. split; [now rewrite map_length, seq_length|].
  assert (HP : prep rQ (fun q => q + 1) (l + 1) (map (rlimb id) (seq 0 (l + 1))) (rbody id)).
  { apply rlimb_prep; auto; [now rewrite map_length, seq_length|]. intros j Hj. now rewrite nth_map_seq. }
  destruct HP as (P1 & P2 & P3). split; [auto|]. split; [rewrite map_length, seq_length; lia|]. intros j Hj. rewrite nth_map_seq by auto.
  specialize (P3 j Hj). rewrite nth_map_seq in P3 by auto.
  destruct (ring_q1 rQ j HQ ltac:(lia)) as [Hq1 HqW]. cbn [r_mods ringQ] in *.
  eapply (permute_limb_lrep (pa_logN pp) gal gal' (nth j (pa_Q pp) 0) (nth j (pa_Q pp) 0 + 1)); auto; try lia; try apply Hgal.
  apply repeat_length.
Qed.
Lemma RotateGen_ok o h k : order_ok o -> pool_ok pp k -> (forall id, In id L -> osrc env l h ctIn id (D id)) ->
  exists ct' k', RotateGen env o ctIn rotidx h rks ctOut k = Ok (ct', k') /\ pool_ok pp k' /\ mkeys ct' = mkeys ctOut /\
    forall id, In id (mkeys ctOut) -> sget ct' id = Some (rout id).
Proof.
  intros Ho Hk Hsrc. assert (HlQ : (l < QCount pp)%nat) by lia. assert (HN : (0 < N)%nat) by apply deg_pos.
  set (keys := mkeys ctOut).
  assert (HlQ' : (l + 1 <= length (r_mods rQ))%nat) by (unfold QCount in Hl; cbn [r_mods ringQ]; lia).
  unfold RotateGen. rewrite (ct_level env l ctOut HO). cbn [bind].
  destruct (ctIDSet_perm o ctIn L Ho HLids) as (ids & Ei & Hids & HPerm). rewrite Ei. cbn [bind].
  rewrite (ct_level env li ctIn HI). cbn [bind]. rewrite (proj2 (Nat.ltb_ge li l)) by lia. fold kk. rewrite Hcrs.
  unfold mptr at 1. fold z. rewrite Hc0. cbn [bind].
  assert (HzI : In z (mkeys ctIn)) by apply HI. assert (Hz : In z keys) by (apply Hkeys; auto).
  destruct (mget_ex _ seqb ctOut z Hz) as (p0 & Ep0). destruct (ck_comp _ _ _ HO _ _ Ep0) as (Fp0 & Lp0 & _).
  destruct (Hf z HzI) as (c0' & Ec0 & Pc0 & Fc0 & Lc0 & _). rewrite Hc0 in Ec0. injection Ec0 as <-.
  erewrite ctUpd_ok; [|exact Ep0|reflexivity]. cbn [bind].
  set (S1 := o 1%nat (mkeys ids)).
  assert (HS1 : Permutation S1 L) by (etransitivity; [apply Ho|exact HPerm]).
  assert (HLn : NoDup L) by (apply HLids).
  assert (HS1n : NoDup S1) by (eapply Permutation_NoDup; [symmetry; exact HS1|exact HLn]).
  assert (HLk : forall id, In id L -> In id keys /\ id <> z).
  { intros id Hin. apply HLids in Hin as [H1 H2]. split; [now apply Hkeys|exact H2]. }
  (* the switching loop *)
  match goal with |- context [foldM ?ff S1 ?st] =>
    destruct (foldM_inv ff (fun don '(c, k) => pool_ok pp k /\ ctall keys c (fun id p => p_ntt p = false /\ plen p = (l + 1)%nat /\
        (id = z -> (don = [] -> forall j, (j < l + 1)%nat -> nth j (p_co p) [] = nth j (p_co c0) []) /\
                   (don <> [] -> prep rQ (fun q => q) (l + 1) (p_co p) (padd (f z) (psumL C don))) /\
                   prep rQ (fun q => q + 1) (l + 1) (p_co p) (padd (f z) (psumL C don))) /\
        (In id don -> prep rQ (fun q => q) (l + 1) (p_co p) (Ca id)))) S1 st)
      as ([c1 k1] & EL & Hk1 & HC1) end.
  { intros don id rest [c kx] El (Hkx & HC). assert (HinS : In id S1) by (rewrite El; apply in_elt).
    assert (Hin : In id L) by (eapply Permutation_in; [exact HS1|exact HinS]). destruct (HLk id Hin) as [Hik Hiz].
    assert (Hnd : ~ In id don). { assert (HND : NoDup (don ++ id :: rest)) by (rewrite <- El; exact HS1n). apply NoDup_remove_2 in HND. rewrite in_app_iff in HND. tauto. }
    destruct (Hrk id Hin) as (rk & Erk & Hrows). rewrite Erk. cbn [bind].
    destruct (Hep id Hin) as [Hep1 Hep2].
    destruct (extOp_ok env He l h ctIn id (D id) (rk_val rk) (B id) (C id) (k_q0 kx) kx HlQ (Hsrc id Hin) Hrows Hep1 Hkx) as (q0 & k1 & E1 & W1 & P1 & Hk1 & Kp1).
    { destruct (kp_q0 _ _ Hkx) as [-> _]. exact HlQ. }
    rewrite E1. cbn [bind].
    assert (Hk1' : pool_ok pp (set_q0 q0 k1)).
    { eapply (pool_set_q0 env He k1 l q0 (C id)); auto. destruct Kp1 as (-> & _). exact W1. }
    destruct (proj2 HC z Hz) as (pz & Epz & Fz & Lz & Gz & _). destruct (Gz eq_refl) as (_ & _ & Pz).
    destruct (AddLvl_ok rQ HQ (fun q => q + 1) (fun q => q) (fun q => q) l pz q0 pz _ _ Pz P1) as (d & Ed & Wd & Pd); [lia|cbn; lia|].
    erewrite ctUpd_ok; [|exact Epz|exact Ed]. cbn [bind].
    destruct (proj2 HC id Hik) as (pi & Epi & Fi & Li & _).
    unfold mptr. rewrite (mget_mset_other _ seqb) by (intros E; apply Hiz; now symmetry in E || exact E). rewrite Epi. cbn [bind].
    destruct (extOp_ok env He l h ctIn id (D id) av A (Ca id) pi (set_q0 q0 k1) HlQ (Hsrc id Hin) HA Hep2 Hk1') as (d2 & k2 & E2 & W2 & P2 & Hk2 & Kp2); [lia|].
    rewrite E2. cbn [bind]. eexists. split; [reflexivity|]. split; [exact Hk2|].
    assert (HP' : prep rQ (fun q => q) (l + 1) (p_co d) (padd (f z) (psumL C (don ++ [id])))).
    { eapply (prep_p0 env); [|exact Pd]. rewrite psumL_app. cbn [psumL]. intros i _. apply cong_eq. unfold padd, pzero. ring. }
    eapply ctall_set; [eapply (ctall_set keys c _ (fun id' p => p_ntt p = false /\ plen p = (l + 1)%nat /\
        (id' = z -> prep rQ (fun q => q) (l + 1) (p_co p) (padd (f z) (psumL C (don ++ [id])))) /\ (In id' don -> prep rQ (fun q => q) (l + 1) (p_co p) (Ca id')))); [exact HC|exact Hz| |]| exact Hik| |].
    - destruct Wd as (F & G & _). rewrite F, G. split; [auto|]. split; [auto|]. split; [auto|]. intros Hzd. exfalso.
      assert (In z S1) by (rewrite El; apply in_or_app; now left). destruct (HLk z) as [_ Hne]; [|now apply Hne]. eapply Permutation_in; [exact HS1|auto].
    - intros x px Hne Hxk (G1 & G2 & G3 & G4). split; [auto|]. split; [auto|]. split; [intros; contradiction|auto].
    - destruct W2 as (F & G & _). rewrite F, G. split; [auto|]. split; [auto|]. split; [intros; contradiction|auto].
    - intros x px Hne Hxk (G1 & G2 & G3 & G4). split; [auto|]. split; [auto|]. split.
      + intros Hx. split; [intros Hd; now destruct don|]. split; [auto|]. eapply prep_mono; [|exact (G3 Hx)]. cbn. lia.
      + intros Hx. apply G4. apply in_app_or in Hx as [|[->|[]]]; auto. contradiction. }
  { split; [exact Hk|]. eapply (ctall_set keys ctOut (fun id p => p_ntt p = false /\ plen p = (l + 1)%nat)).
    - split; [reflexivity|]. intros id Hin. destruct (mget_ex _ seqb ctOut id Hin) as (p & Ep). exists p. split; [auto|]. destruct (ck_comp _ _ _ HO id p Ep) as (? & ? & _). auto.
    - exact Hz.
    - rewrite pCopy_short by lia. rewrite Lp0. unfold plen. cbn [p_ntt p_co]. unfold plen in Lp0, Lc0. split; [auto|]. split; [rewrite firstn_length; lia|].
      assert (HN0 : forall j, (j < l + 1)%nat -> nth j (firstn (l + 1) (p_co c0)) [] = nth j (p_co c0) []) by (intros j Hj; now rewrite nth_firstn_lt by lia).
      split; [|intros []]. intros _. split; [auto|]. split; [intros Hd; now destruct Hd|].
      eapply prep_ext; [|exact HN0|]; [rewrite firstn_length; lia|].
      apply (prep_le rQ _ (li + 1)); [lia|]. eapply (prep_p0 env); [|exact Pc0]. intros i _. apply cong_eq. unfold padd. cbn. unfold pzero. ring.
    - intros x px Hne Hxk [G1 G2]. split; [auto|]. split; [auto|]. split; [intros; contradiction|intros []]. }
  rewrite EL. cbn [bind]. fold gal.
  (* before the permutation every limb is determined *)
  assert (HB : ctall keys c1 (fun id p => p_ntt p = false /\ plen p = (l + 1)%nat /\ forall j, (j < l + 1)%nat -> nth j (p_co p) [] = rlimb id j)).
  { eapply ctall_impl; [exact HC1|]. intros id p Hin (G1 & G2 & G3 & G4). split; [auto|]. split; [auto|]. intros j Hj. unfold rlimb.
    destruct (String.eqb_spec id "0") as [->|Hne]; cbn [andb].
    - destruct (G3 eq_refl) as (X1 & X2 & _). destruct L as [|x L'] eqn:EL'; [|].
      + apply X1; [|auto]. now apply Permutation_sym, Permutation_nil in HS1.
      + eapply (prep_unique rQ (l + 1)); [apply X2| |exact Hj|reflexivity].
        * intros E. rewrite E in HS1. now apply Permutation_nil_cons in HS1.
        * eapply (prep_p0 env); [|apply plimbs_prep; auto]. unfold rbody. cbn [String.eqb]. rewrite EL'. apply padd_proper; [reflexivity|].
          apply psumL_perm. now symmetry.
    - eapply (prep_unique rQ (l + 1)); [apply G4| |exact Hj|reflexivity].
      + eapply Permutation_in; [symmetry; exact HS1|]. apply HLids. split; [now apply Hkeys|auto].
      + unfold rbody. rewrite (proj2 (String.eqb_neq id "0") Hne). now apply plimbs_prep. }
  set (S2 := o 2%nat (mkeys ctIn)).
  assert (HS2n : NoDup S2) by (apply order_nodup; auto; apply HI).
  match goal with |- context [foldM ?ff S2 ?st] =>
    destruct (foldM_inv ff (fun don '(c, k) => pool_ok pp k /\ ctall keys c (fun id p =>
        (~ In id don -> p_ntt p = false /\ plen p = (l + 1)%nat /\ forall j, (j < l + 1)%nat -> nth j (p_co p) [] = rlimb id j) /\ (In id don -> p = rout id))) S2 st)
      as ([c2 k2] & EM & Hk2 & HC2) end.
  { intros don id rest [c kx] El (Hkx & HC). assert (HinI : In id (mkeys ctIn)) by (rewrite <- (order_in o 2%nat _ id Ho); fold S2; rewrite El; apply in_elt).
    assert (Hik : In id keys) by now apply Hkeys.
    assert (Hnd : ~ In id don). { assert (HND : NoDup (don ++ id :: rest)) by (rewrite <- El; exact HS2n). apply NoDup_remove_2 in HND. rewrite in_app_iff in HND. tauto. }
    destruct (proj2 HC id Hik) as (p & Ep & G & _). destruct (G Hnd) as (Fp & Lp & Np).
    unfold permuteComp. unfold mptr at 1. rewrite Ep. cbn [bind].
    destruct (kp_q0 _ _ Hkx) as [Lq Sq].
    unfold permuteLvl.
    match goal with |- context [lvl3 rQ ?ff l p p (k_q0 kx)] => destruct (lvl3_ok rQ ff l p p (k_q0 kx) HQ) as (d & Ed & Wd & Nd); try lia end.
    rewrite Ed. cbn [bind]. erewrite ctUpd_ok; [|exact Ep|reflexivity]. cbn [bind]. eexists. split; [reflexivity|].
    assert (Hrp : pCopy p d = rout id).
    { destruct Wd as (Fd & Ld & _). rewrite pCopy_short by lia. unfold rout. rewrite Fd, (kp_f0 _ _ Hkx), Lp. f_equal.
      unfold plen in Lp, Ld, Lq. apply (nth_ext _ _ [] []).
      - rewrite firstn_length, map_length, seq_length. lia.
      - rewrite firstn_length. intros j Hj. rewrite nth_firstn_lt by lia. rewrite nth_map_seq by lia. rewrite Nd by lia. rewrite Np by lia. cbn [r_logN ringQ r_mods].
        apply (permute_limb_old (pa_logN pp) gal gal'); auto; try apply Hgal.
        + apply (shp_nth N (p_co (k_q0 kx)) j Sq). lia.
        + apply repeat_length. }
    split.
    - assert (Pd : prep rQ (fun q => q + 1) (l + 1) (p_co d) (sigma_inv N gal' (rbody id))).
      { destruct (rout_ok id HinI) as (_ & _ & Pr). eapply prep_ext; [| |exact Pr].
        - destruct Wd as (_ & Ld & _). unfold plen in *. lia.
        - intros j Hj. rewrite <- Hrp. destruct Wd as (Fd & Ld & _). rewrite pCopy_short by lia. cbn [p_co]. rewrite Lp. now rewrite nth_firstn_lt by lia. }
      assert (HSd : pshp pp d) by (eapply (pshp_wrote env He l); [exact HlQ|split; [exact Lq|exact Sq]|exact Wd|exact Pd|cbn; lia]).
      assert (HFd : p_ntt d = false) by (destruct Wd as (-> & _); apply Hkx). destruct Hkx. constructor; auto.
    - eapply ctall_set; [exact HC|exact Hik| |].
      + split; [rewrite in_app_iff; cbn; tauto|auto].
      + intros x px Hne Hxk [X1 X2]. rewrite in_app_iff. cbn. split; [tauto|]. intros [|[->|[]]]; auto. contradiction. }
  { split; [exact Hk1|]. eapply ctall_impl; [exact HB|]. intros x px Hx HG. split; [auto|intros []]. }
  rewrite EM. exists c2, k2. split; [reflexivity|]. split; [exact Hk2|]. split; [apply HC2|]. intros id Hin. destruct (proj2 HC2 id Hin) as (p & Ep & _ & HG).
  rewrite Ep. f_equal. apply HG. apply order_in; auto. now apply Hkeys.
Qed.
End Rot.

(** * Conjugate at the maximal level *)
Section Conj.
Context (ctIn ctOut : ciphertext) (l : nat) (cks : conjset) (av : swk) (f : string -> zpoly) (B D : string -> nat -> zpoly) (A : nat -> zpoly)
  (C Ca : string -> zpoly) (L : list string).
Let gal := galRow (pa_logN pp).
Let z := "0"%string.
Hypothesis HI : ct_ok pp l ctIn.
Hypothesis HLids : ids_of ctIn L.
Hypothesis HO : ct_ok pp l ctOut.
Hypothesis Hl : QCount pp = (l + 1)%nat.
Hypothesis Hkeys : forall id, In id (mkeys ctOut) <-> In id (mkeys ctIn).
Hypothesis Hf : forall id, In id (mkeys ctIn) -> exists p, sget ctIn id = Some p /\ prep rQ (fun q => q + 1) (l + 1) (p_co p) (f id) /\ p_ntt p = false /\ plen p = (l + 1)%nat /\ shp N (p_co p).
Hypothesis Hcrs : zget (pa_CRS pp) (-2) = Some av.
Hypothesis HA : rowsb env l av A.
Hypothesis Hck : forall id, In id L -> exists ck, GetConjugationKey cks id = Ok ck /\ rowsb env l (cj_val ck) (B id).
Definition cperm (p : poly) : poly :=
  mkPoly false (map (fun j => permute_limb (pa_logN pp) gal (nth j (pa_Q pp) 0) (nth j (p_co p) []) (repeat 0 N)) (seq 0 (l + 1))).
Hypothesis HD : forall id p, In id L -> sget ctIn id = Some p -> dsrc env l (cperm p) (D id).
Hypothesis Hep : forall id, In id L -> is_ep env l (gsum env l (B id) (D id)) (C id) /\ is_ep env l (gsum env l A (D id)) (Ca id).

Definition cbody (id : string) : zpoly := if String.eqb id "0" then padd (sigma_inv N gal (f "0"%string)) (psumL C L) else Ca id.
Definition cout (c0 : poly) (id : string) : poly :=
  if String.eqb id "0" && (match L with [] => true | _ => false end) then cperm c0 else mkPoly false (plimbs rQ (l + 1) (cbody id)).

Let HlN : (1 <= pa_logN pp <= 30)%nat. Proof. exact (ro_log rQ HQ). Qed.
Let Hgal : 0 <= gal < 2 * Z.of_nat N /\ Z.Odd gal /\ cong (2 * Z.of_nat N) (gal * gal) 1. Proof. apply galRow_ok. Qed.
Let Hmods : length (r_mods rQ) = (l + 1)%nat. Proof. exact Hl. Qed.

Lemma cperm_ok id p : In id (mkeys ctIn) -> sget ctIn id = Some p ->
  p_ntt (cperm p) = false /\ plen (cperm p) = (l + 1)%nat /\ prep rQ (fun q => q + 1) (l + 1) (p_co (cperm p)) (sigma_inv N gal (f id)).
Proof.
  intros Hin Ep. split; [reflexivity|]. unfold plen. cbn [cperm p_co]. split; [now rewrite map_length, seq_length|].
  destruct (Hf id Hin) as (p' & Ep' & HP & _). rewrite Ep in Ep'. injection Ep' as <-. destruct HP as (P1 & P2 & P3).
  split; [auto|]. split; [rewrite map_length, seq_length; lia|]. intros j Hj. rewrite nth_map_seq by auto. specialize (P3 j Hj).
  destruct (ring_q1 rQ j HQ ltac:(lia)) as [Hq1 HqW]. cbn [r_mods ringQ] in *.
  eapply (permute_limb_lrep (pa_logN pp) gal gal (nth j (pa_Q pp) 0) (nth j (pa_Q pp) 0 + 1)); auto; try lia; try apply Hgal.
  apply repeat_length.
Qed.
Lemma cout_ok c0 id : sget ctIn z = Some c0 -> In id (mkeys ctIn) -> p_ntt (cout c0 id) = false /\ plen (cout c0 id) = (l + 1)%nat /\
  prep rQ (fun q => q + 1) (l + 1) (p_co (cout c0 id)) (cbody id).
Proof.
  intros Hc0 Hin. unfold cout. destruct (String.eqb id "0" && (match L with [] => true | _ => false end)) eqn:E.
  - apply andb_true_iff in E as [E1 E2]. apply String.eqb_eq in E1 as ->. destruct (cperm_ok z c0 Hin Hc0) as (H1 & H2 & H3).
    split; [auto|]. split; [auto|]. eapply (prep_p0 env); [|exact H3]. unfold cbody. cbn [String.eqb]. destruct L; [|discriminate].
    intros i _. apply cong_eq. unfold padd. cbn. unfold pzero, z. ring.
  - split; [reflexivity|]. unfold plen. cbn [p_co]. split; [unfold plimbs; now rewrite map_length, seq_length|].
    apply (prep_mono rQ (fun q => q)); [cbn; lia|]. apply plimbs_prep; auto. lia.
Qed.
Lemma Permute_exact a dst : plen a = (l + 1)%nat -> plen dst = (l + 1)%nat -> p_ntt dst = false -> shp N (p_co dst) -> Permute rQ a gal dst = Ok (cperm a).
Proof.
  intros Ha Hd Fd Hs. unfold Permute. rewrite Hmods. replace (l + 1 - 1)%nat with l by lia.
  match goal with |- context [lvl3 rQ ?ff l a a dst] => destruct (lvl3_ok rQ ff l a a dst HQ) as (d & Ed & Wd & Nd); try lia end.
  rewrite Ed. f_equal. destruct Wd as (F & G & _). destruct d as [b co]. unfold plen in *. cbn [p_ntt p_co] in *. unfold cperm. rewrite Fd in F. subst b. f_equal. apply (nth_ext _ _ [] []).
  - rewrite map_length, seq_length. lia.
  - intros j Hj. rewrite Nd, nth_map_seq by lia. cbn [r_logN ringQ r_mods]. apply (permute_limb_old (pa_logN pp) gal gal); auto; try apply Hgal.
    + apply (shp_nth N (p_co dst) j Hs). lia.
    + apply repeat_length.
Qed.
Lemma Conjugate_ok c0 o k : sget ctIn z = Some c0 -> order_ok o -> pool_ok pp k ->
  exists ct' k', Conjugate env o ctIn cks ctOut k = Ok (ct', k') /\ pool_ok pp k' /\ mkeys ct' = mkeys ctOut /\
    forall id, In id (mkeys ctOut) -> sget ct' id = Some (cout c0 id).
Proof.
  intros Hc0 Ho Hk. assert (HlQ : (l < QCount pp)%nat) by lia. assert (HN : (0 < N)%nat) by apply deg_pos.
  set (keys := mkeys ctOut).
  unfold Conjugate. rewrite (ct_level env l ctOut HO). cbn [bind].
  destruct (ctIDSet_perm o ctIn L Ho HLids) as (ids & Ei & Hids & HPerm). rewrite Ei. cbn [bind].
  rewrite (ct_level env l ctIn HI). cbn [bind]. rewrite (proj2 (Nat.ltb_ge l l)) by lia. rewrite Hcrs. fold gal.
  assert (HzI : In z (mkeys ctIn)) by apply HI. assert (Hz : In z keys) by (apply Hkeys; auto).
  assert (HLk : forall id, In id L -> In id keys /\ id <> z).
  { intros id Hin. apply HLids in Hin as [H1 H2]. split; [now apply Hkeys|exact H2]. }
  assert (HLn : NoDup L) by apply HLids.
  assert (HshO : forall id p, sget ctOut id = Some p -> p_ntt p = false /\ plen p = (l + 1)%nat /\ shp N (p_co p)).
  { intros id p Ep. destruct (ct_lift env He l ctOut HlQ HO) as (fo & Hfo). destruct (Hfo id) as (p' & Ep' & _ & F & G & Hsh); [eapply (mget_key _ seqb); eauto|].
    rewrite Ep in Ep'. injection Ep' as <-. auto. }
  (* permutation *)
  set (S0 := o 1%nat (mkeys ctIn)).
  assert (HS0n : NoDup S0) by (apply order_nodup; auto; apply HI).
  match goal with |- context [foldM ?ff S0 ?st] =>
    destruct (foldM_inv ff (fun don c => ctall keys c (fun id p => (~ In id don -> sget ctOut id = Some p) /\ (In id don -> exists a, sget ctIn id = Some a /\ p = cperm a))) S0 st)
      as (c1 & EL0 & HC1) end.
  { intros don id rest c El HC. assert (HinI : In id (mkeys ctIn)) by (rewrite <- (order_in o 1%nat _ id Ho); fold S0; rewrite El; apply in_elt).
    assert (Hik : In id keys) by now apply Hkeys.
    assert (Hnd : ~ In id don). { assert (HND : NoDup (don ++ id :: rest)) by (rewrite <- El; exact HS0n). apply NoDup_remove_2 in HND. rewrite in_app_iff in HND. tauto. }
    destruct (Hf id HinI) as (a & Ea & _ & _ & La & _). unfold mptr. rewrite Ea. cbn [bind].
    destruct (proj2 HC id Hik) as (p & Ep & G & _). destruct (HshO id p (G Hnd)) as (F1 & F2 & F3).
    erewrite ctUpd_ok; [|exact Ep|now apply Permute_exact]. eexists. split; [reflexivity|].
    eapply ctall_set; [exact HC|exact Hik| |].
    - split; [rewrite in_app_iff; cbn; tauto|]. intros _. eauto.
    - intros x px Hne Hxk [X1 X2]. rewrite in_app_iff. cbn. split; [tauto|]. intros [|[->|[]]]; auto. contradiction. }
  { split; [reflexivity|]. intros id Hin. destruct (mget_ex _ seqb ctOut id Hin) as (p & Ep). exists p. split; [auto|]. split; [auto|intros []]. }
  rewrite EL0. cbn [bind].
  assert (HB : ctall keys c1 (fun id p => exists a, sget ctIn id = Some a /\ p = cperm a)).
  { eapply ctall_impl; [exact HC1|]. intros id p Hin [_ G]. apply G. apply order_in; auto. now apply Hkeys. }
  (* key switching of c0 *)
  set (S1 := o 2%nat (mkeys ids)).
  assert (HS1 : Permutation S1 L) by (etransitivity; [apply Ho|exact HPerm]).
  assert (HS1n : NoDup S1) by (eapply Permutation_NoDup; [symmetry; exact HS1|exact HLn]).
  match goal with |- context [foldM ?ff S1 ?st] =>
    destruct (foldM_inv ff (fun don '(c, k) => pool_ok pp k /\ ctall keys c (fun id p =>
        (id <> z -> exists a, sget ctIn id = Some a /\ p = cperm a) /\
        (id = z -> p_ntt p = false /\ plen p = (l + 1)%nat /\ (don = [] -> p = cperm c0) /\
                   (don <> [] -> prep rQ (fun q => q) (l + 1) (p_co p) (padd (sigma_inv N gal (f z)) (psumL C don))) /\
                   prep rQ (fun q => q + 1) (l + 1) (p_co p) (padd (sigma_inv N gal (f z)) (psumL C don))))) S1 st)
      as ([c2 k2] & EL1 & Hk2 & HC2) end.
  { intros don id rest [c kx] El (Hkx & HC). assert (HinS : In id S1) by (rewrite El; apply in_elt).
    assert (Hin : In id L) by (eapply Permutation_in; [exact HS1|exact HinS]). destruct (HLk id Hin) as [Hik Hiz].
    destruct (Hck id Hin) as (ck & Eck & Hrows). rewrite Eck. cbn [bind].
    destruct (Hep id Hin) as [Hep1 Hep2]. destruct (proj2 HC id Hik) as (p & Ep & G & _). destruct (G Hiz) as (a & Ea & ->). unfold mptr. rewrite Ep. cbn [bind].
    destruct (EP_ok env He l (cperm a) (cj_val ck) (D id) (B id) (C id) (k_q0 kx) kx HlQ (HD id a Hin Ea) Hrows Hep1 Hkx) as (q0 & k1 & E1 & W1 & P1 & Hk1 & Kp1).
    { destruct (kp_q0 _ _ Hkx) as [-> _]. exact HlQ. }
    rewrite E1. cbn [bind].
    assert (Hk1' : pool_ok pp (set_q0 q0 k1)).
    { eapply (pool_set_q0 env He k1 l q0 (C id)); auto. destruct Kp1 as (-> & _). exact W1. }
    destruct (proj2 HC z Hz) as (pz & Epz & _ & Gz). destruct (Gz eq_refl) as (Fz & Lz & _ & _ & Pz).
    destruct (AddLvl_ok rQ HQ (fun q => q + 1) (fun q => q) (fun q => q) l pz q0 pz _ _ Pz P1) as (d & Ed & Wd & Pd); [lia|cbn; lia|].
    erewrite ctUpd_ok; [|exact Epz|exact Ed]. cbn [bind]. eexists. split; [reflexivity|]. split; [exact Hk1'|].
    assert (HP' : prep rQ (fun q => q) (l + 1) (p_co d) (padd (sigma_inv N gal (f z)) (psumL C (don ++ [id])))).
    { eapply (prep_p0 env); [|exact Pd]. rewrite psumL_app. cbn [psumL]. intros i _. apply cong_eq. unfold padd, pzero. ring. }
    eapply ctall_set; [exact HC|exact Hz| |].
    - split; [intros X; now destruct X|]. intros _. destruct Wd as (F & G' & _). rewrite F, G'. split; [auto|]. split; [auto|]. split; [intros X; now destruct don|]. split; [auto|].
      eapply prep_mono; [|exact HP']. cbn. lia.
    - intros x px Hne Hxk [X1 X2]. split; [auto|]. intros ->. contradiction. }
  { split; [exact Hk|]. eapply ctall_impl; [exact HB|]. intros id p Hin (a & Ea & ->). split; [intros _; eauto|]. intros ->. rewrite Hc0 in Ea. injection Ea as <-.
    destruct (cperm_ok z c0 HzI Hc0) as (X1 & X2 & X3). split; [auto|]. split; [auto|]. split; [auto|]. split; [intros X; now destruct X|].
    eapply (prep_p0 env); [|exact X3]. intros i _. apply cong_eq. unfold padd. cbn. unfold pzero. ring. }
  rewrite EL1. cbn [bind].
  set (S2 := o 3%nat (mkeys ids)).
  assert (HS2 : Permutation S2 L) by (etransitivity; [apply Ho|exact HPerm]).
  assert (HS2n : NoDup S2) by (eapply Permutation_NoDup; [symmetry; exact HS2|exact HLn]).
  match goal with |- context [foldM ?ff S2 ?st] =>
    destruct (foldM_inv ff (fun don '(c, k) => pool_ok pp k /\ ctall keys c (fun id p =>
        (id <> z -> ~ In id don -> exists a, sget ctIn id = Some a /\ p = cperm a) /\
        (id = z -> p = cout c0 z) /\ (id <> z -> In id don -> p = cout c0 id))) S2 st)
      as ([c3 k3] & EL2 & Hk3 & HC3) end.
  { intros don id rest [c kx] El (Hkx & HC). assert (HinS : In id S2) by (rewrite El; apply in_elt).
    assert (Hin : In id L) by (eapply Permutation_in; [exact HS2|exact HinS]). destruct (HLk id Hin) as [Hik Hiz].
    assert (Hnd : ~ In id don). { assert (HND : NoDup (don ++ id :: rest)) by (rewrite <- El; exact HS2n). apply NoDup_remove_2 in HND. rewrite in_app_iff in HND. tauto. }
    destruct (Hep id Hin) as [Hep1 Hep2]. destruct (proj2 HC id Hik) as (p & Ep & G & _). destruct (G Hiz Hnd) as (a & Ea & ->). unfold mptr at 1. rewrite Ep. cbn [bind].
    destruct (EP_ok env He l (cperm a) av (D id) A (Ca id) (k_q0 kx) kx HlQ (HD id a Hin Ea) HA Hep2 Hkx) as (q0 & k1 & E1 & W1 & P1 & Hk1 & Kp1).
    { destruct (kp_q0 _ _ Hkx) as [-> _]. exact HlQ. }
    rewrite E1. cbn [bind].
    assert (Hk1' : pool_ok pp (set_q0 q0 k1)).
    { eapply (pool_set_q0 env He k1 l q0 (Ca id)); auto. destruct Kp1 as (-> & _). exact W1. }
    erewrite ctUpd_ok; [|exact Ep|reflexivity]. cbn [bind]. eexists. split; [reflexivity|]. split; [exact Hk1'|].
    assert (HE : pCopy (cperm a) q0 = cout c0 id).
    { assert (HLc : plen (cperm a) = (l + 1)%nat) by (unfold plen; cbn [cperm p_co]; now rewrite map_length, seq_length).
      destruct W1 as (F & G' & _). destruct (kp_q0 _ _ Hkx) as [Lq _]. assert (Lq0 : plen q0 = (l + 1)%nat) by congruence.
      rewrite pCopy_short by lia. rewrite HLc, F, (kp_f0 _ _ Hkx). unfold cout. rewrite (proj2 (String.eqb_neq id "0") Hiz). cbn [andb]. f_equal.
      unfold plen in *. rewrite firstn_all2 by lia. apply (nth_ext _ _ [] []).
      - unfold plimbs. rewrite map_length, seq_length. auto.
      - intros j Hj. assert (HPl : prep rQ (fun q => q) (l + 1) (plimbs rQ (l + 1) (Ca id)) (Ca id)) by (apply plimbs_prep; [exact HQ|lia]).
        unfold cbody. rewrite (proj2 (String.eqb_neq id "0") Hiz). apply (prep_unique rQ (l + 1) _ _ _ _ j P1 HPl); [lia|reflexivity]. }
    eapply ctall_set; [exact HC|exact Hik| |].
    - split; [intros _; rewrite in_app_iff; cbn; tauto|]. split; [intros; contradiction|auto].
    - intros x px Hne Hxk (X1 & X2 & X3). rewrite in_app_iff. cbn. split; [intros; apply X1; tauto|]. split; [auto|]. intros Hx [|[->|[]]]; auto. contradiction. }
  { split; [exact Hk2|]. eapply ctall_impl; [exact HC2|]. intros id p Hin [X1 X2]. split; [auto|]. split; [|intros _ []]. intros Hx. destruct (X2 Hx) as (Y1 & Y2 & Y3 & Y4 & _).
    unfold cout. cbn [String.eqb andb z]. destruct L as [|x L'] eqn:EL'.
    - apply Y3. now apply Permutation_sym, Permutation_nil in HS1.
    - destruct p as [b co]. unfold plen in Y2. cbn [p_ntt p_co] in *. subst b. unfold z. cbn. f_equal. apply (nth_ext _ _ [] []).
      + unfold plimbs. rewrite map_length, seq_length. auto.
      + intros j Hj. eapply (prep_unique rQ (l + 1)); [apply Y4| |lia|reflexivity].
        * intros E. rewrite E in HS1. now apply Permutation_nil_cons in HS1.
        * eapply (prep_p0 env); [|apply plimbs_prep; [exact HQ|lia]]. unfold cbody. cbn [String.eqb]. rewrite EL'. apply padd_proper; [reflexivity|].
          apply psumL_perm. now symmetry. }
  rewrite EL2. exists c3, k3. split; [reflexivity|]. split; [exact Hk3|]. split; [apply HC3|]. intros id Hin. destruct (proj2 HC3 id Hin) as (p & Ep & _ & G1 & G2).
  rewrite Ep. f_equal. destruct (string_dec id z) as [->|Hne]; [auto|]. apply G2; auto.
  eapply Permutation_in; [symmetry; exact HS2|]. apply HLids. split; [now apply Hkeys|auto].
Qed.
End Conj.
End Env.
