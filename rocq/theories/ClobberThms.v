(** What Rescale and RescaleNew return, and what they leave of their operand, when the division overwrites the operand's last limb. *)
From Coq Require Import String ZArith Znumtheory List Lia Bool Permutation Setoid Morphisms.
From Verif Require Import Spec Go GoProofs Lattigo Arith NegRing NegRingProofs F64 NTT RingOps RingOpsProofs Maps MapsProofs Params Elements KeySwitch KeySets KeyGen EncDec Utils Evaluator Repr KSProofs SpecCt KSSem KSMulProofs ConcProofs SpecEnc SpecEv EncProofs EvProofs RescaleProofs NTTProofs CkEncThms EvThms EvWorld Shipped Alias AliasProofs AliasThms SpecClobber Clobber ClobberProofs.
Import ListNotations.
Local Open Scope Z_scope.
Local Open Scope list_scope.

Section T.
Context (ce : ckenv) (He : env_ok (ce_env ce)).
Notation pp := (e_pp (ce_env ce)).
Notation N := (pa_N pp).
Lemma spoil_over cl l ks c : NoDup ks -> (forall id, In id (mkeys c) -> In id ks) -> overwritten (pa_Q pp) cl l c (spoil cl ce l ks c).
Proof.
  intros Hn Hk. split; [apply spoil_keys|]. intros id p E. rewrite spoil_get by auto. assert (inb id ks = true) as -> by (apply inb_In, Hk; eapply (mget_key _ seqb); eauto). rewrite E. reflexivity.
Qed.
Lemma ct_level l ct : (l < QCount pp)%nat -> ct_ok pp l ct -> ctLevel ct = Ok l.
Proof. intros Hl Hc. destruct (lifts_ex ce He l ct Hl Hc) as (f & Hf). exact (lifts_level ce l ct f Hf (ck_0 _ _ _ Hc)). Qed.
Lemma in_place_C ct scale thr l n : (l < QCount pp)%nat -> ct_ok pp l ct -> ~ rescale_err l scale thr -> rescale_count (pa_Q pp) l scale (fdiv thr (f_of_Z 2)) n -> n <> O ->
  exists cout, rescaled pp l n ct cout /\ reduced pp (l - n) cout /\
    forall cl o st, order_ok o -> ev_ok pp st -> exists st', RescaleC cl ce o None thr (mkCk ct scale) st = Ok (None, None, mkCk cout (scale_after (pa_Q pp) l scale n), st') /\ ev_ok pp st'.
Proof.
  intros Hl Hc Hne Hn Hn0. destruct (rescale_in_place ce He ct scale thr l n Hl Hc Hne Hn Hn0) as (cout & R1 & R2 & R3). exists cout. split; [exact R1|]. split; [exact R2|]. intros cl o st Ho Hst.
  destruct (R3 o st Ho Hst) as (st1 & E & Hst1). destruct (RescaleC_of cl ce o None thr (mkCk ct scale) st _ _ _ Ho (ck_nd _ _ _ Hc) E) as (q & E' & Lq).
  - cbn [rd c_ct c_scale]. intros l' sc n' N1 N2 N3 H1 H2. rewrite (ct_level l ct Hl Hc) in H1. injection H1 as <-. rewrite (rescaleLoop_ok ce _ l scale n Hl Hn) in H2. injection H2 as _ <-. apply Hn.
  - exists (set_q q st1). split; [exact E'|]. apply set_q_ok; auto. rewrite Lq. apply Hst1.
Qed.
Lemma op_after cl cin scale thr l n o (out : ciphertext) : (l < QCount pp)%nat -> ct_ok pp l cin -> ~ rescale_err l scale thr -> rescale_count (pa_Q pp) l scale (fdiv thr (f_of_Z 2)) n -> n <> O -> NoDup (mkeys out) -> order_ok o ->
  match Some (mkCk cin scale) with Some ct => if fleb thr f0 || feqb (c_scale ct) f0 then Some (mkCk cin scale) else match ctLevel (c_ct ct) with Ok (S l) => match rescaleLoop ce (S l) (c_scale ct) (fdiv thr (f_of_Z 2)) with Ok (_, S _) => Some (mkCk (spoil cl ce (S l) (o 0%nat (mkeys out)) (c_ct ct)) (c_scale ct)) | _ => Some (mkCk cin scale) end | _ => Some (mkCk cin scale) end | None => None end
  = Some (mkCk (spoil cl ce l (o 0%nat (mkeys out)) cin) scale).
Proof.
  intros Hl Hc Hne Hn Hn0 Hnd Ho. cbn [c_ct c_scale]. rewrite (ct_level l cin Hl Hc). unfold rescale_err in Hne. destruct (fleb thr f0); [tauto|]. destruct (feqb scale f0); [tauto|]. cbn [orb].
  destruct l as [|l]; [tauto|]. rewrite (rescaleLoop_ok ce _ (S l) scale n Hl Hn). destruct n; [congruence|reflexivity].
Qed.
Lemma into_C cin scale thr out so l n : (l < QCount pp)%nat -> ct_ok pp l cin -> ct_ok pp l out -> same_keys out cin -> ~ rescale_err l scale thr -> rescale_count (pa_Q pp) l scale (fdiv thr (f_of_Z 2)) n -> n <> O ->
  exists cout, rescaled pp l n cin cout /\ reduced pp (l - n) cout /\
    forall cl o st, order_ok o -> ev_ok pp st -> exists cin' st', RescaleC cl ce o (Some (mkCk cin scale)) thr (mkCk out so) st = Ok (None, Some (mkCk cin' scale), mkCk cout (scale_after (pa_Q pp) l scale n), st') /\
      overwritten (pa_Q pp) cl l cin cin' /\ ev_ok pp st'.
Proof.
  intros Hl Hc Hco Hk Hne Hn Hn0. destruct (rescale_into ce He cin scale thr out so l n Hl Hc Hco Hk Hne Hn Hn0) as (cout & R1 & R2 & R3). exists cout. split; [exact R1|]. split; [exact R2|]. intros cl o st Ho Hst.
  destruct (R3 o st Ho Hst) as (st1 & E & Hst1). rewrite <- rescale_other in E. destruct (RescaleC_of cl ce o (Some (mkCk cin scale)) thr (mkCk out so) st _ _ _ Ho (ck_nd _ _ _ Hco) E) as (q & E' & Lq).
  - cbn [rd c_ct c_scale]. intros l' sc n' N1 N2 N3 H1 H2. rewrite (ct_level l cin Hl Hc) in H1. injection H1 as <-. rewrite (rescaleLoop_ok ce _ l scale n Hl Hn) in H2. injection H2 as _ <-. apply Hn.
  - eexists _, (set_q q st1). split; [pose proof (op_after cl cin scale thr l n o out Hl Hc Hne Hn Hn0 (ck_nd _ _ _ Hco) Ho) as OA; cbn [c_ct c_scale] in OA, E'; rewrite E', OA; reflexivity|]. split.
    + apply spoil_over; [apply order_nodup; auto; apply Hco|]. intros id Hid. apply order_in; auto. now apply Hk.
    + apply set_q_ok; auto. rewrite Lq. apply Hst1.
Qed.
Lemma new_C cin scale thr l n : (l < QCount pp)%nat -> ct_ok pp l cin -> ~ rescale_err l scale thr -> rescale_count (pa_Q pp) l scale (fdiv thr (f_of_Z 2)) n -> n <> O ->
  exists cout, rescaled pp l n cin cout /\ reduced pp (l - n) cout /\
    forall cl o st, order_ok o -> ev_ok pp st -> exists cin' out st', RescaleNewC cl ce o (mkCk cin scale) thr st = Ok (None, mkCk cin' scale, out, st') /\ same_ct (c_ct out) cout /\
      c_scale out = scale_after (pa_Q pp) l scale n /\ overwritten (pa_Q pp) cl l cin cin' /\ ev_ok pp st'.
Proof.
  intros Hl Hc Hne Hn Hn0. destruct (rescale_new ce He cin scale thr l n Hl Hc Hne Hn Hn0) as (cout & R1 & R2 & _ & R3). exists cout. split; [exact R1|]. split; [exact R2|]. intros cl o st Ho Hst.
  destruct (R3 o st Ho Hst) as (out & st1 & E & Hs & Hsc & Hst1). unfold RescaleNew in E. unfold RescaleNewC. cbn [c_ct c_scale] in *.
  destruct (ctIDSet_ok o cin Ho) as (ids & Ei & _ & Hi). rewrite Ei in *. cbn [bind] in *. rewrite (ct_level l cin Hl Hc) in *. cbn [bind] in *. rewrite <- rescale_other in E.
  destruct (NewCiphertext_ok o pp ids l Ho) as (A1 & A2 & A3).
  destruct (RescaleC_of cl ce o (Some (mkCk cin scale)) thr (ckNewCiphertext o (mkCkp pp (ce_scale ce)) ids l scale) st _ _ _ Ho A1 E) as (q & E' & Lq).
  - cbn [rd c_ct c_scale]. intros l' sc n' N1 N2 N3 H1 H2. rewrite (ct_level l cin Hl Hc) in H1. injection H1 as <-. rewrite (rescaleLoop_ok ce _ l scale n Hl Hn) in H2. injection H2 as _ <-. apply Hn.
  - change (c_ct (ckNewCiphertext o (mkCkp pp (ce_scale ce)) ids l scale)) with (NewCiphertext o pp ids l) in E'. pose proof (op_after cl cin scale thr l n o (NewCiphertext o pp ids l) Hl Hc Hne Hn Hn0 A1 Ho) as OA. cbn [c_ct c_scale] in OA, E'. rewrite E', OA. cbn [bind rd].
    eexists _, out, (set_q q st1). split; [reflexivity|]. split; [exact Hs|]. split; [exact Hsc|]. split.
    + apply spoil_over; [now apply order_nodup|]. intros id Hid. apply order_in; auto. rewrite A2, Hi. destruct (string_dec id "0"%string); tauto.
    + apply set_q_ok; auto. rewrite Lq. apply Hst1.
Qed.
(** no division: the operand is as before *)
Lemma new_kept cin scale thr l : (l < QCount pp)%nat -> ct_ok pp l cin -> rescale_steps (pa_Q pp) l scale thr 0 ->
  forall cl o st, order_ok o -> ev_ok pp st -> exists e out st', RescaleNewC cl ce o (mkCk cin scale) thr st = Ok (e, mkCk cin scale, out, st') /\ all_zero pp l (c_ct out) /\ ev_ok pp st'.
Proof.
  intros Hl Hc Hs cl o st Ho Hst. destruct (rescale_new_zero ce He cin scale thr l Hl Hc Hs o st Ho Hst) as (e & out & st1 & E & Hz & _ & _ & _ & Hst1). unfold RescaleNew in E. unfold RescaleNewC. cbn [c_ct c_scale] in *.
  destruct (ctIDSet_ok o cin Ho) as (ids & Ei & _ & Hi). rewrite Ei in *. cbn [bind] in *. rewrite (ct_level l cin Hl Hc) in *. cbn [bind] in *. rewrite <- rescale_other in E.
  destruct (NewCiphertext_ok o pp ids l Ho) as (A1 & A2 & A3).
  destruct (RescaleC_of cl ce o (Some (mkCk cin scale)) thr (ckNewCiphertext o (mkCkp pp (ce_scale ce)) ids l scale) st _ _ _ Ho A1 E) as (q & E' & Lq).
  - cbn [rd c_ct c_scale]. intros l' sc n' N1 N2 N3 H1 H2. rewrite (ct_level l cin Hl Hc) in H1. injection H1 as <-. 
    destruct (le_lt_dec n' l); auto. exfalso. destruct Hs as [[Hs _]|[_ Hs]].
    + unfold rescale_err in Hs. intuition congruence.
    + rewrite (rescaleLoop_ok ce _ l scale 0 Hl Hs) in H2. injection H2 as _ <-. lia.
  - rewrite E'. cbn [bind]. cbn [c_ct c_scale]. rewrite (ct_level l cin Hl Hc).
    exists e, out, (set_q q st1). split; [|split; [exact Hz|apply set_q_ok; auto; rewrite Lq; apply Hst1]]. do 4 f_equal.
    destruct Hs as [[Hs _]|[Hne Hs]].
    + unfold rescale_err in Hs. destruct (fleb thr f0); [reflexivity|]. destruct (feqb scale f0); [reflexivity|]. destruct l; [reflexivity|]. intuition congruence.
    + destruct (fleb thr f0 || feqb scale f0); [reflexivity|]. destruct l; [reflexivity|]. now rewrite (rescaleLoop_ok ce _ (S l) scale 0 Hl Hs).
Qed.
End T.
Section P.
Context (ce : ckenv) (He : env_ok (ce_env ce)).
Notation pp := (e_pp (ce_env ce)).
Notation N := (pa_N pp).
Lemma over_limb_low cl l ct ct' id j : overwritten (pa_Q pp) cl l ct ct' -> (j < l)%nat -> (forall p, sget ct id = Some p -> (l < plen p)%nat) -> In id (mkeys ct) -> limb ct' id j = limb ct id j.
Proof.
  intros [_ H] Hj Hl Hi. unfold limb. destruct (mget_ex _ seqb ct id Hi) as (p & E). rewrite (H id p E), E. cbn [p_co]. specialize (Hl p E). unfold plen in Hl.
  rewrite app_nth1 by (rewrite firstn_length; lia). now rewrite nth_firstn_lt.
Qed.
Lemma over_limb_last cl l ct ct' id p : overwritten (pa_Q pp) cl l ct ct' -> sget ct id = Some p -> (l < plen p)%nat -> forall x, limb ct' id l x = nth x (cl (nth l (pa_Q pp) 0) (nth l (p_co p) [])) 0.
Proof.
  intros [_ H] E Hl x. unfold limb, plen in *. rewrite (H id p E). cbn [p_co]. rewrite app_nth2 by (rewrite firstn_length; lia). rewrite firstn_length. replace (l - Nat.min l (List.length (p_co p)))%nat with O by lia. reflexivity.
Qed.
Lemma half_phase l ct ct' s : (l < QCount pp)%nat -> ct_ok pp l ct -> overwritten (pa_Q pp) addHalf l ct ct' ->
  (forall j, (j < l)%nat -> phase N s ct' j = phase N s ct j) /\
  peq N (nth l (pa_Q pp) 0) (phase N s ct' l) (padd (phase N s ct l) (pscale ((nth l (pa_Q pp) 0 - 1) / 2) (ones_phase N s ct))) /\
  (peq N (nth l (pa_Q pp) 0) (phase N s ct' l) (phase N s ct l) <-> peq N (nth l (pa_Q pp) 0) (ones_phase N s ct) pzero).
Proof.
  intros Hl Hc Ho. set (q := nth l (pa_Q pp) 0) in *. set (h := (q - 1) / 2).
  assert (HL : forall id p, sget ct id = Some p -> (l < plen p)%nat) by (intros id p E; destruct (ck_comp _ _ _ Hc id p E) as (_ & X & _); lia).
  assert (HS : peq N q (phase N s ct' l) (padd (phase N s ct l) (pscale h (ones_phase N s ct)))).
  { unfold phase, ones_phase. rewrite (proj1 Ho). rewrite <- NegRingProofs.psumL_scale. rewrite <- psumL_add. apply psumL_ext. intros id Hid. destruct (mget_ex _ seqb ct id Hid) as (p & E).
    transitivity (pmul N (secret s id) (padd (limb ct id l) (pscale h (fun _ => 1)))).
    - apply pmul_proper; [reflexivity|]. intros x Hx. rewrite (over_limb_last addHalf l ct ct' id p Ho E (HL _ _ E)). fold q. unfold addHalf, padd, pscale, limb. rewrite E.
      destruct (ck_comp _ _ _ Hc id p E) as (_ & _ & X). destruct (X l (le_n _)) as [X1 X2].
      rewrite (nth_indep _ 0 ((fun x => (x + (q - 1) / 2) mod q) 0)) by (rewrite map_length; lia). rewrite (map_nth (fun x => (x + (q - 1) / 2) mod q)). fold h. rewrite Z.mul_1_r. exists (- ((nth x (nth l (p_co p) []) 0 + h) / q)). pose proof (Z_div_mod_eq_full (nth x (nth l (p_co p) []) 0 + h) q). lia.
    - rewrite pmul_comm, pmul_distr_l by apply deg_pos. apply padd_proper; [apply pmul_comm, deg_pos|]. rewrite pmul_comm by apply deg_pos. apply pscale_mul_r. }
  split; [|split; [exact HS|]].
  - intros j Hj. unfold phase. rewrite (proj1 Ho). assert (X : forall L, incl L (mkeys ct) -> psumL (fun id => pmul N (secret s id) (limb ct' id j)) L = psumL (fun id => pmul N (secret s id) (limb ct id j)) L).
    { induction L as [|a L IH]; intros HI; [reflexivity|]. cbn [psumL]. rewrite IH by (intros x Hx; apply HI; now right). rewrite (over_limb_low addHalf l ct ct' a j Ho Hj); [reflexivity|apply HL|apply HI; now left]. }
    apply X. intros x Hx. exact Hx.
  - assert (Hq : 2 * h = q - 1). { pose proof (q_odd pp (eo_pp _ He) l Hl) as X. fold q in X. apply Z.odd_spec in X as [k X]. unfold h. rewrite X. replace (2 * k + 1 - 1) with (k * 2) by lia. rewrite Z.div_mul; lia. }
    split; intros H i Hi.
    + specialize (H i Hi). specialize (HS i Hi). unfold padd, pscale, cong, pzero in *. destruct H as [a Ha], HS as [b Hb]. exists (ones_phase N s ct i + 2 * (b - a)). nia.
    + specialize (H i Hi). specialize (HS i Hi). unfold padd, pscale, cong, pzero in *. destruct H as [a Ha], HS as [b Hb]. exists (b + h * a). nia.
Qed.
End P.
(** ** a case: one call of RescaleNew at level 3, scale 241, threshold 1 *)
Definition case_ct : ckct := mkCk [("0"%string, mkPoly false [repeat 1 8; repeat 1 8; repeat 1 8; repeat 200 8])] (f_of_Z 241).
Lemma clobber_case : exists ce o st ct ct' out st', env_ok (ce_env ce) /\ order_ok o /\ ev_ok (e_pp (ce_env ce)) st /\ ct_ok (e_pp (ce_env ce)) 3 (c_ct ct) /\
  rescale_steps (pa_Q (e_pp (ce_env ce))) 3 (c_scale ct) (f_of_Z 1) 1 /\ RescaleNewC addHalf ce o ct (f_of_Z 1) st = Ok (None, ct', out, st') /\
  forall s, ~ peq (pa_N (e_pp (ce_env ce))) (nth 3 (pa_Q (e_pp (ce_env ce))) 0) (phase (pa_N (e_pp (ce_env ce))) s (c_ct ct') 3) (phase (pa_N (e_pp (ce_env ce))) s (c_ct ct) 3).
Proof.
  set (cp := mkCkp (toy 2) (f_of_Z 1)). pose proof (NewEvaluator_ok o_id (fun _ _ _ => false) cp toy2_ok o_id_ok) as H.
  destruct (NewEvaluator o_id (fun _ _ _ => false) cp) as [ce st] eqn:EN. destruct H as (He & Hp & Hs & Hst). cbn [cp_pp cp_scale cp] in *.
  assert (Hc : ct_ok (toy 2) 3 (c_ct case_ct)).
  { constructor.
    - repeat constructor; cbn; intuition congruence.
    - now left.
    - intros id p. cbn. destruct (String.eqb id "0"%string); [|discriminate]. intros E. injection E as <-. do 2 (split; [reflexivity|]). intros j Hj.
      do 4 (destruct j as [|j]; [split; [reflexivity|]; intros x Hx; change (pa_N (toy 2)) with 8%nat in Hx; do 8 (destruct x as [|x]; [vm_compute; split; discriminate|]); lia|]). lia. }
  assert (Hr : rescale_steps (pa_Q (toy 2)) 3 (f_of_Z 241) (f_of_Z 1) 1).
  { right. split; [intros [X|[X|X]]; [vm_compute in X; discriminate|vm_compute in X; discriminate|discriminate]|]. split; [lia|]. split.
    - intros i Hi. assert (i = 1)%nat by lia. subst i. vm_compute. reflexivity.
    - vm_compute. reflexivity. }
  assert (HC : rescale_count (pa_Q (toy 2)) 3 (f_of_Z 241) (fdiv (f_of_Z 1) (f_of_Z 2)) 1) by (destruct Hr as [[X _]|[_ X]]; [unfold rescale_err in X; destruct X as [X|[X|X]]; [vm_compute in X; discriminate|vm_compute in X; discriminate|discriminate]|exact X]).
  assert (HN : ~ rescale_err 3 (f_of_Z 241) (f_of_Z 1)) by (intros [X|[X|X]]; [vm_compute in X; discriminate|vm_compute in X; discriminate|discriminate]).
  rewrite <- Hp in Hc, Hr, HC, Hst. assert (Hq : (3 < QCount (e_pp (ce_env ce)))%nat) by (rewrite Hp; cbn; lia).
  destruct (new_C ce He (c_ct case_ct) (f_of_Z 241) (f_of_Z 1) 3 1 Hq Hc HN HC ltac:(discriminate)) as (cout & _ & _ & R). destruct (R addHalf o_id st o_id_ok Hst) as (cin' & out & st' & E & _ & _ & HO & _).
  exists ce, o_id, st, case_ct, (mkCk cin' (f_of_Z 241)), out, st'. split; [exact He|]. split; [exact o_id_ok|]. split; [exact Hst|]. split; [exact Hc|]. split; [exact Hr|]. split; [exact E|].
  intros s X. cbn [c_ct] in X. apply (half_phase ce He 3 (c_ct case_ct) cin' s Hq Hc HO) in X. rewrite Hp in X. specialize (X 0%nat ltac:(cbn; lia)).
  assert (E0 : ones_phase (pa_N (toy 2)) s (c_ct case_ct) 0%nat = 1) by (vm_compute; reflexivity). rewrite E0 in X. unfold cong, pzero in X. change (nth 3 (pa_Q (toy 2)) 0) with 241 in X. destruct X as [k X]. lia.
Qed.
