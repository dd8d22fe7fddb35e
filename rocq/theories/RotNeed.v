(** A rotation without a common reference string of its own needs the keys of all powers of two in its binary expansion. *)
From Coq Require Import String ZArith List Lia Bool.
From Verif Require Import Go GoProofs Lattigo BasisExt Arith NTT RingOps Maps MapsProofs Params Elements KeySwitch KeySets KeyGen F64 EncDec Evaluator SpecCt SpecRot SpecRotUse LR LREval LRSetup ConcProofs KSMulProofs KSSem RotEvThms AliasProofs RotUse.
Import ListNotations.
Local Open Scope Z_scope.

Lemma foldM_each {A S} (f : S -> A -> res S) : forall l s s', foldM f l s = Ok s' -> forall a, In a l -> exists s1 s2, f s1 a = Ok s2.
Proof.
  induction l as [|b l IH]; intros s s' H a Ha; [destruct Ha|]. cbn [foldM] in H. apply bind_inv in H as (s1 & E & H). destruct Ha as [->|Ha]; [eauto|]. eapply IH; eauto.
Qed.
Lemma rotate_needs env o ct k rks out kp r id : order_ok o -> 0 <= k -> party ct id -> Rotate env o ct k rks out kp = Ok r -> exists rk, GetRotationKey rks id k = Ok rk.
Proof.
  intros Ho Hk [Hp1 Hp2] H. unfold Rotate, RotateGen in H. rewrite normNeg_pos in H by exact Hk. apply bind_inv in H as (lv & _ & H). apply bind_inv in H as (ids & Ei & H). apply bind_inv in H as (li & _ & H).
  destruct (li <? lv)%nat; [discriminate|]. apply bind_inv in H as (c0 & _ & H). apply bind_inv in H as (ct1 & _ & H). apply bind_inv in H as ([ct2 k2] & E & _).
  destruct (ctIDSet_ok o ct Ho) as (s & Es & Hs & HI). rewrite Ei in Es. injection Es as <-.
  destruct (foldM_each _ _ _ _ E id) as ([c1 k1] & s2 & E1). { rewrite order_in by exact Ho. apply HI. auto. }
  apply bind_inv in E1 as (rk & E1 & _). eauto.
Qed.
Lemma ctCopy_keys o el ct el' : ctCopy o el ct = Ok el' -> mkeys el' = mkeys el.
Proof.
  unfold ctCopy. generalize (o 0%nat (mkeys ct)) as l. intros l. revert el. induction l as [|a l IH]; intros el H; cbn [foldM] in H; [now injection H as <-|].
  apply bind_inv in H as (e1 & E & H). apply bind_inv in E as (src & _ & E). apply bind_inv in E as (dst & Ed & E). injection E as <-. rewrite (IH _ H). apply (mkeys_mset_in _ seqb).
  apply sptr_inv in Ed. exact (mget_key _ seqb _ _ _ Ed).
Qed.
Lemma rotBits_needs ce o rks id : order_ok o -> forall p a tmp out kp r, party tmp id -> rotBits ce o p (2 ^ Z.of_nat a) rks tmp out kp = Ok r ->
  forall i : nat, Z.testbit (Z.pos p) (Z.of_nat i) = true -> exists rk, GetRotationKey rks id (2 ^ Z.of_nat (a + i)) = Ok rk.
Proof.
  intros Ho. assert (ST : forall a, 2 * 2 ^ Z.of_nat a = 2 ^ Z.of_nat (S a)). { intros a. rewrite Nat2Z.inj_succ, Z.pow_succ_r by lia. reflexivity. }
  assert (PP : forall a, 0 <= 2 ^ Z.of_nat a) by (intros; apply Z.pow_nonneg; lia).
  induction p as [p IH|p IH|]; intros a tmp out kp r Hp H i Hi; cbn [rotBits] in H.
  - apply bind_inv in H as ([o1 k1] & E & H). apply bind_inv in H as (t1 & Et & H). destruct i as [|i]. { rewrite Nat.add_0_r. eapply rotate_needs; eauto. }
    rewrite ST in H. rewrite <- Nat.add_succ_comm. apply (IH (S a) t1 o1 k1 r); [|exact H|].
    + destruct Hp as [H1 H2]. split; [now rewrite (ctCopy_keys _ _ _ _ Et)|exact H2].
    + rewrite <- Hi. rewrite Nat2Z.inj_succ. change (Z.pos p~1) with (2 * Z.pos p + 1). now rewrite Z.testbit_odd_succ by lia.
  - rewrite ST in H. destruct i as [|i]; [discriminate|]. rewrite <- Nat.add_succ_comm. apply (IH (S a) tmp out kp r Hp H).
    rewrite <- Hi. rewrite Nat2Z.inj_succ. change (Z.pos p~0) with (2 * Z.pos p). now rewrite Z.testbit_even_succ by lia.
  - apply bind_inv in H as ([o1 k1] & E & H). destruct i as [|i]; [|rewrite Nat2Z.inj_succ, Z.bits_above_log2 in Hi by (cbn; lia); discriminate].
    rewrite Nat.add_0_r. eapply rotate_needs; eauto.
Qed.
Theorem rotateNew_needs ce o ct k rks st r id : let pp := e_pp (ce_env ce) in order_ok o -> party (c_ct ct) id -> ~ has_crs pp (k mod (Z.of_nat (pa_N pp) / 2)) ->
  RotateNew ce o ct k rks st = Ok r -> forall i : nat, Z.testbit (k mod (Z.of_nat (pa_N pp) / 2)) (Z.of_nat i) = true -> (1 <= pa_logN pp)%nat ->
  exists rk, GetRotationKey rks id (2 ^ Z.of_nat i) = Ok rk.
Proof.
  intros pp Ho Hp Hc H i Hi Hl. unfold RotateNew in H. fold pp in H. apply bind_inv in H as (ids & _ & H). apply bind_inv in H as (l & _ & H). cbv zeta in H. unfold normRot in H. fold pp in H.
  assert (Hh : 0 < Z.of_nat (pa_N pp) / 2) by (rewrite half_pow' by exact Hl; apply Z.pow_pos_nonneg; lia). pose proof (Z.mod_pos_bound k _ Hh) as Hb.
  destruct (k mod (Z.of_nat (pa_N pp) / 2)) as [|p|p] eqn:Er; [now rewrite Z.testbit_0_l in Hi| |lia].
  rewrite (has_crs_nb ce) in H by exact Hc. apply bind_inv in H as (tmp & Et & H). apply bind_inv in H as ([c kp] & E & _).
  change 1 with (2 ^ Z.of_nat 0) in E. apply (rotBits_needs ce o rks id Ho p 0 _ _ _ _) with (i := i) in E; [exact E| |exact Hi].
  unfold ckCopyNew, ctCopyNew in Et. apply bind_inv in Et as (c1 & E1 & Et). injection Et as <-. apply bind_inv in E1 as (q & _ & E1). injection E1 as <-. exact Hp.
Qed.
(** a rotation by -2^j *)
Lemma back_bits h j i : (j <= i < h)%nat -> Z.testbit (2 ^ Z.of_nat h - 2 ^ Z.of_nat j) (Z.of_nat i) = true.
Proof.
  intros H. assert (E : 2 ^ Z.of_nat h - 2 ^ Z.of_nat j = Z.ones (Z.of_nat (h - j)) * 2 ^ Z.of_nat j).
  { rewrite Z.ones_equiv. replace (Z.of_nat h) with (Z.of_nat (h - j) + Z.of_nat j) by lia. rewrite Z.pow_add_r by lia. lia. }
  rewrite E, <- Z.shiftl_mul_pow2 by lia. rewrite Z.shiftl_spec by lia. apply Z.ones_spec_low. lia.
Qed.
Theorem backward_needs ce o ct j rks st r id : let pp := e_pp (ce_env ce) in order_ok o -> party (c_ct ct) id -> (S j < pa_logN pp - 1)%nat -> no_backward pp (2 ^ Z.of_nat j + 1) ->
  RotateNew ce o ct (- 2 ^ Z.of_nat j) rks st = Ok r -> forall i : nat, (j <= i < pa_logN pp - 1)%nat -> exists rk, GetRotationKey rks id (2 ^ Z.of_nat i) = Ok rk.
Proof.
  intros pp Ho Hp Hj Hn H i Hi. specialize (Hn j ltac:(lia) Hj).
  assert (Hl : (1 <= pa_logN pp)%nat) by lia. pose proof (half_pow' pp Hl) as Eh.
  assert (E : (- 2 ^ Z.of_nat j) mod (Z.of_nat (pa_N pp) / 2) = Z.of_nat (pa_N pp) / 2 - 2 ^ Z.of_nat j).
  { symmetry. apply Z.mod_unique with (-1); [|lia]. rewrite Eh. pose proof (Z.pow_pos_nonneg 2 (Z.of_nat j) ltac:(lia) ltac:(lia)). assert (2 ^ Z.of_nat j < 2 ^ Z.of_nat (pa_logN pp - 1)) by (apply Z.pow_lt_mono_r; lia). lia. }
  apply (rotateNew_needs ce o ct (- 2 ^ Z.of_nat j) rks st r id Ho Hp); [fold pp; now rewrite E|exact H| |exact Hl]. fold pp. rewrite E, Eh. now apply back_bits.
Qed.
