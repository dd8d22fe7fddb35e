(** What the owner of the keys reads from a ciphertext that encrypts real slots up to an error. *)
From Coq Require Import Reals String ZArith Znumtheory List Lia Lra Setoid Morphisms Bool.
From Coq.Floats Require Import SpecFloat.
From Verif Require Import Spec SpecProofs Go GoProofs Arith NegRing NegRingProofs NTT NTTProofs F64 BasisExt RingOps RingOpsProofs Maps MapsProofs Params Elements KeySwitch KeySets KeyGen EncDec Evaluator KSProofs Repr SpecKeys Galois SpecCt KSSem SpecEnc EncProofs EncThms CkEncThms EncWorld SpecEv EvProofs RescaleProofs SpecRot SpecSlots SlotThms SlotRing LR LREval LRShadow LRRel SpecLREnc SlotErr LREncProofs SlotInv SlotBound.
Import ListNotations.
Local Open Scope Z_scope.

Section D.
Context (ce : ckenv) (He : env_ok (ce_env ce)).
Notation pp := (e_pp (ce_env ce)).
Notation N := (pa_N pp).
Let Hpp : params_ok pp := eo_pp _ He.
Notation cp := (mkCkp pp (ce_scale ce)).
Theorem dec_encrypts_any s ids l sc m e ct {Msg} (decode : poly -> f64 -> Msg) pool pl :
  encrypts pp s ids l sc m e ct -> plen pool = (pl + 1)%nat ->
  exists pt, plen pt = (Nat.min l pl + 1)%nat /\
    (forall o sks, order_ok o -> sks_ok pp s (c_ct ct) sks -> (forall id, party (c_ct ct) id -> has_key sks id) ->
       ckDecrypt cp decode o ct sks pool = Ok (decode pt sc, pt)) /\
    ((forall i, 0 <= i < Z.of_nat N / 2 -> (4 * (Rabs (fR sc * m i) + e) < IZR (Ql pp (Nat.min l pl)))%R) ->
     exists V, (forall i, (i < N)%nat -> 2 * Z.abs (V i) < Ql pp (Nat.min l pl)) /\ held pp false (fun q => q) (Nat.min l pl) pt V /\ centred_value pp (Nat.min l pl) false pt V /\
      forall i, 0 <= i < Z.of_nat N / 2 -> (cnorm (csub (slot N V i) (creal (fR sc * m i))) <= e)%R).
Proof.
  intros [El Ec Ei Es (M & EM & ES)] Lp. destruct (lifts_ex ce He l (c_ct ct) El Ec) as (F & HF).
  destruct Ec as [c1 c2 c3] eqn:EEc. clear EEc.
  assert (CR : ct_rep pp false l (c_ct ct) F).
  { constructor; [exact c1|exact El| |].
    - destruct (mget_ex _ seqb _ _ c2) as (p & E). exists p. split; [exact E|]. now destruct (c3 _ _ E) as (_ & H & _).
    - intros id p E. destruct (HF id) as (p' & E' & HP & Hn & _); [eapply mget_key; eauto; exact seqb|]. rewrite E in E'. injection E' as <-. split; [exact Hn|exact HP]. }
  assert (HD : forall j, (j <= l)%nat -> peq N (modulus (pa_Q pp) j) (decryption pp s F (c_ct ct)) M).
  { intros j Hj. rewrite <- (EM j Hj). symmetry. apply (phase_lift (ce_env ce) l s (c_ct ct) F j); [exact c1| |exact Hj]. intros id Hi. destruct (HF id Hi) as (p & E & HP & _). eauto. }
  set (pt := mkPoly (p_ntt pool) (limbs_of pp false (Nat.min l pl + 1) (decryption pp s F (c_ct ct)))).
  destruct (limbs_of_held pp Hpp false (Nat.min l pl) (decryption pp s F (c_ct ct)) (p_ntt pool) ltac:(lia)) as [P3 P2]. fold pt in P2, P3.
  exists pt. split; [exact P2|]. split. { intros o sks Ho Hk Hh. rewrite <- Es. exact (ckDecrypt_any cp Hpp decode ct F s l pool pl CR Lp o sks Ho Hk Hh). }
  intros HB.
  assert (HM : held pp false (fun q => q) (Nat.min l pl) pt M). { eapply (held_peq pp Hpp); [|exact P3]. intros j Hj. apply HD. lia. }
  assert (HlN : (1 <= pa_logN pp)%nat) by (apply (ro_log (ringQ pp) (po_rQ _ Hpp))).
  assert (HV : forall i, (i < N)%nat -> 2 * Z.abs (M i) < Ql pp (Nat.min l pl)).
  { intros k Hk. apply lt_IZR. rewrite mult_IZR, abs_IZR. set (X := IZR (Ql pp (Nat.min l pl))) in *.
    destruct (half_pos (pa_logN pp) HlN) as [Hh _]. change (deg (pa_logN pp)) with N in Hh.
    (* a bound below X/4 for all slots *)
    assert (G : exists b, (4 * b < X)%R /\ forall i, 0 <= i < Z.of_nat N / 2 -> (cnorm (slot N M i) <= b)%R).
    { set (h := (N / 2)%nat). assert (Eh : Z.of_nat N / 2 = Z.of_nat h) by (unfold h; now rewrite Nat2Z.inj_div). rewrite Eh in *.
      assert (GG : forall n, (0 < n <= h)%nat -> exists b, (4 * b < X)%R /\ forall i, 0 <= i < Z.of_nat n -> (cnorm (slot N M i) <= b)%R).
      { induction n as [|n IH]; intros Hn; [lia|].
        assert (B1 : (cnorm (slot N M (Z.of_nat n)) <= Rabs (fR sc * m (Z.of_nat n)) + e)%R).
        { pose proof (ES (Z.of_nat n) ltac:(lia)) as H. rewrite <- (cnorm_real (fR sc * m (Z.of_nat n))). set (a := slot N M (Z.of_nat n)) in *. set (c := creal _) in *.
          replace a with (cadd c (csub a c)) by (destruct a, c; unfold cadd, csub, cadd, copp; cbn [fst snd]; apply f_equal2; ring). eapply Rle_trans; [apply cnorm_add|]. lra. }
        pose proof (HB (Z.of_nat n) ltac:(lia)) as B2. destruct n as [|n].
        - exists (Rabs (fR sc * m 0%Z) + e)%R. split; [exact B2|]. intros i Hi. assert (i = 0) as -> by lia. exact B1.
        - destruct IH as (b & Hb & HI); [lia|]. exists (Rmax b (Rabs (fR sc * m (Z.of_nat (S n))) + e))%R. split; [unfold Rmax; destruct (Rle_dec _ _); lra|].
          intros i Hi. destruct (Z.eq_dec i (Z.of_nat (S n))) as [->|Hne]; [eapply Rle_trans; [exact B1|apply Rmax_r]|eapply Rle_trans; [apply HI; lia|apply Rmax_l]]. }
      destruct (GG h) as (b & Hb & HI); [lia|]. exists b. split; [exact Hb|]. intros i Hi. now apply HI. }
    destruct G as (b & Hb & HI). pose proof (coeff_bound (pa_logN pp) HlN M b k HI Hk) as Hc. change (IZR 2) with 2%R. lra. }
  exists M. split; [exact HV|]. split; [exact HM|]. split; [eapply (centred_ok pp Hpp); eauto|exact ES].
Qed.
Theorem dec_encrypts s ids l sc m e ct {Msg} (decode : poly -> f64 -> Msg) pool pl :
  encrypts pp s ids l sc m e ct -> plen pool = (pl + 1)%nat ->
  (forall i, 0 <= i < Z.of_nat N / 2 -> (4 * (Rabs (fR sc * m i) + e) < IZR (Ql pp (Nat.min l pl)))%R) ->
  exists pt, plen pt = (Nat.min l pl + 1)%nat /\
    (forall o sks, order_ok o -> sks_ok pp s (c_ct ct) sks -> (forall id, party (c_ct ct) id -> has_key sks id) ->
       ckDecrypt cp decode o ct sks pool = Ok (decode pt sc, pt)) /\
    exists V, (forall i, (i < N)%nat -> 2 * Z.abs (V i) < Ql pp (Nat.min l pl)) /\ held pp false (fun q => q) (Nat.min l pl) pt V /\ centred_value pp (Nat.min l pl) false pt V /\
      forall i, 0 <= i < Z.of_nat N / 2 -> (cnorm (csub (slot N V i) (creal (fR sc * m i))) <= e)%R.
Proof.
  intros HE Lp HB. destruct (dec_encrypts_any s ids l sc m e ct decode pool pl HE Lp) as (pt & H1 & H2 & H3). exists pt. split; [exact H1|]. split; [exact H2|exact (H3 HB)].
Qed.
End D.
