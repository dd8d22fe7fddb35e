(** Encryption and decryption of complex slots: what goes into a sequence of calls and what is read from its results. *)
From Coq Require Import Reals String ZArith Znumtheory List Lia Lra Setoid Morphisms Bool.
From Coq.Floats Require Import SpecFloat.
From Verif Require Import Spec SpecProofs Go GoProofs Arith NegRing NegRingProofs NTT NTTProofs F64 BasisExt RingOps RingOpsProofs Maps MapsProofs Params Elements KeySwitch KeySets KeyGen EncDec Evaluator KSProofs Repr SpecKeys Galois KeyGenProofs SpecCt KSSem SpecEnc EncProofs EncThms CkEncThms EncWorld SpecEv EvProofs RescaleProofs SpecRot SpecSlots SlotThms SlotRing SpecLREnc SlotErr SlotInv SlotBound LREncProofs LREncWorld Circuit SpecCircuit CircErr.
Import ListNotations.
Local Open Scope Z_scope.

Section Enc.
Context (pp : params) (Hpp : params_ok pp) (sc : f64) {Msg : Type} (encode : poly -> Msg -> poly) (msg : Msg).
Notation cp := (mkCkp pp sc).
Notation N := (pa_N pp).
Context (pk : pubkey) (s : string -> zpoly) (ids : list string) (e a : zpoly) (u e0 e1 : small) (Bs Bu B : Z) (M : zpoly) (m : Z -> C2) (ee : R).
Context (HM : forall p, plen p = QCount pp -> plaintext_is pp (maxLevel pp) (encode p msg) M).
Context (HMz : slots_near pp sc m ee M).
Context (Hpk : pk_is pp pk (s (pk_ID pk)) e a) (Hpe : pnorm_le N e B) (Hs : pnorm_le N (s (pk_ID pk)) Bs) (Hid : In (pk_ID pk) ids) (H0 : ~ In "0"%string ids).
Context (HBu : bound_ok pp Bu) (HB : bound_ok pp B) (R1 : small_ok N Bu u) (R2 : small_ok N B e0) (R3 : small_ok N B e1).
Notation err := (ee + 2 * INR N * IZR (B * (1 + Z.of_nat N * Bu + Z.of_nat N * Bs)))%R.
Lemma cencrypt_ids o idset st : order_ok o -> encst_ok cp st -> In (pk_ID pk) (mkeys idset) -> (forall x, In x (mkeys idset) -> In x ids) ->
  exists ct st', EncryptMsg cp encode msg pk u e0 e1 (ckNewCiphertext o cp idset (maxLevel pp) sc) st = Ok (ct, st') /\ encst_ok cp st' /\ holds pp s ids (maxLevel pp) sc m err ct /\ (forall x, party (c_ct ct) x <-> In x (mkeys idset)).
Proof.
  intros Ho Hst Hin Hsub. assert (Hid0 : pk_ID pk <> "0"%string) by congruence.
  destruct (encmsg_full cp Hpp encode (fun _ _ => msg) msg M pk (s (pk_ID pk)) e a u e0 e1 Bu B HM Hpk Hid0 HBu HB R1 R2 R3 o idset st Ho Hin) as (ct & en' & EC & HEn & CS & CL & CP & CR & CD); auto.
  cbn [cp_pp cp_scale] in EC, CL, CR, CD, CS. exists ct, en'. split; [exact EC|]. split; [exact HEn|]. split; [|exact CP].
  set (F := encF _ _ _ _ _ _ _ _ _ _) in *. specialize (CD s eq_refl). assert (Hmx : (maxLevel pp < QCount pp)%nat) by apply (cr_l _ _ _ _ _ CR).
  constructor; auto.
  - constructor; [apply (cr_nd _ _ _ _ _ CR)| |].
    + destruct (cr_0 _ _ _ _ _ CR) as (p & E & _). eapply mget_key; eauto; exact seqb.
    + intros x p E. destruct (cr_c _ _ _ _ _ CR x p E) as (Ep & _ & _ & Hp). split; [auto|]. split; [eauto|]. intros j Hj. destruct (Hp j ltac:(lia)) as (Hl & Hx). split; [exact Hl|].
      intros k Hk. destruct (Hx k Hk) as [Hx0 _]. cbv beta in Hx0. change (r_mods (ringQ pp)) with (pa_Q pp) in Hx0. lia.
  - intros x Hx. apply CP in Hx. auto.
  - exists (padd M (fresh_noise N (s (pk_ID pk)) e (smallpoly u) (smallpoly e0) (smallpoly e1))). split.
    + intros j Hj. rewrite (phase_lift (fst (NewKeySwitcher (fun _ _ _ => false) pp)) (maxLevel pp) s (c_ct ct) F j); [|apply (cr_nd _ _ _ _ _ CR)| |exact Hj].
      * apply peq_0. exact CD.
      * intros x Hx. destruct (mget_ex _ seqb _ x Hx) as (p & E). destruct (cr_c _ _ _ _ _ CR x p E) as (_ & Hp). eauto.
    + intros i Hi. rewrite slot_add. apply cshift_est; [now apply HMz|]. apply (slot_norm N (deg_pos _)); [apply Hi|]. eapply fresh_bound; eauto.
Qed.
Theorem cencrypt_new o st : order_ok o -> encst_ok cp st ->
  exists ct st', EncryptMsgNew cp encode o msg pk u e0 e1 st = Ok (ct, st') /\ encst_ok cp st' /\ holds pp s ids (maxLevel pp) sc m err ct.
Proof.
  intros Ho Hst. unfold EncryptMsgNew, idAdd. destruct (String.eqb_spec (pk_ID pk) "0") as [E|Hne]; [congruence|]. cbn [bind cp_pp cp_scale].
  destruct (cencrypt_ids o (sset NewIDSet (pk_ID pk) tt) st Ho Hst) as (ct & st' & E & H1 & H2 & H3). { cbn. auto. } { intros x [<-|[]]. exact Hid. }
  exists ct, st'. repeat (split; [assumption|]). assumption.
Qed.
End Enc.

Section D.
Context (ce : ckenv) (He : env_ok (ce_env ce)).
Notation pp := (e_pp (ce_env ce)).
Notation N := (pa_N pp).
Let Hpp : params_ok pp := eo_pp _ He.
Notation cp := (mkCkp pp (ce_scale ce)).
Theorem cdecrypt s ids l sc m e ct {Msg} (decode : poly -> f64 -> Msg) pool pl :
  holds pp s ids l sc m e ct -> plen pool = (pl + 1)%nat ->
  (forall i, 0 <= i < Z.of_nat N / 2 -> (4 * (cnorm (cscale (fR sc) (m i)) + e) < IZR (Ql pp (Nat.min l pl)))%R) ->
  exists pt, plen pt = (Nat.min l pl + 1)%nat /\
    (forall o sks, order_ok o -> sks_ok pp s (c_ct ct) sks -> (forall id, party (c_ct ct) id -> has_key sks id) ->
       ckDecrypt cp decode o ct sks pool = Ok (decode pt sc, pt)) /\
    exists V, centred_value pp (Nat.min l pl) false pt V /\ slots_near pp sc m e V.
Proof.
  intros [El Ec Ei Es (M & EM & ES)] Lp HB. destruct (lifts_ex ce He l (c_ct ct) El Ec) as (F & HF).
  destruct Ec as [c1 c2 c3] eqn:EEc. clear EEc.
  assert (CR : ct_rep pp false l (c_ct ct) F).
  { constructor; [exact c1|exact El| |].
    - destruct (mget_ex _ seqb _ _ c2) as (p & E). exists p. split; [exact E|]. now destruct (c3 _ _ E) as (_ & H & _).
    - intros id p E. destruct (HF id) as (p' & E' & HP & Hn & _); [eapply mget_key; eauto; exact seqb|]. rewrite E in E'. injection E' as <-. split; [exact Hn|exact HP]. }
  assert (HD : forall j, (j <= l)%nat -> peq N (modulus (pa_Q pp) j) (decryption pp s F (c_ct ct)) M).
  { intros j Hj. rewrite <- (EM j Hj). symmetry. apply (phase_lift (ce_env ce) l s (c_ct ct) F j); [exact c1| |exact Hj]. intros id Hi. destruct (HF id Hi) as (p & E & HP & _). eauto. }
  set (pt := mkPoly (p_ntt pool) (limbs_of pp false (Nat.min l pl + 1) (decryption pp s F (c_ct ct)))).
  destruct (limbs_of_held pp Hpp false (Nat.min l pl) (decryption pp s F (c_ct ct)) (p_ntt pool) ltac:(lia)) as [P3 P2]. fold pt in P2, P3.
  exists pt. split; [exact P2|]. split. { intros o sks Ho Hk Hh. rewrite <- Es. exact (ckDecrypt_any cp Hpp decode ct F s l pool pl CR Lp o sks Ho Hk Hh). }
  assert (HM : held pp false (fun q => q) (Nat.min l pl) pt M). { eapply (held_peq pp Hpp); [|exact P3]. intros j Hj. apply HD. lia. }
  assert (HlN : (1 <= pa_logN pp)%nat) by (apply (ro_log (ringQ pp) (po_rQ _ Hpp))).
  assert (HV : forall i, (i < N)%nat -> 2 * Z.abs (M i) < Ql pp (Nat.min l pl)).
  { intros k Hk. apply lt_IZR. rewrite mult_IZR, abs_IZR. set (X := IZR (Ql pp (Nat.min l pl))) in *.
    destruct (half_pos (pa_logN pp) HlN) as [Hh _]. change (deg (pa_logN pp)) with N in Hh.
    assert (G : exists b, (4 * b < X)%R /\ forall i, 0 <= i < Z.of_nat N / 2 -> (cnorm (slot N M i) <= b)%R).
    { set (h := (N / 2)%nat). assert (Eh : Z.of_nat N / 2 = Z.of_nat h) by (unfold h; now rewrite Nat2Z.inj_div). unfold slots_near in ES. rewrite Eh in *.
      assert (GG : forall n, (0 < n <= h)%nat -> exists b, (4 * b < X)%R /\ forall i, 0 <= i < Z.of_nat n -> (cnorm (slot N M i) <= b)%R).
      { induction n as [|n IH]; intros Hn; [lia|].
        assert (B1 : (cnorm (slot N M (Z.of_nat n)) <= cnorm (cscale (fR sc) (m (Z.of_nat n))) + e)%R).
        { pose proof (ES (Z.of_nat n) ltac:(lia)) as H. set (a := slot N M (Z.of_nat n)) in *. set (c := cscale _ _) in *.
          replace a with (cadd c (csub a c)) by (destruct a, c; unfold cadd, csub, cadd, copp; cbn [fst snd]; apply f_equal2; ring). eapply Rle_trans; [apply cnorm_add|]. lra. }
        pose proof (HB (Z.of_nat n) ltac:(lia)) as B2. destruct n as [|n].
        - exists (cnorm (cscale (fR sc) (m 0%Z)) + e)%R. split; [exact B2|]. intros i Hi. assert (i = 0) as -> by lia. exact B1.
        - destruct IH as (b & Hb & HI); [lia|]. exists (Rmax b (cnorm (cscale (fR sc) (m (Z.of_nat (S n)))) + e))%R. split; [unfold Rmax; destruct (Rle_dec _ _); lra|].
          intros i Hi. destruct (Z.eq_dec i (Z.of_nat (S n))) as [->|Hne]; [eapply Rle_trans; [exact B1|apply Rmax_r]|eapply Rle_trans; [apply HI; lia|apply Rmax_l]]. }
      destruct (GG h) as (b & Hb & HI); [lia|]. exists b. split; [exact Hb|]. intros i Hi. now apply HI. }
    destruct G as (b & Hb & HI). pose proof (coeff_bound (pa_logN pp) HlN M b k HI Hk) as Hc. change (IZR 2) with 2%R. lra. }
  exists M. split; [eapply (centred_ok pp Hpp); eauto|exact ES].
Qed.
End D.

(** an encoder for complex slots: the rounded inverse of the slot map, reduced modulo the primes *)
Section Ideal.
Context (pp : params) (Hpp : params_ok pp) (sc : f64).
Notation N := (pa_N pp).
Definition cencPoly (m : Z -> C2) : zpoly := encode_round (pa_logN pp) (fun j => cscale (fR sc) (m (Z.of_nat j))).
Definition cplxEncode (p : poly) (m : Z -> C2) : poly := mkPoly false (map (fun q => map (fun k => cencPoly m k mod q) (seq 0 N)) (firstn (plen p) (pa_Q pp))).
Lemma cplxEncode_ok m p : plen p = QCount pp -> plaintext_is pp (maxLevel pp) (cplxEncode p m) (cencPoly m).
Proof.
  intros Hp. pose proof (lvQ_lt pp Hpp) as HQ. unfold maxLevel in HQ.
  assert (EQ : firstn (plen p) (pa_Q pp) = pa_Q pp) by (rewrite Hp; apply firstn_all).
  assert (Emx : (maxLevel pp + 1 = QCount pp)%nat) by (unfold maxLevel; lia).
  split; [lia|]. unfold plen, cplxEncode. cbn [p_co p_ntt]. rewrite EQ, map_length. split; [rewrite Emx; reflexivity|].
  unfold held, prep. cbn [p_co]. split; [cbn [r_mods ringQ]; rewrite Emx; apply Nat.le_refl|]. split; [rewrite map_length; unfold QCount in Emx; lia|].
  intros j Hj. unfold QCount in Emx. rewrite (nth_mp (fun q => map (fun k => cencPoly m k mod q) (seq 0 N)) (pa_Q pp) j 0 []) by lia.
  split; [rewrite map_length, seq_length; reflexivity|]. intros i Hi. cbn [r_N r_logN ringQ] in Hi. rewrite (nth_mp (fun k => cencPoly m k mod nth j (pa_Q pp) 0) (seq 0 N) i 0%nat 0) by (rewrite seq_length; exact Hi).
  rewrite seq_nth by exact Hi. cbn [Nat.add]. cbn [r_mods ringQ]. destruct (qbig pp Hpp j ltac:(unfold QCount; lia)) as [Hq _]. unfold modulus in Hq.
  pose proof (Z.mod_pos_bound (cencPoly m i) (nth j (pa_Q pp) 0) ltac:(lia)). split; [lia|]. unfold cong. exists (- (cencPoly m i / nth j (pa_Q pp) 0)). rewrite Z.mod_eq by lia. ring.
Qed.
Lemma cplxEncode_slots m : (1 <= pa_logN pp)%nat -> slots_near pp sc m (2 * INR N) (cencPoly m).
Proof.
  intros HL i Hi. assert (Hi' : (Z.to_nat i < N / 2)%nat) by (apply Nat2Z.inj_lt; rewrite Nat2Z.inj_div, Z2Nat.id by lia; apply Hi).
  pose proof (encode_slots (pa_logN pp) HL (fun j => cscale (fR sc) (m (Z.of_nat j))) (Z.to_nat i) Hi') as H. cbv beta in H. rewrite Z2Nat.id in H by lia. exact H.
Qed.
End Ideal.
