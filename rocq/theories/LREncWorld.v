(** Encryption of a program's inputs, and a concrete case for the theorems about encrypted runs: the shipped parameters, generated keys of
    three companies, ciphertexts made by the encryptor. *)
From Coq Require Import Reals String ZArith Znumtheory List Lia Lra Setoid Morphisms Bool Permutation.
From Coq.Floats Require Import SpecFloat.
From Verif Require Import Spec SpecProofs Go GoProofs Lattigo LattigoProofs Arith NegRing NegRingProofs NTT NTTProofs F64 F64Proofs BasisExt BasisExtProofs RingOps RingOpsProofs Maps MapsProofs Params Elements KeySwitch KeySets KeyGen EncDec Evaluator KSProofs ParamsProofs Repr Crt Galois KeyGenProofs ParamsSpec SpecKeys Shipped KeySpec KeyWitness KeyThms SpecCt KSSem MulThms World SpecEnc EncProofs EncThms CkEncThms EncWorld SpecEv EvProofs EvThms EvWorld SpecRot RotEvThms RotWorld SpecSlots SlotThms SlotRing LR LREval LRShadow LRRel SpecLREnc SlotErr LREncProofs SlotInv.
Import ListNotations.
Local Open Scope Z_scope.

Lemma nth_mp {A B} (f : A -> B) l i d d' : (i < List.length l)%nat -> nth i (map f l) d' = f (nth i l d).
Proof. intros H. rewrite (nth_indep _ d' (f d)) by now rewrite map_length. apply map_nth. Qed.

(** * EncryptMsgNew and EncryptMsgNewExpand *)
Section Enc.
Context (pp : params) (Hpp : params_ok pp) (sc : f64) {Msg : Type} (encode : poly -> Msg -> poly) (msg : Msg).
Notation cp := (mkCkp pp sc).
Notation N := (pa_N pp).
Context (pk : pubkey) (s : string -> zpoly) (ids : list string) (e a : zpoly) (u e0 e1 : small) (Bs Bu B : Z) (M : zpoly) (m : Z -> R) (ee : R).
Context (HM : forall p, plen p = QCount pp -> plaintext_is pp (maxLevel pp) (encode p msg) M).
Context (HMz : forall i, (0 <= i < Z.of_nat N / 2) -> (cnorm (csub (slot N M i) (creal (fR sc * m i))) <= ee)%R).
Context (Hpk : pk_is pp pk (s (pk_ID pk)) e a) (Hpe : pnorm_le N e B) (Hs : pnorm_le N (s (pk_ID pk)) Bs) (Hid : In (pk_ID pk) ids) (H0 : ~ In "0"%string ids).
Context (HBu : bound_ok pp Bu) (HB : bound_ok pp B) (R1 : small_ok N Bu u) (R2 : small_ok N B e0) (R3 : small_ok N B e1).
Notation err := (ee + 2 * INR N * IZR (B * (1 + Z.of_nat N * Bu + Z.of_nat N * Bs)))%R.
Lemma encrypt_ids_fresh o idset st : order_ok o -> encst_ok cp st -> In (pk_ID pk) (mkeys idset) -> (forall x, In x (mkeys idset) -> In x ids) ->
  exists ct st', EncryptMsg cp encode msg pk u e0 e1 (ckNewCiphertext o cp idset (maxLevel pp) sc) st = Ok (ct, st') /\ encst_ok cp st' /\ fresh pp sc s ids err m ct /\ (forall x, party (c_ct ct) x <-> In x (mkeys idset)).
Proof.
  intros Ho Hst Hin Hsub. assert (Hid0 : pk_ID pk <> "0"%string) by congruence.
  destruct (encmsg_full cp Hpp encode (fun _ _ => msg) msg M pk (s (pk_ID pk)) e a u e0 e1 Bu B HM Hpk Hid0 HBu HB R1 R2 R3 o idset st Ho Hin) as (ct & en' & EC & HEn & CS & CL & CP & CR & CD); auto.
  cbn [cp_pp cp_scale] in EC, CL, CR, CD, CS. exists ct, en'. split; [exact EC|]. split; [exact HEn|]. split; [|exact CP].
  set (F := encF _ _ _ _ _ _ _ _ _ _) in *. specialize (CD s eq_refl). assert (Hmx : (maxLevel pp < QCount pp)%nat) by apply (cr_l _ _ _ _ _ CR).
  unfold fresh. constructor; auto.
  - constructor; [apply (cr_nd _ _ _ _ _ CR)| |].
    + destruct (cr_0 _ _ _ _ _ CR) as (p & E & _). eapply mget_key; eauto; exact seqb.
    + intros x p E. destruct (cr_c _ _ _ _ _ CR x p E) as (Ep & _ & _ & Hp). split; [auto|]. split; [eauto|]. intros j Hj. destruct (Hp j ltac:(lia)) as (Hl & Hx). split; [exact Hl|].
      intros k Hk. destruct (Hx k Hk) as [Hx0 _]. cbv beta in Hx0. change (r_mods (ringQ pp)) with (pa_Q pp) in Hx0. lia.
  - intros x Hx. apply CP in Hx. auto.
  - exists (padd M (fresh_noise N (s (pk_ID pk)) e (smallpoly u) (smallpoly e0) (smallpoly e1))). split.
    + intros j Hj. rewrite (phase_lift (fst (NewKeySwitcher (fun _ _ _ => false) pp)) (maxLevel pp) s (c_ct ct) F j); [|apply (cr_nd _ _ _ _ _ CR)| |exact Hj].
      * apply peq_0. exact CD.
      * intros x Hx. destruct (mget_ex _ seqb _ x Hx) as (p & E). destruct (cr_c _ _ _ _ _ CR x p E) as (_ & Hp). eauto.
    + intros i Hi. rewrite slot_add. apply shift_est; [now apply HMz|]. apply (slot_norm N (deg_pos _)); [apply Hi|]. eapply fresh_bound; eauto.
Qed.
Theorem encrypt_new_fresh o st : order_ok o -> encst_ok cp st ->
  exists ct st', EncryptMsgNew cp encode o msg pk u e0 e1 st = Ok (ct, st') /\ encst_ok cp st' /\ fresh pp sc s ids err m ct /\ (forall x, party (c_ct ct) x <-> x = pk_ID pk).
Proof.
  intros Ho Hst. unfold EncryptMsgNew, idAdd. destruct (String.eqb_spec (pk_ID pk) "0") as [E|Hne]; [congruence|]. cbn [bind cp_pp cp_scale].
  destruct (encrypt_ids_fresh o (sset NewIDSet (pk_ID pk) tt) st Ho Hst) as (ct & st' & E & H1 & H2 & H3). { cbn. auto. } { intros x [<-|[]]. exact Hid. }
  exists ct, st'. repeat (split; [assumption|]). intros x. rewrite H3. cbn. intuition.
Qed.
Theorem encrypt_expand_fresh o idset st : order_ok o -> encst_ok cp st -> In (pk_ID pk) (mkeys idset) -> (forall x, In x (mkeys idset) -> In x ids) ->
  exists ct st', EncryptMsgNewExpand cp encode o msg pk idset u e0 e1 st = Ok (ct, st') /\ encst_ok cp st' /\ fresh pp sc s ids err m ct /\ (forall x, party (c_ct ct) x <-> In x (mkeys idset)).
Proof. intros Ho Hst H1 H2. unfold EncryptMsgNewExpand. cbn [cp_pp cp_scale]. now apply encrypt_ids_fresh. Qed.
End Enc.

(** * an encoder for real slots: the rounded inverse of the slot map, reduced modulo the primes *)
Section Ideal.
Context (pp : params) (Hpp : params_ok pp) (sc : f64).
Notation N := (pa_N pp).
Definition encPoly (m : Z -> R) : zpoly := encode_round (pa_logN pp) (fun j => creal (fR sc * m (Z.of_nat j))).
Definition realEncode (p : poly) (m : Z -> R) : poly := mkPoly false (map (fun q => map (fun k => encPoly m k mod q) (seq 0 N)) (firstn (plen p) (pa_Q pp))).
Lemma realEncode_ok m p : plen p = QCount pp -> plaintext_is pp (maxLevel pp) (realEncode p m) (encPoly m).
Proof.
  intros Hp. pose proof (lvQ_lt pp Hpp) as HQ. unfold maxLevel in HQ.
  assert (EQ : firstn (plen p) (pa_Q pp) = pa_Q pp) by (rewrite Hp; apply firstn_all).
  assert (Emx : (maxLevel pp + 1 = QCount pp)%nat) by (unfold maxLevel; lia).
  split; [lia|]. unfold plen, realEncode. cbn [p_co p_ntt]. rewrite EQ, map_length. split; [rewrite Emx; reflexivity|].
  unfold held, prep. cbn [p_co]. split; [cbn [r_mods ringQ]; rewrite Emx; apply Nat.le_refl|]. split; [rewrite map_length; unfold QCount in Emx; lia|].
  intros j Hj. unfold QCount in Emx. rewrite (nth_mp (fun q => map (fun k => encPoly m k mod q) (seq 0 N)) (pa_Q pp) j 0 []) by lia.
  split; [rewrite map_length, seq_length; reflexivity|]. intros i Hi. cbn [r_N r_logN ringQ] in Hi. rewrite (nth_mp (fun k => encPoly m k mod nth j (pa_Q pp) 0) (seq 0 N) i 0%nat 0) by (rewrite seq_length; exact Hi).
  rewrite seq_nth by exact Hi. cbn [Nat.add]. cbn [r_mods ringQ]. destruct (qbig pp Hpp j ltac:(unfold QCount; lia)) as [Hq _]. unfold modulus in Hq.
  pose proof (Z.mod_pos_bound (encPoly m i) (nth j (pa_Q pp) 0) ltac:(lia)). split; [lia|]. unfold cong. exists (- (encPoly m i / nth j (pa_Q pp) 0)). rewrite Z.mod_eq by lia. ring.
Qed.
Lemma realEncode_slots m i : (1 <= pa_logN pp)%nat -> 0 <= i < Z.of_nat N / 2 -> (cnorm (csub (slot N (encPoly m) i) (creal (fR sc * m i))) <= 2 * INR N)%R.
Proof.
  intros HL Hi. assert (Hi' : (Z.to_nat i < N / 2)%nat) by (apply Nat2Z.inj_lt; rewrite Nat2Z.inj_div, Z2Nat.id by lia; apply Hi).
  pose proof (encode_slots (pa_logN pp) HL (fun j => creal (fR sc * m (Z.of_nat j))) (Z.to_nat i) Hi') as H. cbv beta in H. rewrite Z2Nat.id in H by lia. exact H.
Qed.
Theorem realEncode_fresh m p : (1 <= pa_logN pp)%nat -> plen p = QCount pp -> freshpt pp sc (2 * INR N) m (realEncode p m, sc).
Proof.
  intros HL Hp. split; [reflexivity|]. split; [reflexivity|]. exists (encPoly m). split; [now apply realEncode_ok|]. intros i Hi. now apply realEncode_slots.
Qed.
End Ideal.

(** * the concrete case *)
Definition companies : list string := ["company0"; "company1"; "company2"]%string.
Theorem lr_world : exists ce g A U s r Dm keys rks orders rnd pk st, let pp := e_pp (ce_env ce) in let e := (2 * INR (pa_N pp) + 2 * INR (pa_N pp) * IZR (19 * (1 + Z.of_nat (pa_N pp) * 1 + Z.of_nat (pa_N pp) * 1)))%R in
  lr_setting ce g A U s r 1 19 Dm 14 companies keys rks orders rnd pk (realEncode pp (ce_scale ce)) (fun _ => 0%R) 1 19 (2 * INR (pa_N pp)) st /\
  pa_Q pp = shippedQ /\ pa_P pp = shippedP /\ pa_logN pp = 15%nat /\ ce_scale ce = sc38 /\
  (forall m, (exists ct, fresh pp (ce_scale ce) s companies e m ct) /\ freshpt pp (ce_scale ce) e m (realEncode pp (ce_scale ce) (ringPoly (ringQ pp)) m, ce_scale ce)) /\
  (forall K, exists KE, consts_held pp (ce_scale ce) s companies e K KE) /\ (forall bs, exists be, batches_held pp (ce_scale ce) s companies e bs be).
Proof.
  destruct shipped_key_witness as (pp & sk & Hpp & HQ & HP & Hlog & Hgm & HB & Hsk & He & Hcrs & Hmh & (g & Hg) & Hps & _).
  set (env := fst (NewKeySwitcher (fun _ _ _ => false) pp)). assert (Henv : env_ok env) by (constructor; auto).
  destruct (NewEvaluator o_id (e_lz env) (mkCkp pp sc38)) as [c0 ev] eqn:EN. pose proof (NewEvaluator_ok o_id (e_lz env) (mkCkp pp sc38) Hpp o_id_ok) as HE. rewrite EN in HE. destruct HE as (_ & _ & _ & Hev).
  destruct (digit_bound_exists pp Hpp) as (Dm & HDm & HD).
  assert (C0 : crs_is pp 0 (fun _ => pone)). { apply Hcrs. unfold crsIndices. cbn. auto. }
  assert (C1 : crs_is pp (-1) (fun _ => pone)). { apply Hcrs. unfold crsIndices. cbn. auto. }
  destruct (rlk_exists pp sk g Hpp HB Hsk Hg C0 C1) as (rl & Hrl).
  set (on := KeyWitness.ones (pa_N pp)) in *. set (s := fun _ : string => smallpoly on).
  assert (O19 : small_ok (pa_N pp) 19 on) by (apply ones_ok; lia). assert (O1 : small_ok (pa_N pp) 1 on) by (apply ones_ok; lia).
  destruct (GenPublicKey_ok pp Hpp sk _ _ _ 19 Hsk C0 HB O19) as (pk0 & _ & _ & K1 & _ & K0 & _).
  set (pk := mkPk (pk_0 pk0) (pk_1 pk0) "company0"%string).
  set (k := fun id => mkSk (sk_val sk) id). set (parties := map (fun id => (k id, fun (_ : Z) (_ : nat) => on)) companies).
  assert (HPC : powers_crs pp). { intros i Hi. exists (fun _ => pone). apply Hcrs. rewrite <- (Z2Nat.id i) by lia. unfold crsIndices. apply in_or_app. right. rewrite Hlog in *. apply (in_map (fun i => 2 ^ Z.of_nat i)), in_seq. lia. }
  assert (HHC : forall i, has_crs pp i -> In i (crsIndices (pa_logN pp))). { intros i [v Hv]. apply Hmh. unfold mhas. change (mget Z.eqb (pa_CRS pp) i = Some v) in Hv. now rewrite Hv. }
  assert (HG : generators_ok pp s 19 parties). { intros sk' es Hin. unfold parties in Hin. apply in_map_iff in Hin as (id & [= <- <-] & _). split; [exact Hsk|intros ix; exact He]. }
  destruct (default_keys pp g 19 s parties _ Hpp Hg HB HPC HG Hps []) as (rks & pool' & _ & _ & HR & _).
  set (keys := map (fun id => (id, rl)) companies). set (pools := map (fun id => (id, NewSwitchingKey pp)) companies).
  set (ce := mkCke env sc38). set (st := mkLr ev (mkRlkSet keys pools pools) (NewEncryptor (mkCkp pp sc38)) 0).
  exists ce, g, (fun _ => pone), (fun _ => pone), s, s, Dm, keys, rks, (fun _ => o_id), (fun _ => (on, on, on)), pk, st. cbv zeta.
  change (e_pp (ce_env ce)) with pp. change (ce_scale ce) with sc38. set (e := (2 * INR (pa_N pp) + 2 * INR (pa_N pp) * IZR (19 * (1 + Z.of_nat (pa_N pp) * 1 + Z.of_nat (pa_N pp) * 1)))%R).
  assert (Hs1 : pnorm_le (pa_N pp) (smallpoly on) 1) by (apply smallpoly_norm; exact O1). assert (Hs19 : pnorm_le (pa_N pp) (smallpoly on) 19) by (apply smallpoly_norm; exact O19).
  assert (HlN : (1 <= pa_logN pp)%nat) by lia.
  assert (HB1 : bound_ok pp 1). { destruct HB as [_ HF]. split; [lia|]. revert HF. apply Forall_impl. intros q. lia. }
  assert (Hpk : pk_is pp pk (s (pk_ID pk)) (smallpoly on) (pscale W pone)) by (split; [exact K1|exact K0]).
  assert (N0 : ~ In "0"%string companies). { unfold companies. cbn [In]. intros [H|[H|[H|[]]]]; discriminate H. }
  assert (C2R : (0 <= 2 * INR (pa_N pp))%R) by (pose proof (pos_INR (pa_N pp)); lra).
  assert (Ege : (2 * INR (pa_N pp) <= e)%R). { unfold e. assert (0 <= IZR (19 * (1 + Z.of_nat (pa_N pp) * 1 + Z.of_nat (pa_N pp) * 1)))%R by (apply (IZR_le 0); lia). pose proof (Rmult_le_pos _ _ C2R H). lra. }
  assert (FC : forall m, exists ct, fresh pp sc38 s companies e m ct).
  { intros m. destruct (encrypt_new_fresh pp Hpp sc38 (realEncode pp sc38) m pk s companies (smallpoly on) (pscale W pone) on on on 1 1 19 (encPoly pp sc38 m) m (2 * INR (pa_N pp))%R) with (o := o_id) (st := NewEncryptor (mkCkp pp sc38)) as (ct & st' & _ & _ & HF & _); auto.
    - intros p. now apply realEncode_ok.
    - intros i Hi. now apply realEncode_slots.
    - cbn. auto.
    - apply o_id_ok.
    - apply (NewEncryptor_ok (mkCkp pp sc38)).
    - exists ct. exact HF. }
  assert (PL : plen (ringPoly (ringQ pp)) = QCount pp) by (unfold ringPoly, plen, newPoly; cbn [p_co]; rewrite repeat_length; reflexivity).
  assert (FP : forall m, freshpt pp sc38 e m (realEncode pp sc38 (ringPoly (ringQ pp)) m, sc38)).
  { intros m. destruct (realEncode_fresh pp Hpp sc38 m (ringPoly (ringQ pp)) HlN PL) as (E1 & E2 & M & E3 & E4). split; [exact E1|]. split; [exact E2|]. exists M. split; [exact E3|]. intros i Hi. specialize (E4 i Hi). lra. }
  assert (F2 : forall l, exists l', Forall2 (freshpt pp sc38 e) l l'). { induction l as [|m l (l' & IH)]; [exists []; constructor|]. eexists (_ :: l'). constructor; [apply FP|exact IH]. }
  split; [|split; [exact HQ|split; [exact HP|split; [exact Hlog|split; [reflexivity|split; [split; auto|split]]]]]].
  - constructor.
    + exact Henv.
    + change (e_pp (ce_env ce)) with pp. unfold pa_N, deg. rewrite Hlog, Nat2Z.inj_pow. apply Z.div_str_pos. split; [lia|]. change (Z.of_nat 2) with 2. apply (Z.pow_le_mono_r 2 1 (Z.of_nat 15)); lia.
    + change (e_pp (ce_env ce)) with pp. constructor; auto; try lia.
      * intros id Hid. exists rl. split; [unfold keys, companies in *; cbn [In] in Hid; destruct Hid as [<-|[<-|[<-|[]]]]; reflexivity|].
        destruct Hrl as (eb & ed & ev' & Hn & Hk). exists eb, ed, ev'. split; [|exact Hk]. intros t Ht. destruct (Hn t Ht) as (n1 & n2 & n3).
        repeat split; intros i Hi; [specialize (n1 i Hi)|specialize (n2 i Hi)|specialize (n3 i Hi)]; lia.
      * intros ct kk Hct. destruct (default_ready ce Henv g 19 s ct rks kk HHC) as (n & Hn & HRd).
        { intros i Hi. apply HR; [|exact Hi]. intros id Hid. exists (k id), (fun _ _ => on). split; [|reflexivity]. unfold parties. apply (in_map (fun id => (k id, fun (_ : Z) (_ : nat) => on))). now apply Hct. }
        exists n. change (e_pp (ce_env ce)) with pp in Hn. rewrite Hlog in Hn. split; [lia|exact HRd].
    + intros n. apply o_id_ok.
    + change (e_pp (ce_env ce)) with pp. constructor; auto.
      * exists (smallpoly on), (pscale W pone). auto.
      * cbn. auto.
      * exists (encPoly pp sc38 (fun _ => 0%R)). split; [intros p; now apply realEncode_ok|]. intros i Hi. pose proof (realEncode_slots pp sc38 (fun _ => 0%R) i HlN Hi) as H. cbv beta in H. rewrite Rmult_0_r in H.
        replace (csub (slot (pa_N pp) (encPoly pp sc38 (fun _ => 0%R)) i) (creal 0)) with (slot (pa_N pp) (encPoly pp sc38 (fun _ => 0%R)) i) in H; [exact H|]. destruct (slot _ _ i). unfold csub, cadd, copp, creal. cbn [fst snd]. apply f_equal2; ring.
    + change (e_pp (ce_env ce)) with pp. constructor; auto.
      * apply (NewEncryptor_ok (mkCkp pp sc38)).
      * intros id Hid. exists (NewSwitchingKey pp). split; [|apply NewSwk_ok]. unfold st, pools, companies in *. cbn [In] in Hid. destruct Hid as [<-|[<-|[<-|[]]]]; reflexivity.
      * intros id Hid. exists (NewSwitchingKey pp). split; [|apply NewSwk_ok]. unfold st, pools, companies in *. cbn [In] in Hid. destruct Hid as [<-|[<-|[<-|[]]]]; reflexivity.
  - intros K. destruct (F2 (k_2 K)) as (l2 & H2). destruct (F2 (k_4 K)) as (l4 & H4). destruct (F2 (k_6 K)) as (l6 & H6). destruct (F2 (k_7 K)) as (l7 & H7). destruct (FC (k_5 K)) as (c5 & H5). destruct (FC (k_9 K)) as (c9 & H9).
    set (p := fun m => (realEncode pp sc38 (ringPoly (ringQ pp)) m, sc38)).
    exists {| k_mask := p (k_mask K); k_1 := p (k_1 K); k_2 := l2; k_3 := p (k_3 K); k_4 := l4; k_5 := c5; k_6 := l6; k_7 := l7; k_8 := p (k_8 K); k_9 := c9 |}. constructor; cbn; auto; apply FP.
  - induction bs as [|b bs (be & IH)]; [exists []; constructor|].
    assert (HB0 : exists b', Forall2 (fun x y => fresh pp sc38 s companies e (fst (fst x)) (fst (fst y)) /\ freshpt pp sc38 e (snd (fst x)) (snd (fst y)) /\ Forall2 (freshpt pp sc38 e) (snd x) (snd y)) b b').
    { clear IH. induction b as [|[[x y] l] b (b' & IHb)]; [exists []; constructor|]. destruct (FC x) as (cx & Hx). destruct (F2 l) as (l' & Hl). eexists ((cx, _, l') :: b'). constructor; [|exact IHb]. split; [exact Hx|]. split; [apply FP|exact Hl]. }
    destruct HB0 as (b' & Hb). exists (b' :: be). now constructor.
Qed.
