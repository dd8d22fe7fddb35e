(** The main function of lr.go and lr_toy.go, from key generation to the decrypted prediction. *)
From Coq Require Import Reals String ZArith List Lia Lra Bool.
From Coq.Floats Require Import SpecFloat.
From Verif Require Import Spec Go GoProofs Arith NegRing NTT F64 BasisExt RingOps Maps MapsProofs Params Elements KeySwitch KeySets KeyGen EncDec Evaluator KSProofs Repr KeyGenProofs ParamsSpec SpecKeys SpecCt SpecEnc EncProofs CkEncThms SpecEv SpecRot SpecSlots SlotThms SlotErr Galois LR SpecLR LRProofs LREval LRShadow LRRel SpecLREnc LREncWorld LREncDec LREncLR LRShipped LREncShip LRSetup SpecSetup LRSetupProofs LRSetupThms.
Import ListNotations.
Local Open Scope Z_scope.

Lemma foldM_inv {A B} (I : B -> Prop) (f : B -> A -> res B) l : forall b b', (forall b a b', I b -> f b a = Ok b' -> I b') -> I b -> foldM f l b = Ok b' -> I b'.
Proof. induction l as [|a l IH]; cbn [foldM]; intros b b' Hf Hb H; [now injection H as <-|]. apply bind_inv in H as (b1 & E & H). exact (IH _ _ Hf (Hf _ _ _ Hb E) H). Qed.
Lemma setAt_len {R} (v : list R) i x v' : setAt v i x = Ok v' -> length v' = length v.
Proof.
  unfold setAt. destruct (_ && _) eqn:E; [|discriminate]. apply andb_prop in E as [E1 E2]. apply Z.ltb_lt in E2. apply Z.leb_le in E1. intros H.
  assert (Hv : v' = firstn (Z.to_nat i) v ++ x :: skipn (S (Z.to_nat i)) v) by congruence. rewrite Hv, app_length, firstn_length. change (length (x :: skipn (S (Z.to_nat i)) v)) with (S (length (skipn (S (Z.to_nat i)) v))). rewrite skipn_length. lia.
Qed.
Lemma zVector_len sl bs nc nf f v : zVector 0%R sl bs nc nf f = Ok v -> length v = sl.
Proof.
  unfold zVector. apply (foldM_inv (fun v => length v = sl)); [|apply repeat_length]. intros b a b' Hb. apply (foldM_inv (fun v => length v = sl)); [|exact Hb].
  intros b1 a1 b1' H1 H. apply bind_inv in H as (x & _ & H). apply setAt_len in H. congruence.
Qed.
Lemma testVector_len sl nf x v : testVector 0%R sl nf x = Ok v -> length v = sl.
Proof.
  unfold testVector. apply (foldM_inv (fun v => length v = sl)); [|apply repeat_length]. intros b a b' Hb H. apply bind_inv in H as (y & _ & H). apply setAt_len in H. congruence.
Qed.
Lemma listOf_nth (n : nat) (f : Z -> R) i : 0 <= i < Z.of_nat n -> nth (Z.to_nat i) (listOf n f) 0%R = f i.
Proof.
  intros H. unfold listOf. rewrite (nth_mp (fun i => f (Z.of_nat i)) (seq 0 n) (Z.to_nat i) 0%nat) by (rewrite seq_length; lia). rewrite seq_nth by lia. cbn [Nat.add]. now rewrite Z2Nat.id by lia.
Qed.
Lemma listOf_len n (f : Z -> R) : length (listOf n f) = n.
Proof. unfold listOf. now rewrite map_length, seq_length. Qed.

(** * encryption of the inputs *)
Section E.
Context (pp : params) (Hpp : params_ok pp) (sc : f64) (Bs B : Z) (HBs : bound_ok pp Bs) (HB : bound_ok pp B) (encode : poly -> list R -> poly) (ee : R) (Henc : encoder_ok pp sc encode ee).
Context (u : runRnd) (HS : samples_ok pp Bs B u) (s : string -> zpoly) (ids : list string) (pk : pubkey) (is : idset).
Context (Hpk : exists e a, pk_is pp pk (s (pk_ID pk)) e a /\ pnorm_le (pa_N pp) e B) (Hs : pnorm_le (pa_N pp) (s (pk_ID pk)) Bs) (Hid : In (pk_ID pk) ids) (N0 : ~ In "0"%string ids) (His : forall x, In x (mkeys is) <-> In x ids).
Notation cp := (mkCkp pp sc).
Notation h := (pa_N pp / 2)%nat.
Notation ierr := (ierr pp Bs B ee).
Lemma hZ : Z.of_nat (pa_N pp) / 2 = Z.of_nat h. Proof. now rewrite Nat2Z.inj_div. Qed.
Lemma ee_le : (ee <= ierr)%R.
Proof.
  unfold SpecSetup.ierr. destruct HBs as [b1 _], HB as [b2 _]. assert (0 <= IZR (B * (1 + Z.of_nat (pa_N pp) * Bs + Z.of_nat (pa_N pp) * Bs)))%R by (apply (IZR_le 0); nia).
  pose proof (Rmult_le_pos _ _ (Rmult_le_pos 2 _ ltac:(lra) (pos_INR (pa_N pp))) H). lra.
Qed.
Lemma enc_new n msg en (m : Z -> R) : length msg = h -> (forall i, 0 <= i < Z.of_nat h -> nth (Z.to_nat i) msg 0%R = m i) -> encst_ok cp en -> exists ct en',
  (let '(a, e0, e1) := u_enc u n in EncryptMsgNew cp encode (u_eo u n) msg pk a e0 e1 en) = Ok (ct, en') /\ encst_ok cp en' /\ fresh pp sc s ids ierr m ct.
Proof.
  intros Hl Hm Hen. destruct (so_enc _ _ _ _ HS n) as (r1 & r2 & r3). destruct (u_enc u n) as [[a e0] e1]. cbn [fst snd] in *. destruct Hpk as (e & a' & K1 & K2).
  destruct (Henc msg Hl) as (_ & M & HM & HMs).
  destruct (encrypt_new_fresh pp Hpp sc encode msg pk s ids e a' a e0 e1 Bs Bs B M m ee HM) with (o := u_eo u n) (st := en) as (ct & en' & E & E1 & E2 & _); auto.
  - intros i Hi. rewrite <- Hm by (rewrite <- hZ; exact Hi). auto.
  - apply (so_eo _ _ _ _ HS).
  - exists ct, en'. auto.
Qed.
Lemma enc_all n msg en (m : Z -> R) : length msg = h -> (forall i, 0 <= i < Z.of_nat h -> nth (Z.to_nat i) msg 0%R = m i) -> encst_ok cp en -> exists ct en',
  (let '(a, e0, e1) := u_enc u n in EncryptMsgNewExpand cp encode (u_eo u n) msg pk is a e0 e1 en) = Ok (ct, en') /\ encst_ok cp en' /\ fresh pp sc s ids ierr m ct.
Proof.
  intros Hl Hm Hen. destruct (so_enc _ _ _ _ HS n) as (r1 & r2 & r3). destruct (u_enc u n) as [[a e0] e1]. cbn [fst snd] in *. destruct Hpk as (e & a' & K1 & K2).
  destruct (Henc msg Hl) as (_ & M & HM & HMs).
  destruct (encrypt_expand_fresh pp Hpp sc encode msg pk s ids e a' a e0 e1 Bs Bs B M m ee HM) with (o := u_eo u n) (idset := is) (st := en) as (ct & en' & E & E1 & E2 & _); auto.
  - intros i Hi. rewrite <- Hm by (rewrite <- hZ; exact Hi). auto.
  - apply (so_eo _ _ _ _ HS).
  - now apply His.
  - intros x. apply His.
  - exists ct, en'. auto.
Qed.
Lemma pt_held (f : Z -> R) : freshpt pp sc ierr f (EncodeMsgNew encode cp (listOf h f)).
Proof.
  destruct (Henc (listOf h f) (listOf_len h f)) as (H0 & M & HM & HMs). unfold EncodeMsgNew. cbn [cp_pp cp_scale]. split; [reflexivity|]. split; [apply H0|]. exists M. cbn [fst]. split.
  - apply HM. unfold ringPoly, plen, newPoly. cbn [p_co]. rewrite repeat_length. reflexivity.
  - intros i Hi. specialize (HMs i Hi). rewrite listOf_nth in HMs by (rewrite <- hZ; exact Hi). pose proof ee_le. lra.
Qed.
Lemma pts_held (l : list (Z -> R)) : Forall2 (freshpt pp sc ierr) l (map (fun f => EncodeMsgNew encode cp (listOf h f)) l).
Proof. induction l as [|f l IH]; constructor; [apply pt_held|exact IH]. Qed.
Lemma zeros_nth i : 0 <= i < Z.of_nat h -> nth (Z.to_nat i) (repeat 0%R h) 0%R = 0%R.
Proof. intros _. apply nth_repeat. Qed.
Lemma encrypt_inputs bs nc nf gn c0 c3 c13 etas feature label zv yv :
  zVector 0%R h bs nc nf feature = Ok zv -> labelVector 0%R h bs nc label = Ok yv ->
  exists i, lrEncrypt 0%R 1%R Rmult Rminus Ropp encode cp u pk is h bs nc nf gn c0 c3 c13 etas feature label = Ok i /\ encst_ok cp (in_en i) /\
    consts_held pp sc s ids ierr (vconst 0%R 1%R Rmult Rminus Ropp gn c0 c3 c13 etas (maskVector 0%R 1%R h nc) (ofList 0%R yv)) (in_K i) /\
    fresh pp sc s ids ierr (ofList 0%R zv) (in_z i) /\ fresh pp sc s ids ierr (fun _ => 0%R) (in_v i) /\ fresh pp sc s ids ierr (fun _ => 0%R) (in_beta i).
Proof.
  intros Ez Ey. unfold lrEncrypt. rewrite Ez, Ey. set (K := vconst 0%R 1%R Rmult Rminus Ropp gn c0 c3 c13 etas (maskVector 0%R 1%R h nc) (ofList 0%R yv)).
  destruct (enc_new 0 (repeat 0%R h) (NewEncryptor cp) (fun _ => 0%R) (repeat_length _ _) zeros_nth (NewEncryptor_ok cp)) as (beta & en1 & E1 & N1 & F1).
  destruct (enc_new 1 (repeat 0%R h) en1 (fun _ => 0%R) (repeat_length _ _) zeros_nth N1) as (v & en2 & E2 & N2 & F2).
  destruct (enc_all 2 zv en2 (ofList 0%R zv) (zVector_len _ _ _ _ _ _ Ez) (fun _ _ => eq_refl) N2) as (z & en3 & E3 & N3 & F3).
  destruct (enc_new 3 (listOf h (k_5 K)) en3 (k_5 K) (listOf_len _ _) (fun i Hi => listOf_nth h (k_5 K) i Hi) N3) as (c5 & en4 & E4 & N4 & F4).
  destruct (enc_new 4 (listOf h (k_9 K)) en4 (k_9 K) (listOf_len _ _) (fun i Hi => listOf_nth h (k_9 K) i Hi) N4) as (c9 & en5 & E5 & N5 & F5).
  rewrite E1. cbn [bind]. rewrite E2. cbn [bind]. rewrite E3. cbn [bind]. fold K. rewrite E4. cbn [bind]. rewrite E5. cbn [bind].
  eexists. split; [reflexivity|]. cbn [in_en in_K in_z in_v in_beta]. split; [exact N5|]. split; [|auto].
  constructor; cbn [k_mask k_1 k_2 k_3 k_4 k_5 k_6 k_7 k_8 k_9]; try apply pt_held; try apply pts_held; assumption.
Qed.
(** a list of encryptions *)
Lemma mapS_inv {St A B1 A1} (I : St -> Prop) (P : A1 -> B1 -> Prop) (rel : A -> A1) (f : A -> SM St B1) l : forall st, (forall a st, I st -> exists b st', f a st = Ok (b, st') /\ I st' /\ P (rel a) b) ->
  I st -> exists bs st', mapS f l st = Ok (bs, st') /\ I st' /\ Forall2 P (map rel l) bs.
Proof.
  induction l as [|a l IH]; intros st Hf Hst; cbn [mapS map].
  - exists [], st. split; [reflexivity|]. split; [exact Hst|constructor].
  - destruct (Hf a st Hst) as (b & st1 & E & H1 & HP). destruct (IH st1 Hf H1) as (bs & st2 & E2 & H2 & HPs). exists (b :: bs), st2. unfold sbind, sret. rewrite E. cbn [bind]. rewrite E2. cbn [bind]. split; [reflexivity|]. split; [exact H2|constructor; assumption].
Qed.
Lemma encrypt_batches nf mc nt bs gn c0 c3 c13 etas feature label batches :
  packBatches 0%R 1%R Rmult Rminus Ropp h nf nt bs gn c0 c3 c13 etas feature label = Ok batches ->
  exists i, lrBatchEncrypt 0%R 1%R Rmult Rminus Ropp encode cp u pk is h nf mc nt bs gn c0 c3 c13 etas feature label = Ok i /\ encst_ok cp (in_en i) /\
    consts_held pp sc s ids ierr (vconst 0%R 1%R Rmult Rminus Ropp gn c0 c3 c13 etas (maskVector 0%R 1%R h mc) (fun _ => 0%R)) (in_K i) /\
    batches_held pp sc s ids ierr batches (in_z i) /\ fresh pp sc s ids ierr (fun _ => 0%R) (in_v i) /\ fresh pp sc s ids ierr (fun _ => 0%R) (in_beta i).
Proof.
  intros Eb. unfold lrBatchEncrypt. rewrite Eb. set (K := vconst 0%R 1%R Rmult Rminus Ropp gn c0 c3 c13 etas (maskVector 0%R 1%R h mc) (fun _ => 0%R)).
  destruct (enc_new 0 (repeat 0%R h) (NewEncryptor cp) (fun _ => 0%R) (repeat_length _ _) zeros_nth (NewEncryptor_ok cp)) as (beta & en1 & E1 & N1 & F1).
  destruct (enc_new 1 (repeat 0%R h) en1 (fun _ => 0%R) (repeat_length _ _) zeros_nth N1) as (v & en2 & E2 & N2 & F2).
  rewrite E1. cbn [bind]. rewrite E2. cbn [bind].
  set (I := fun st : nat * encst => encst_ok cp (snd st)).
  match goal with |- context [mapS (mapS ?f)] => set (f0 := f) end.
  destruct (mapS_inv I (Forall2 (fun x y => fresh pp sc s ids ierr (fst (fst x)) (fst (fst y)) /\ freshpt pp sc ierr (snd (fst x)) (snd (fst y)) /\ Forall2 (freshpt pp sc ierr) (snd x) (snd y))) (fun b => b) (mapS f0) batches (2%nat, en2)) as (z & [n3 en3] & E3 & N3 & F3).
  { intros b st Hst. destruct (mapS_inv I (fun x y => fresh pp sc s ids ierr (fst (fst x)) (fst (fst y)) /\ freshpt pp sc ierr (snd (fst x)) (snd (fst y)) /\ Forall2 (freshpt pp sc ierr) (snd x) (snd y)) (fun c => c) f0 b st) as (bs' & st' & E & HI & HF).
    - intros [[zf c1] c2] [n en] Hen. unfold f0. cbn [fst snd]. destruct (enc_all n (listOf h zf) en zf (listOf_len _ _) (fun i Hi => listOf_nth h zf i Hi) Hen) as (ct & en' & E & Ne & Fe).
      rewrite E. cbn [bind]. eexists _, _. split; [reflexivity|]. split; [exact Ne|]. cbn [fst snd]. split; [exact Fe|]. split; [apply pt_held|apply pts_held].
    - exact Hst.
    - exists bs', st'. rewrite map_id in HF. auto. }
  { exact N2. }
  rewrite map_id in F3. unfold I in N3. cbn [snd] in N3. match type of E3 with _ = ?r => match goal with |- context [mapS (mapS f0) ?b ?s0] => assert (E3' : mapS (mapS f0) b s0 = r) by exact E3 end end. cbn [bind]. rewrite E3'. cbn [bind fst snd]. fold K.
  destruct (enc_new n3 (listOf h (k_5 K)) en3 (k_5 K) (listOf_len _ _) (fun i Hi => listOf_nth h (k_5 K) i Hi) N3) as (c5 & en4 & E4 & N4 & F4).
  destruct (enc_new (S n3) (listOf h (k_9 K)) en4 (k_9 K) (listOf_len _ _) (fun i Hi => listOf_nth h (k_9 K) i Hi) N4) as (c9 & en5 & E5 & N5 & F5).
  rewrite E4. cbn [bind]. rewrite E5. cbn [bind].
  eexists. split; [reflexivity|]. cbn [in_en in_K in_z in_v in_beta]. split; [exact N5|]. split; [|auto].
  constructor; cbn [k_mask k_1 k_2 k_3 k_4 k_5 k_6 k_7 k_8 k_9]; try apply pt_held; try apply pts_held; assumption.
Qed.
End E.

(** the common reference strings do not matter to what a ciphertext encrypts *)
Lemma encrypts_crs logN Q P psiQ psiP c s ids l sc m e ct : encrypts (PC logN Q P psiQ psiP 2 c) s ids l sc m e ct -> encrypts (bare logN Q P psiQ psiP) s ids l sc m e ct.
Proof. intros [e1 [k1 k2 k3] e3 e4 e5]. constructor; try assumption. constructor; assumption. Qed.
