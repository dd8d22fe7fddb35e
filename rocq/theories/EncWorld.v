(** Concrete cases for the encryption theorems, and the exact effect of foreign components and of the domain flag. *)
From Coq Require Import String ZArith Znumtheory List Lia Bool.
From Verif Require Import Spec SpecProofs Go GoProofs Lattigo LattigoProofs Arith NegRing NegRingProofs NTT NTTProofs F64 BasisExt BasisExtProofs RingOps RingOpsProofs Maps MapsProofs Params Elements KeySwitch KeySets KeyGen EncDec Repr KSProofs ParamsProofs Crt KeyGenProofs ParamsSpec SpecKeys Shipped KeySpec KeyWitness KeyThms SpecCt KSSem World SpecEnc EncProofs EncThms CkEncThms.
Import ListNotations.
Local Open Scope Z_scope.
Local Open Scope list_scope.

Section W.
Context (pp : params) (Hpp : params_ok pp).
Notation N := (pa_N pp).
Notation qq := (modulus (pa_Q pp)).
Let HN : (0 < N)%nat := deg_pos _.

Lemma ones_held l l' : (l' <= l < QCount pp)%nat -> held pp false (fun q => q + 1) l' (ones_poly pp l) (fun _ => 1).
Proof.
  intros Hl. unfold held, ones_poly. cbn [p_co]. split; [unfold QCount in Hl; cbn [r_mods ringQ]; lia|]. split; [rewrite repeat_length; lia|].
  intros j Hj. rewrite nth_rep by lia. split; [apply repeat_length|]. intros i Hi. cbn [r_N r_logN ringQ] in Hi. rewrite nth_rep by exact Hi.
  destruct (qbig pp Hpp j ltac:(lia)) as [Hq _]. unfold modulus in Hq. cbn [r_mods ringQ]. cbv beta. split; [lia|reflexivity].
Qed.
Lemma ones_ct_get l ids id p : sget (ones_ct pp l ids) id = Some p -> p = ones_poly pp l.
Proof.
  intros E. unfold ones_ct in E. remember ("0"%string :: ids) as K. clear - E. induction K as [|x K IH]; cbn in E; [discriminate|]. destruct (String.eqb id x); [now injection E as <-|auto].
Qed.
Lemma ones_ct_has l ids id : In id ("0"%string :: ids) -> sget (ones_ct pp l ids) id = Some (ones_poly pp l).
Proof.
  unfold ones_ct. remember ("0"%string :: ids) as K. clear. induction K as [|x K IH]; [intros []|]. cbn. intros [->|H]. { now rewrite String.eqb_refl. }
  destruct (String.eqb id x); auto.
Qed.
Lemma ones_ct_rep l ids : (l < QCount pp)%nat -> NoDup ("0"%string :: ids) -> ct_rep pp false l (ones_ct pp l ids) (fun _ _ => 1).
Proof.
  intros Hl Hnd. constructor; auto.
  - now rewrite ones_ct_keys.
  - exists (ones_poly pp l). split; [apply ones_ct_has; now left|apply repeat_length].
  - intros id p E. apply ones_ct_get in E as ->. split; [reflexivity|]. apply ones_held. lia.
Qed.

(** the decryption is the new message modulo q_j exactly when the foreign components cancel modulo q_j *)
Lemma foreign_iff A D ntt b l p V : held pp ntt b l p V -> V = padd A D ->
  ((exists b', held pp ntt b' l p A) <-> forall j, (j <= l)%nat -> peq N (qq j) D pzero).
Proof.
  intros H ->. split.
  - intros (b' & H') j Hj i Hi. pose proof (held_inj pp Hpp _ _ _ _ _ _ _ H' H j Hj i Hi) as X. unfold padd, pzero, cong in *.
    replace (D i - 0) with (-(A i - (A i + D i))) by lia. now apply Z.divide_opp_r.
  - intros HD. exists b. eapply (held_peq pp Hpp); [|exact H]. intros j Hj i Hi. specialize (HD j Hj i Hi). unfold padd, pzero, cong in *.
    replace (A i + D i - A i) with (D i - 0) by lia. exact HD.
Qed.
End W.

Lemma encrypt_foreign pp : params_ok pp -> forall pt pl M pk s e a u e0 e1 Bu B ct cl ntt F (S : string -> zpoly) ptOut po,
  enc_setting pp pt pl M pk s e a u e0 e1 Bu B ct cl ntt F -> plen ptOut = (po + 1)%nat -> S (pk_ID pk) = s ->
  exists ct' pt', let fresh := padd M (fresh_noise (pa_N pp) s e (smallpoly u) (smallpoly e0) (smallpoly e1)) in
    let old := psumL (fun x => pmul (pa_N pp) (S x) (F x)) (foreign ct (pk_ID pk)) in
    let l := Nat.min (Nat.min pl cl) po in
    mkeys ct' = mkeys ct /\ (forall x, In x (foreign ct (pk_ID pk)) -> sget ct' x = sget ct x) /\
    (forall pool, (QCount pp <= plen pool)%nat -> exists pool', Encrypt pp pt pk u e0 e1 ct pool = Ok (ct', pool') /\ plen pool' = plen pool) /\
    (forall o sks, order_ok o -> sks_ok pp S ct' sks -> (forall id, party ct' id -> has_key sks id) -> Decrypt pp o ct' sks ptOut = Ok pt') /\
    held pp ntt (fun q => q) l pt' (padd fresh old) /\
    ((exists b, held pp ntt b l pt' fresh) <-> forall j, (j <= l)%nat -> peq (pa_N pp) (modulus (pa_Q pp) j) old pzero).
Proof.
  intros Hpp pt pl M pk s e a u e0 e1 Bu B ct cl ntt F S ptOut po HS L E.
  destruct (enc_dec pp Hpp pt pl M pk s e a u e0 e1 Bu B ct cl ntt F S ptOut po HS L E) as (ct' & pt' & K1 & K2 & K3 & K4 & K5 & K6 & K7 & _).
  exists ct', pt'. cbv zeta. do 5 (split; [assumption|]). eapply foreign_iff; eauto.
Qed.

Lemma encrypt_fresh pp : params_ok pp -> forall pt pl M pk s e a u e0 e1 Bs Bu B ct cl ntt F ptOut po,
  enc_setting pp pt pl M pk s e a u e0 e1 Bu B ct cl ntt F -> foreign ct (pk_ID pk) = [] -> plen ptOut = (po + 1)%nat ->
  pnorm_le (pa_N pp) s Bs -> pnorm_le (pa_N pp) e B ->
  exists ct' pt' w, let l := Nat.min (Nat.min pl cl) po in
    (forall pool, (QCount pp <= plen pool)%nat -> exists pool', Encrypt pp pt pk u e0 e1 ct pool = Ok (ct', pool')) /\
    (forall o sks, order_ok o -> sks_ok pp (fun _ => s) ct' sks -> has_key sks (pk_ID pk) -> Decrypt pp o ct' sks ptOut = Ok pt') /\
    plen pt' = (l + 1)%nat /\ held pp ntt (fun q => q) l pt' (padd M w) /\
    pnorm_le (pa_N pp) w (B * (1 + Z.of_nat (pa_N pp) * Bu + Z.of_nat (pa_N pp) * Bs)) /\
    ((forall i, (i < pa_N pp)%nat -> 2 * (Z.abs (M i) + B * (1 + Z.of_nat (pa_N pp) * Bu + Z.of_nat (pa_N pp) * Bs)) < Ql pp l) ->
       centred_value pp l ntt pt' (padd M w)).
Proof.
  intros Hpp pt pl M pk s e a u e0 e1 Bs Bu B ct cl ntt F ptOut po HS Hf L Hs He.
  destruct (enc_dec pp Hpp pt pl M pk s e a u e0 e1 Bu B ct cl ntt F (fun _ => s) ptOut po HS L eq_refl) as (ct' & pt' & K1 & K2 & K3 & K4 & K5 & K6 & K7 & K8).
  exists ct', pt', (fresh_noise (pa_N pp) s e (smallpoly u) (smallpoly e0) (smallpoly e1)). cbv zeta.
  pose proof (fresh_bound pp s e u e0 e1 Bs Bu B Hs He (es_u _ _ _ _ _ _ _ _ _ _ _ _ _ _ _ _ _ HS) (es_e0 _ _ _ _ _ _ _ _ _ _ _ _ _ _ _ _ _ HS) (es_e1 _ _ _ _ _ _ _ _ _ _ _ _ _ _ _ _ _ HS)) as Hn.
  assert (HV : held pp ntt (fun q => q) (Nat.min (Nat.min pl cl) po) pt' (padd M (fresh_noise (pa_N pp) s e (smallpoly u) (smallpoly e0) (smallpoly e1)))).
  { eapply (held_peq pp Hpp); [|exact K7]. intros j Hj i Hi. rewrite Hf. unfold padd, pzero. cbn. unfold pzero. rewrite Z.add_0_r. reflexivity. }
  split. { intros pool Hp. destruct (K3 pool Hp) as (p' & E & _). eauto. }
  split. { intros o sks Ho Hk Hh. apply K4; auto. intros id [Hi Hz]. rewrite K1 in Hi. destruct (String.eqb_spec id (pk_ID pk)) as [->|Hne]; auto.
    exfalso. assert (X : In id (foreign ct (pk_ID pk))) by (apply foreign_in; auto). rewrite Hf in X. destruct X. }
  do 3 (split; [assumption|]). intros HB. eapply (centred_ok pp Hpp); [exact HV|]. intros i Hi. specialize (HB i Hi). specialize (Hn i Hi). unfold padd.
  pose proof (Z.abs_triangle (M i) (fresh_noise (pa_N pp) s e (smallpoly u) (smallpoly e0) (smallpoly e1) i)). lia.
Qed.

Lemma decrypt_exact pp : params_ok pp -> forall ntt l ct F s pl pt, ct_rep pp ntt l ct F -> plen pt = (pl + 1)%nat ->
  exists pt', p_ntt pt' = p_ntt pt /\ plen pt' = (Nat.min l pl + 1)%nat /\ held pp ntt (fun q => q) (Nat.min l pl) pt' (decryption pp s F ct) /\
    forall o sks, order_ok o -> sks_ok pp s ct sks ->
      ((forall id, party ct id -> has_key sks id) -> Decrypt pp o ct sks pt = Ok pt') /\
      ((exists id, party ct id /\ ~ has_key sks id) -> Decrypt pp o ct sks pt = Panic (PMsg "Cannot Decrypt: there is a missing secretkey")).
Proof. intros Hpp. intros. now apply Decrypt_ok. Qed.

(** shipped parameters, a generated public key of party "a", a plaintext and a container holding an old component of "b" *)
Lemma enc_world : exists pp sk pk s e a on, params_ok pp /\ pa_Q pp = shippedQ /\ pa_logN pp = 15%nat /\
  sk_is pp sk s /\ pnorm_le (pa_N pp) s 1 /\ pnorm_le (pa_N pp) e 19 /\
  forall pl cl ids, (pl < QCount pp)%nat -> (cl < QCount pp)%nat -> NoDup ("0"%string :: ids) -> In (pk_ID pk) ids ->
    enc_setting pp (ones_poly pp pl) pl (fun _ => 1) pk s e a on on on 1 19 (ones_ct pp cl ids) cl false (fun _ _ => 1).
Proof.
  destruct shipped_key_witness as (pp & sk & Hpp & HQ & HP & Hlog & Hgm & HB & Hsk & _ & Hcrs & _).
  assert (H0 : crs_is pp 0 (fun _ => pone)). { apply Hcrs. unfold crsIndices. cbn. auto. }
  assert (HB1 : bound_ok pp 1). { destruct HB as [_ HF]. split; [lia|]. revert HF. apply Forall_impl. intros q. lia. }
  assert (H19 : small_ok (pa_N pp) 19 (ones (pa_N pp))) by (apply ones_ok; lia). assert (H1 : small_ok (pa_N pp) 1 (ones (pa_N pp))) by (apply ones_ok; lia).
  destruct (GenPublicKey_ok pp Hpp sk _ _ _ 19 Hsk H0 HB H19) as (pk & _ & _ & K1 & _ & K0 & _).
  set (pk' := mkPk (pk_0 pk) (pk_1 pk) "a"%string).
  exists pp, sk, pk', (smallpoly (ones (pa_N pp))), (smallpoly (ones (pa_N pp))), (pscale W pone), (ones (pa_N pp)).
  do 4 (split; [assumption|]). split; [now apply smallpoly_norm|]. split; [now apply smallpoly_norm|].
  intros pl cl ids Hpl Hcl Hnd Hin. constructor; auto.
  - split; [auto|]. split; [apply repeat_length|]. apply ones_held; auto.
  - split; [exact K1|exact K0].
  - discriminate.
  - now rewrite ones_ct_keys.
  - exists (ones_poly pp cl). split; [apply ones_ct_has; now left|]. split; [apply repeat_length|reflexivity].
  - exists (ones_poly pp cl). split; [apply ones_ct_has; now right|]. unfold plen, ones_poly. cbn [p_co]. rewrite repeat_length. lia.
  - intros x p _ E. apply ones_ct_get in E as ->. split; [reflexivity|]. apply ones_held; auto. lia.
Qed.

(** the flag of the plaintext receiver is kept although the words are those of the ciphertext's domain *)
Definition one_ntt (pp : params) (l : nat) : ciphertext := [("0"%string, mkPoly true (repeat (repeat 1 (pa_N pp)) (l + 1)))].
Lemma domain_lemma pp : params_ok pp -> (2 <= pa_N pp)%nat -> forall l pt, (l < QCount pp)%nat -> plen pt = (l + 1)%nat -> p_ntt pt = false ->
  ct_rep pp true l (one_ntt pp l) (fun _ => pone) /\
  exists pt', (forall o s sks, order_ok o -> sks_ok pp s (one_ntt pp l) sks -> Decrypt pp o (one_ntt pp l) sks pt = Ok pt') /\
    p_ntt pt' = false /\ forall s b, ~ held pp (p_ntt pt') b l pt' (decryption pp s (fun _ => pone) (one_ntt pp l)).
Proof.
  intros Hpp H2 l pt Hl Lpt Hf.
  assert (HR : ct_rep pp true l (one_ntt pp l) (fun _ => pone)).
  { constructor; auto.
    - cbn. constructor; [intros []|constructor].
    - eexists. split; [reflexivity|]. unfold plen. cbn [p_co]. apply repeat_length.
    - intros id p E. unfold one_ntt, sget, mget in E. cbn in E. destruct (String.eqb id "0"); [|discriminate]. injection E as <-. split; [reflexivity|].
      unfold held. cbn [p_co]. split; [unfold QCount in Hl; cbn [r_mods ringQ]; lia|]. split; [rewrite repeat_length; lia|]. intros j Hj. rewrite nth_rep by lia.
      split; [apply repeat_length|]. intros i Hi. rewrite nth_rep by exact Hi. destruct (qbig pp Hpp j ltac:(lia)) as [Hq _]. unfold modulus in Hq. cbn [r_mods ringQ]. cbv beta. split; [lia|]. now rewrite nttf_one. }
  split; [exact HR|]. set (V := fun s => decryption pp s (fun _ => pone) (one_ntt pp l)).
  assert (HV : forall s i, (i < pa_N pp)%nat -> V s i = pone i).
  { intros s i Hi. unfold V, decryption, one_ntt. cbn [mkeys map fst psumL]. unfold padd, pzero. rewrite Z.add_0_r. change (secret s "0"%string) with pone.
    pose proof (pmul_const_l (pa_N pp) ltac:(lia) 0 1 pone i Hi) as X. unfold cong in X. apply Z.divide_0_l in X. unfold pscale, pone in *. lia. }
  destruct (Decrypt_ok pp Hpp true l (one_ntt pp l) (fun _ => pone) (fun _ => pone) l pt HR Lpt) as (pt' & F' & L' & Hh & HD).
  rewrite Nat.min_id in *. exists pt'. rewrite F', Hf. split; [|split; [reflexivity|]].
  - intros o s sks Ho [Hk1 Hk2]. refine (proj1 (HD o sks Ho _) _).
    + split; auto. intros id sk E. split; [now apply Hk2|]. intros [Hi Hz]. cbn in Hi. intuition congruence.
    + intros id [Hi Hz]. cbn in Hi. intuition congruence.
  - intros s b Hc. destruct Hh as (_ & _ & Hh). destruct Hc as (_ & _ & Hc). specialize (Hh 0%nat ltac:(lia)) as [_ Hh]. specialize (Hc 0%nat ltac:(lia)) as [_ Hc].
    specialize (Hh 1%nat H2) as [_ Hh]. specialize (Hc 1%nat H2) as [_ Hc].
    assert (E1 : nttf (r_logN (ringQ pp)) (psij (ringQ pp) 0) (V (fun _ => pone)) 1%nat = 1).
    { rewrite <- (nttf_one (r_logN (ringQ pp)) (psij (ringQ pp) 0) 1%nat). unfold nttf, peval. apply sumn_ext. intros i Hi. now rewrite HV by exact Hi. }
    fold (V (fun _ => pone)) in Hh. fold (V s) in Hc. rewrite E1 in Hh. rewrite HV in Hc by lia. cbn [pone pconst] in Hc.
    destruct (qbig pp Hpp 0%nat ltac:(lia)) as [Hq _]. unfold modulus in Hq. cbn [r_mods ringQ] in *.
    assert (X : cong (nth 0 (pa_Q pp) 0) 1 0) by (rewrite <- Hh; exact Hc). apply Z.divide_1_r_nonneg in X; lia.
Qed.
Lemma domain_refuted : exists pp ct F l pt pt', params_ok pp /\ ct_rep pp true l ct F /\ plen pt = (l + 1)%nat /\ p_ntt pt = false /\
  (forall o s sks, order_ok o -> sks_ok pp s ct sks -> Decrypt pp o ct sks pt = Ok pt') /\ p_ntt pt' = p_ntt pt /\
  forall s b, ~ held pp (p_ntt pt') b l pt' (decryption pp s F ct).
Proof.
  destruct shipped_key_witness as (pp & sk & Hpp & HQ & HP & Hlog & _).
  assert (H2 : (2 <= pa_N pp)%nat). { unfold pa_N, deg. rewrite Hlog. apply (Nat.pow_le_mono_r 2 1 15); lia. }
  assert (Hl : (0 < QCount pp)%nat) by (unfold QCount; rewrite HQ; cbn; lia).
  destruct (domain_lemma pp Hpp H2 0%nat (newPoly (pa_N pp) 1) Hl eq_refl eq_refl) as (HR & pt' & HD & Hf & Hn).
  exists pp, (one_ntt pp 0), (fun _ => pone), 0%nat, (newPoly (pa_N pp) 1), pt'. repeat (split; [assumption||reflexivity|]). exact Hn.
Qed.

(** keys and ciphertexts for decryption: two parties *)
Lemma dec_world : exists pp sks s, params_ok pp /\ pa_Q pp = shippedQ /\ mkeys sks = ["a"; "b"; "c"]%string /\
  forall l sc, (l < QCount pp)%nat -> sks_ok pp s (ones_ct pp l ["a"; "b"]%string) sks /\
    job_ok pp ((fun _ L => L), mkCk (ones_ct pp l ["a"; "b"]%string) sc, sks, l).
Proof.
  destruct shipped_key_witness as (pp & sk & Hpp & HQ & HP & Hlog & Hgm & HB & Hsk & _).
  set (k := fun id => mkSk (sk_val sk) id).
  exists pp, [("a", k "a"); ("b", k "b"); ("c", k "c")]%string, (fun _ => smallpoly (ones (pa_N pp))).
  do 3 (split; [auto|]). intros l sc Hl.
  assert (HK : sks_ok pp (fun _ => smallpoly (ones (pa_N pp))) (ones_ct pp l ["a"; "b"]%string) [("a", k "a"); ("b", k "b"); ("c", k "c")]%string).
  { split; [repeat constructor; cbn; intuition congruence|]. intros id x E. unfold sget, mget in E. cbn in E.
    destruct (String.eqb_spec id "a") as [H|_]; [injection E as <-; now subst id|]. destruct (String.eqb_spec id "b") as [H|_]; [injection E as <-; now subst id|].
    destruct (String.eqb_spec id "c") as [H|_]; [injection E as <-; now subst id|discriminate]. }
  split; [exact HK|]. split; [intros n L; reflexivity|]. exists (fun _ => smallpoly (ones (pa_N pp))), (fun _ _ => 1). split; [|split; [exact HK|]].
  - apply ones_ct_rep; auto. repeat constructor; cbn; intuition congruence.
  - intros id [Hi Hz]. cbn in Hi. unfold has_key. cbn. intuition.
Qed.
