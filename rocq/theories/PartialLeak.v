(** What a published partial decryption, or the raw decrypted polynomial, tells about the secrets. *)
From Coq Require Import String ZArith Znumtheory List Lia Setoid Morphisms Bool.
From Verif Require Import Spec SpecProofs Go GoProofs Lattigo LattigoProofs Arith NegRing NegRingProofs NTT NTTProofs F64 BasisExt RingOps RingOpsProofs Maps MapsProofs Params Elements KeySwitch KeySets KeyGen EncDec Repr KSProofs SpecCt SpecKeys KeySpec SpecEnc EncProofs EncThms EvProofs World Shipped KeyWitness KeyGenProofs KeyThms EncWorld.
Import ListNotations.
Local Open Scope Z_scope.
Local Open Scope list_scope.

Section T.
Context (pp : params) (Hpp : params_ok pp).
Notation N := (pa_N pp).
Notation rQ := (ringQ pp).
Notation qq := (modulus (pa_Q pp)).
Let HrQ : ring_ok rQ := po_rQ _ Hpp.
Let HN : (0 < N)%nat := deg_pos _.
Add Ring nring0 : (peq_ring N 0 HN) (setoid (peq_equiv N 0) (peq_ext N 0)).

Lemma cancel_inv j (D C s X : zpoly) : peq N (qq j) X (pmul N s C) -> peq N (qq j) (pmul N D C) (pconst 1) -> peq N (qq j) (pmul N D X) s.
Proof.
  intros HX HD. rewrite HX. transitivity (pmul N (pmul N D C) s). { apply peq_0. ring. }
  rewrite HD. rewrite pmul_const_l by exact HN. intros i Hi. apply cong_eq. unfold pscale. lia.
Qed.

Lemma ternary_read j (s X : zpoly) : (j < QCount pp)%nat -> peq N (qq j) X s -> pnorm_le N s 1 -> forall i, (i < N)%nat -> centred (qq j) (X i) = s i.
Proof.
  intros Hj HX Hs i Hi. pose proof (ring_q rQ j HrQ Hj) as [Ho Hq]. cbn [r_mods ringQ] in Ho, Hq. unfold modulus in *.
  apply centred_unique; [lia| |apply HX; exact Hi]. specialize (Hs i Hi).
  assert (nth j (pa_Q pp) 0 <> 2) by (intros E; rewrite E in Ho; discriminate). lia.
Qed.

(** a polynomial has an inverse modulo q_j exactly when none of its evaluations vanishes *)
Lemma inv_iff j (C : zpoly) : (j < QCount pp)%nat ->
  ((exists D, peq N (qq j) (pmul N D C) (pconst 1)) <-> forall i, (i < N)%nat -> ~ eqm (qq j) (nttf (pa_logN pp) (psij rQ j) C i) 0).
Proof.
  intros Hj. pose proof (ro_nm rQ HrQ j Hj) as Hnm. cbn [r_mods r_logN ringQ] in Hnm. unfold modulus. set (q := nth j (pa_Q pp) 0) in *. set (psi := nth j (r_psi rQ) 0) in *.
  pose proof (nm_ok _ _ _ Hnm) as [Ho Hq]. pose proof (nm_prime _ _ _ Hnm) as Hp.
  assert (H1 : forall i, (i < N)%nat -> cong q (nttf (pa_logN pp) psi (pconst 1) i) 1).
  { intros i Hi. unfold nttf, peval. rewrite (sumn_single (deg (pa_logN pp)) 0); [|exact HN|].
    - unfold pconst. cbn [Nat.eqb]. apply cong_eq. now rewrite Z.pow_0_r.
    - intros k Hk Hne. unfold pconst. destruct k; [lia|]. cbn [Nat.eqb]. lia. }
  split.
  - intros (D & HD) i Hi HE. apply eqm_cong in HE; [|lia].
    pose proof (nttf_peq _ _ psi _ _ i HD) as E. rewrite (nttf_mul _ _ _ Hnm), H1, HE in E by exact Hi. rewrite Z.mul_0_r in E. assert (Hd : (q | 1)) by (destruct E as [k Hk]; exists (- k); lia). apply Z.divide_1_r_nonneg in Hd; lia.
  - intros HC. set (l := map (fun i => ModExp (nttf (pa_logN pp) psi C i mod q) (q - 2) q) (seq 0 N)).
    exists (lpoly (InvNTT (pa_logN pp) q psi l)). apply (nttf_inj _ _ _ Hnm). intros i Hi. rewrite (nttf_mul _ _ _ Hnm), H1 by exact Hi.
    rewrite <- (nttf_surj _ _ _ Hnm l i Hi). unfold l. rewrite nth_map_seq by exact Hi.
    assert (Hm : 0 <= nttf (pa_logN pp) psi C i mod q < q) by (apply Z.mod_pos_bound; lia).
    transitivity (nttf (pa_logN pp) psi C i mod q * ModExp (nttf (pa_logN pp) psi C i mod q) (q - 2) q).
    { set (m := ModExp _ _ _). rewrite cong_mod by lia. apply cong_eq. ring. }
    apply inv_mod; auto; [split; auto|change W with (2 ^ 64); lia|].
    intros Hd. apply (HC i Hi). unfold eqm. rewrite Z.mod_0_l by lia. apply Z.mod_divide in Hd; [|lia]. rewrite Z.mod_mod in Hd by lia. exact Hd.
Qed.

Lemma partial_leak ntt l ct F sk s : ct_rep pp ntt l ct F -> party ct (sk_ID sk) -> sk_is pp sk s ->
  exists ct', PartialDecrypt pp ct sk = Ok ct' /\ (forall x, In x (mkeys ct') <-> In x (mkeys ct) /\ x <> sk_ID sk) /\
    forall c0 c0' A B b b', sget ct z0 = Some c0 -> sget ct' z0 = Some c0' -> held pp ntt b l c0 A -> held pp ntt b' l c0' B ->
    forall j, (j <= l)%nat -> let C := F (sk_ID sk) in
      peq N (qq j) (psub B A) (pmul N s C) /\
      ((exists D, peq N (qq j) (pmul N D C) (pconst 1)) <-> forall i, (i < N)%nat -> ~ eqm (qq j) (nttf (pa_logN pp) (psij rQ j) C i) 0) /\
      forall D, peq N (qq j) (pmul N D C) (pconst 1) -> peq N (qq j) (pmul N D (psub B A)) s /\
        (pnorm_le N s 1 -> forall i, (i < N)%nat -> centred (qq j) (pmul N D (psub B A) i) = s i).
Proof.
  intros Hc Hp Hs. destruct (PartialDecrypt_ok pp Hpp ntt l ct F sk s Hc Hp Hs) as (ct' & p0 & E & Hc' & K & G & H & _).
  exists ct'. split; [exact E|]. split; [exact K|]. intros c0 c0' A B b b' E0 E0' HA HB j Hj C. pose proof (cr_l _ _ _ _ _ Hc) as Hl.
  assert (HX : peq N (qq j) (psub B A) (pmul N s C)).
  { rewrite G in E0'. injection E0' as <-. pose proof (proj2 (cr_c _ _ _ _ _ Hc _ _ E0)) as H0.
    pose proof (held_inj pp Hpp _ _ _ _ _ _ _ HA H0 j Hj) as K1. pose proof (held_inj pp Hpp _ _ _ _ _ _ _ HB H j Hj) as K2. unfold modulus.
    rewrite K1, K2. apply peq_0. unfold C. ring. }
  split; [exact HX|]. split; [apply inv_iff; lia|]. intros D HD. pose proof (cancel_inv j D C s _ HX HD) as HS. split; [exact HS|]. intros Ht. apply ternary_read; auto. lia.
Qed.

(** two keys with the same published result have the same secret *)
Lemma partial_one_key ntt l ct F sk s sk2 s2 ct' ct2 j : ct_rep pp ntt l ct F -> party ct (sk_ID sk) -> sk_ID sk2 = sk_ID sk -> sk_is pp sk s -> sk_is pp sk2 s2 ->
  pnorm_le N s 1 -> pnorm_le N s2 1 -> (j <= l)%nat -> (forall i, (i < N)%nat -> ~ eqm (qq j) (nttf (pa_logN pp) (psij rQ j) (F (sk_ID sk)) i) 0) ->
  PartialDecrypt pp ct sk = Ok ct' -> PartialDecrypt pp ct sk2 = Ok ct2 ->
  ((forall p p2, sget ct' z0 = Some p -> sget ct2 z0 = Some p2 -> nth j (p_co p) [] = nth j (p_co p2) []) <-> forall i, (i < N)%nat -> s i = s2 i).
Proof.
  intros Hc Hp Hid Hs Hs2 Hn Hn2 Hj Hi E E2. pose proof (cr_l _ _ _ _ _ Hc) as Hl.
  destruct (PartialDecrypt_ok pp Hpp ntt l ct F sk s Hc Hp Hs) as (x & p0 & E' & _ & _ & G & H & _). rewrite E in E'. injection E' as <-.
  destruct (PartialDecrypt_ok pp Hpp ntt l ct F sk2 s2 Hc ltac:(now rewrite Hid) Hs2) as (x & p2 & E' & _ & _ & G2 & H2 & _). rewrite E2 in E'. injection E' as <-.
  rewrite Hid in H2. set (C := F (sk_ID sk)) in *. destruct (proj2 (inv_iff j C ltac:(lia)) Hi) as (D & HD).
  assert (HL : nth j (p_co p0) [] = nth j (p_co p2) [] <-> peq N (qq j) (padd (F z0) (pmul N s C)) (padd (F z0) (pmul N s2 C))).
  { pose proof (ring_q rQ j HrQ ltac:(cbn [r_mods ringQ]; unfold QCount in Hl; lia)) as [_ Hq]. cbn [r_mods ringQ] in Hq. unfold held in H, H2. unfold modulus.
    assert (KK : forall X Y, lrep N (nth j (pa_Q pp) 0) (nth j (pa_Q pp) 0) (nth j (p_co p0) []) X -> lrep N (nth j (pa_Q pp) 0) (nth j (pa_Q pp) 0) (nth j (p_co p2) []) Y ->
      (nth j (p_co p0) [] = nth j (p_co p2) [] <-> peq N (nth j (pa_Q pp) 0) X Y)).
    { intros X Y [LX WX] [LY WY]. split.
      - intros EE i Hii. destruct (WX i Hii) as [_ C1]. destruct (WY i Hii) as [_ C2]. rewrite <- C1, EE. exact C2.
      - intros EE. apply (nth_ext _ _ 0 0); [lia|]. intros i Hii. rewrite LX in Hii. destruct (WX i Hii) as [B1 C1]. destruct (WY i Hii) as [B2 C2].
        assert (CC : cong (nth j (pa_Q pp) 0) (nth i (nth j (p_co p0) []) 0) (nth i (nth j (p_co p2) []) 0)) by (rewrite C1, C2; now apply EE). destruct CC as [k Hk]. assert (k = 0) by nia. subst k. lia. }
    pose proof (ro_nm rQ HrQ j ltac:(cbn [r_mods ringQ]; unfold QCount in Hl; lia)) as Hnm. cbn [r_mods r_logN ringQ] in Hnm.
    destruct ntt; destruct H as (_ & _ & H); destruct H2 as (_ & _ & H2); specialize (H j ltac:(lia)); specialize (H2 j ltac:(lia)); rewrite (KK _ _ H H2); [|reflexivity].
    split; [intros EE; apply (nttf_inj _ _ _ Hnm); exact EE|intros EE i _; now apply nttf_peq]. }
  split.
  - intros HE. specialize (HE _ _ G G2). apply HL in HE.
    assert (HX : peq N (qq j) (pmul N s C) (pmul N s2 C)).
    { transitivity (psub (padd (F z0) (pmul N s C)) (F z0)); [apply peq_0; ring|]. rewrite HE. apply peq_0. ring. }
    intros i Hii. rewrite <- (ternary_read j s (pmul N D (pmul N s C)) ltac:(lia) (cancel_inv j D C s _ (reflexivity _) HD) Hn i Hii).
    apply (ternary_read j s2); auto; [lia|]. now apply (cancel_inv j D C).
  - intros HE q p Eq Ep. rewrite G in Eq. rewrite G2 in Ep. injection Eq as <-. injection Ep as <-. apply HL.
    assert (HS : peq N (qq j) s s2) by (intros i Hii; apply cong_eq; now apply HE). now rewrite HS.
Qed.

Lemma psumL_split M (G : string -> zpoly) id : forall L, NoDup L -> In id L ->
  peq N M (psumL G L) (padd (G id) (psumL G (filter (fun x => negb (String.eqb x id)) L))).
Proof.
  induction L as [|a L IH]; [intros _ []|]. intros Hnd Hin. apply NoDup_cons_iff in Hnd as [Ha Hnd]. cbn [psumL filter].
  destruct (String.eqb_spec a id) as [->|Hne]; cbn [negb].
  - replace (filter (fun x => negb (String.eqb x id)) L) with L; [reflexivity|]. clear - Ha. induction L as [|b L IH]; [reflexivity|]. cbn [filter].
    destruct (String.eqb_spec b id) as [->|]; [exfalso; apply Ha; now left|]. cbn [negb]. f_equal. apply IH. intros H. apply Ha. now right.
  - destruct Hin as [->|Hin]; [congruence|]. rewrite (IH Hnd Hin). cbn [psumL]. apply peq_0. ring.
Qed.

(** the raw polynomial Decrypt writes, with the secrets of the other parties *)
Lemma raw_leak ntt l ct F s pl pt id : ct_rep pp ntt l ct F -> plen pt = (pl + 1)%nat -> party ct id ->
  exists pt', (forall o sks, order_ok o -> sks_ok pp s ct sks -> (forall x, party ct x -> has_key sks x) -> Decrypt pp o ct sks pt = Ok pt') /\
    forall V b j, held pp ntt b (Nat.min l pl) pt' V -> (j <= Nat.min l pl)%nat ->
    let X := psub V (psumL (fun x => pmul N (secret s x) (F x)) (filter (fun x => negb (String.eqb x id)) (mkeys ct))) in
    peq N (qq j) X (pmul N (s id) (F id)) /\
    forall D, peq N (qq j) (pmul N D (F id)) (pconst 1) -> peq N (qq j) (pmul N D X) (s id) /\
      (pnorm_le N (s id) 1 -> forall i, (i < N)%nat -> centred (qq j) (pmul N D X i) = s id i).
Proof.
  intros Hc Hpl [Hin Hid]. destruct (decrypt_exact pp Hpp ntt l ct F s pl pt Hc Hpl) as (pt' & _ & _ & H & HD). pose proof (cr_l _ _ _ _ _ Hc) as Hl.
  exists pt'. split; [intros o sks Ho Hsk Hall; now apply HD|]. intros V b j HV Hj X.
  assert (HX : peq N (qq j) X (pmul N (s id) (F id))).
  { pose proof (held_inj pp Hpp _ _ _ _ _ _ _ HV H j Hj) as K. unfold X, modulus. rewrite K. unfold decryption.
    rewrite (psumL_split _ _ id (mkeys ct) (cr_nd _ _ _ _ _ Hc) Hin). unfold secret at 1. destruct (String.eqb_spec id z0); [congruence|]. apply peq_0. ring. }
  split; [exact HX|]. intros D HD'. pose proof (cancel_inv j D _ _ _ HX HD') as HS. split; [exact HS|]. intros Ht. apply ternary_read; auto. lia.
Qed.
End T.

(** 1 + X + ... + X^(N-1) has an inverse modulo every odd prime of the chain *)
Lemma ones_unit pp : params_ok pp -> forall j i, (j < QCount pp)%nat -> (i < pa_N pp)%nat -> ~ eqm (modulus (pa_Q pp) j) (nttf (pa_logN pp) (psij (ringQ pp) j) (fun _ => 1) i) 0.
Proof.
  intros Hpp j i Hj Hi HE. pose proof (ro_nm _ (po_rQ _ Hpp) j Hj) as Hnm. cbn [r_mods r_logN ringQ] in Hnm. unfold modulus in HE. set (q := nth j (pa_Q pp) 0) in *. set (psi := psij (ringQ pp) j) in *.
  pose proof (nm_ok _ _ _ Hnm) as [Ho Hq]. pose proof (point_root _ _ _ Hnm i) as Hr. apply eqm_cong in HE; [|lia]. unfold nttf, peval in HE. set (w := point (pa_logN pp) psi i) in *.
  pose proof (geom (deg (pa_logN pp)) w) as G. rewrite (sumn_ext _ (fun k => 1 * w ^ Z.of_nat k) (fun k => w ^ Z.of_nat k)) in HE by (intros; apply Z.mul_1_l).
  set (S := sumn _ _) in *. destruct HE as [a Ha]. destruct Hr as [b Hb]. assert (HD : (q | 2)) by (exists (b - (w - 1) * a); nia).
  apply Z.divide_pos_le in HD; [|lia]. assert (Eq : q = 2) by lia. rewrite Eq in Ho. discriminate.
Qed.
Lemma leak_world : exists pp sk s, params_ok pp /\ pa_Q pp = shippedQ /\ pa_logN pp = 15%nat /\ sk_ID sk = "a"%string /\ sk_is pp sk s /\ pnorm_le (pa_N pp) s 1 /\ ~ peq (pa_N pp) 0 s pzero /\
  forall l, (l < QCount pp)%nat -> ct_rep pp false l (ones_ct pp l ["a"; "b"]%string) (fun _ _ => 1) /\ party (ones_ct pp l ["a"; "b"]%string) "a" /\
    forall j i, (j <= l)%nat -> (i < pa_N pp)%nat -> ~ eqm (modulus (pa_Q pp) j) (nttf (pa_logN pp) (psij (ringQ pp) j) (fun _ => 1) i) 0.
Proof.
  destruct shipped_key_witness as (pp & sk & Hpp & HQ & HP & Hlog & Hgm & HB & Hsk & _).
  exists pp, (mkSk (sk_val sk) "a"%string), (smallpoly (ones (pa_N pp))). do 3 (split; [assumption|]). split; [reflexivity|]. split; [exact Hsk|].
  assert (H1 : small_ok (pa_N pp) 1 (ones (pa_N pp))) by (apply ones_ok; lia). split; [now apply smallpoly_norm|]. split.
  - intros H. specialize (H 0%nat (deg_pos _)). unfold smallpoly, ones, pzero in H. rewrite nth_rep in H by apply deg_pos. destruct H as [k Hk]. lia.
  - intros l Hl. split; [apply ones_ct_rep; auto; repeat constructor; cbn; intuition congruence|]. split.
    + split; [rewrite ones_ct_keys; cbn; auto|discriminate].
    + intros j i Hj Hi. apply ones_unit; auto. lia.
Qed.
