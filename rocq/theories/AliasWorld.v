(** In-place conjugation with the shipped parameters: the result is wrong. *)
From Coq Require Import String ZArith Znumtheory List Lia Setoid Morphisms Bool Permutation Arith.
From Verif Require Import Spec SpecProofs Go GoProofs Lattigo Arith NegRing NegRingProofs NTT NTTProofs F64 RingOps Maps MapsProofs Params Elements KeySwitch KeySets KeyGen EncDec Evaluator Repr KSProofs KSMulProofs ParamsProofs SpecKeys KeyGenProofs KeySpec SpecCt KSSem SpecEnc EncProofs SpecEv EvThms AddThms MulEvThms SpecRot RaceWorld Shipped KeyWitness KeyThms World EvWorld SpecAlias Alias AliasProofs AliasConj.
Import ListNotations.
Local Open Scope Z_scope.
Local Open Scope list_scope.

(** c X in the component "0", zero in the component of party "a" *)
Definition xrow (N : nat) (c : Z) : list Z := 0 :: c :: repeat 0 (N - 2).
Definition xpoly (N l : nat) (c : Z) : poly := mkPoly false (repeat (xrow N c) (l + 1)).
Definition xct (N l : nat) (c : Z) : ciphertext := [("0"%string, xpoly N l c); ("a"%string, xpoly N l 0)].
Lemma xrow_nth N c x : nth x (xrow N c) 0 = if (x =? 1)%nat then c else 0.
Proof. destruct x as [|[|x]]; cbn; auto. apply nth_zeros. Qed.
Lemma xpoly_nth N l c j x : (j <= l)%nat -> nth x (nth j (p_co (xpoly N l c)) []) 0 = if (x =? 1)%nat then c else 0.
Proof. intros Hj. cbn [p_co xpoly]. rewrite nth_rep by lia. apply xrow_nth. Qed.
Lemma xct_ok pp l c : (2 <= pa_N pp)%nat -> (forall j, (j <= l)%nat -> 0 <= c <= modulus (pa_Q pp) j) -> ct_ok pp l (xct (pa_N pp) l c).
Proof.
  intros HN H. constructor.
  - cbn. repeat constructor; cbn; intuition congruence.
  - now left.
  - intros id p E. assert (exists b, p = xpoly (pa_N pp) l b /\ (b = c \/ b = 0)) as (b & -> & Hc).
    { unfold xct in E. cbn in E. destruct (String.eqb id "0"); [injection E as <-; eauto|]. destruct (String.eqb id "a"); [injection E as <-; eauto|discriminate]. }
    split; [reflexivity|]. unfold plen, xpoly. cbn [p_co]. rewrite repeat_length. split; [reflexivity|]. intros j Hj. rewrite nth_rep by lia. split. { unfold xrow. cbn. rewrite repeat_length. lia. }
    intros x Hx. rewrite xrow_nth. specialize (H j Hj). unfold modulus in *. destruct (x =? 1)%nat; [destruct Hc as [-> | ->]|]; lia.
Qed.
Lemma xct_party N l c id : party (xct N l c) id -> id = "a"%string.
Proof. intros [H1 H2]. cbn in H1. intuition congruence. Qed.

Lemma conj_at N A : (1 < N)%nat -> psigma N (-1) A 1%nat = - A (N - 1)%nat.
Proof.
  intros HN. assert (Ho : Z.Odd (-1)) by (exists (-1); reflexivity). assert (Hc : cong (2 * Z.of_nat N) (-1 * -1) 1) by reflexivity. pose proof (psigma_inv N 0 (-1) (-1) A ltac:(lia) Ho Hc 1%nat HN) as [t E].
  unfold sigma_inv, ext in E. change (-1 * Z.of_nat 1) with (-1) in E.
  assert (E1 : (-1) mod Z.of_nat N = Z.of_nat N - 1) by (symmetry; apply (Z.mod_unique _ _ (-1)); lia). assert (E2 : (-1) / Z.of_nat N = -1) by (symmetry; apply (Z.div_unique _ _ _ (Z.of_nat N - 1)); lia).
  rewrite E1, E2 in E. cbn [Z.even] in E. replace (Z.to_nat (Z.of_nat N - 1)) with (N - 1)%nat in E by lia. lia.
Qed.
(** two components, the second one zero modulo M *)
Lemma phase_zero N M s ct j : (0 < N)%nat -> mkeys ct = ["0"; "a"]%string -> peq N M (limb ct "a"%string j) pzero -> peq N M (phase N s ct j) (limb ct "0"%string j).
Proof.
  intros HN E H. unfold phase. rewrite E. cbn [psumL]. unfold secret. cbn [String.eqb Ascii.eqb Bool.eqb]. rewrite H, (pmul_one_l N M HN), (pmul_zero_r N M) by exact HN. intros i Hi. apply cong_eq. unfold padd, pzero. ring.
Qed.

Section G.
Context (env : kenv) (He : env_ok env).
Notation pp := (e_pp env).
Notation N := (pa_N pp).
Lemma conj_wrong g s Bs Be Dm l cks c : QCount pp = (l + 1)%nat -> (3 <= N)%nat -> let ct := xct N l c in rot_setting pp g s Bs Dm ct l -> conj_keys pp g Be s ct cks ->
  forall B, 0 < c < modulus (pa_Q pp) 0 -> step_noise pp l ct Bs Be Dm + B < bigP pp * c -> step_noise pp l ct Bs Be Dm + B < bigP pp * (modulus (pa_Q pp) 0 - c) ->
  forall o k, order_ok o -> pool_ok pp k -> exists ct' k', ConjugateAt env o None cks ct k = Ok (ct', k') /\ ~ auto_result pp s l ct (-1) B ct'.
Proof.
  intros Hm HN ct HS HK B Hc HB1 HB2 o k Ho Hk. destruct (conjugate_in_place env He g s Bs Be Dm ct l cks HS Hm HK) as (m & cout & (M1 & M2 & M3) & (R1 & _ & w & Hw & R3) & HA).
  destruct (HA o k Ho Hk) as (ct' & k' & E & _ & HSa). exists ct', k'. split; [exact E|]. intros (_ & _ & w' & Hw' & R'). clear E HA.
  specialize (R3 0%nat ltac:(lia)). specialize (R' 0%nat ltac:(lia)). set (q := modulus (pa_Q pp) 0) in *.
  assert (HN0 : (0 < N)%nat) by lia.
  assert (EP : peq N q (phase N s ct' 0) (phase N s cout 0)) by (apply (phase_same pp); exact HSa).
  assert (Km : mkeys m = ["0"; "a"]%string) by (rewrite M2; reflexivity).
  assert (Lc : forall x, limb ct "0"%string 0 x = if (x =? 1)%nat then c else 0) by (intros x; unfold limb, ct, xct; cbn [mget String.eqb Ascii.eqb Bool.eqb]; apply xpoly_nth; lia).
  assert (La : forall x, limb ct "a"%string 0 x = 0) by (intros x; unfold limb, ct, xct; cbn [mget String.eqb Ascii.eqb Bool.eqb]; rewrite xpoly_nth by lia; now destruct (x =? 1)%nat).
  assert (Pct : peq N q (phase N s ct 0) (limb ct "0"%string 0)). { apply phase_zero; auto. intros x Hx. rewrite La. reflexivity. }
  assert (Pm : peq N q (phase N s m 0) (limb m "0"%string 0)).
  { apply phase_zero; auto. intros x Hx. rewrite (M3 "a"%string 0%nat x) by (try lia; cbn; auto). rewrite !La. destruct (x <=? N / 2)%nat; [reflexivity|]. exists 1. unfold pzero. fold q. ring. }
  assert (HE : (N / 2 + N / 2 = N)%nat) by (apply (even_deg (pa_logN pp)); apply (ro_log _ (po_rQ _ (eo_pp _ He)))).
  assert (X1 : cong q (phase N s m 0 (N - 1)%nat) (- c)).
  { rewrite (Pm (N - 1)%nat ltac:(lia)). rewrite (M3 "0"%string 0%nat (N - 1)%nat) by (try lia; cbn; auto). rewrite Lc. destruct (Nat.leb_spec (N - 1) (N / 2)); [lia|]. rewrite Lc. destruct (Nat.eqb_spec (N - (N - 1)) 1); [|lia]. exists 1. fold q. ring. }
  assert (X2 : cong q (phase N s ct 0 (N - 1)%nat) 0). { rewrite (Pct (N - 1)%nat ltac:(lia)). rewrite Lc. destruct (Nat.eqb_spec (N - 1) 1); [lia|reflexivity]. }
  pose proof (conj_at N (phase N s m 0) ltac:(lia)) as C1. pose proof (conj_at N (phase N s ct 0) ltac:(lia)) as C2.
  specialize (R3 1%nat ltac:(lia)). specialize (R' 1%nat ltac:(lia)). specialize (EP 1%nat ltac:(lia)). unfold padd in R3, R'. rewrite C1 in R3. rewrite C2 in R'.
  specialize (Hw 1%nat ltac:(lia)). specialize (Hw' 1%nat ltac:(lia)). unfold pscale in Hw, Hw'.
  destruct R3 as [t1 R3], R' as [t2 R'], EP as [t3 EP], X1 as [t4 X1], X2 as [t5 X2].
  assert (F : w' 1%nat - w 1%nat = c + q * (t1 - t2 + t3 - t4 + t5)) by lia. set (t := t1 - t2 + t3 - t4 + t5) in *.
  set (P := bigP pp) in *. assert (HP : 0 < P) by (apply (bigP_pos _ He)). set (S := step_noise pp l ct Bs Be Dm) in *.
  assert (F1 : Z.abs (P * (c + q * t)) <= S + B) by (rewrite <- F, Z.mul_sub_distr_l; lia). clear - F1 HB1 HB2 HP Hc.
  destruct (Z_lt_le_dec t 0); [assert (P * (c + q * t) <= - (P * (q - c))) by nia|assert (P * c <= P * (c + q * t)) by nia]; lia.
Qed.
End G.

Lemma conj_world : exists env g s cks, env_ok env /\ pa_Q (e_pp env) = shippedQ /\ pa_P (e_pp env) = shippedP /\ pa_logN (e_pp env) = 15%nat /\ pa_gamma (e_pp env) = 2%nat /\
  let ct := xct (pa_N (e_pp env)) 20 (2 ^ 36) in rot_setting (e_pp env) g s 1 raceDm ct 20 /\ conj_keys (e_pp env) g 19 s ct cks.
Proof.
  destruct shipped_key_witness as (pp & sk & Hpp & HQ & HP & Hlog & Hgm & HB & Hsk & He & Hcrs & Hmh & (g & Hg) & Hps & _).
  set (env := fst (NewKeySwitcher (fun _ _ _ => false) pp)). assert (Henv : env_ok env) by (constructor; auto).
  assert (H2 : crs_is pp (-2) (fun _ => pone)). { apply Hcrs. unfold crsIndices. cbn. auto. }
  destruct (conj_key_lemma pp Hpp sk _ _ _ _ g _ Hsk H2 HB He Hg Hps) as (ck & pool' & _ & _ & _ & HK).
  exists env, g, (fun _ => smallpoly (KeyWitness.ones (pa_N pp))), [("a"%string, ck)]. change (e_pp env) with pp. do 5 (split; [auto|]). cbv zeta.
  assert (HN : (2 <= pa_N pp)%nat). { unfold pa_N. rewrite Hlog. apply Nat2Z.inj_le. rewrite deg_Z. change (2 ^ Z.of_nat 15) with 32768. lia. }
  split.
  - constructor.
    + apply xct_ok; [exact HN|]. intros j Hj. rewrite HQ. unfold modulus. assert (HF : Forall (fun q => 2 ^ 37 <= q) shippedQ) by (unfold shippedQ; repeat (constructor; [lia|]); constructor).
      assert (Hj' : (j < List.length shippedQ)%nat) by (cbn; lia). rewrite Forall_forall in HF. specialize (HF (nth j shippedQ 0) (nth_In _ _ Hj')). clear - HF. lia.
    + unfold QCount. rewrite HQ. cbn. lia.
    + exact Hg.
    + intros id _. apply smallpoly_norm, ones_ok. lia.
    + intros t Ht. unfold maxLevel, QCount in *. rewrite HQ in *. unfold Alpha, PCount in *. rewrite HP, Hgm in *.
      change (List.length shippedP / 2)%nat with 1%nat. change (List.length shippedQ - 1)%nat with 20%nat. unfold raceDm.
      assert (Ht' : (t < 21)%nat). { revert Ht. unfold Beta, Alpha, PCount. rewrite HP, Hgm. change (List.length shippedP / 2)%nat with 1%nat. change (List.length shippedQ - 1)%nat with 20%nat. intros Ht. eapply Nat.lt_le_trans; [exact Ht|]. vm_compute. lia. }
      clear - Ht'. do 21 (destruct t as [|t]; [vm_compute; discriminate|]). lia.
  - exists (fun _ => pone). split; [exact H2|]. intros id Hid. apply xct_party in Hid. subst id. exists ck. split; [reflexivity|].
    exists (fun t => smallpoly (KeyWitness.ones (pa_N pp))). split; [intros t Ht; apply smallpoly_norm; apply (He t Ht)|exact HK].
Qed.
Lemma conj_refuted : exists env g s Dm ct cks, env_ok env /\ pa_Q (e_pp env) = shippedQ /\ pa_P (e_pp env) = shippedP /\ pa_logN (e_pp env) = 15%nat /\
  rot_setting (e_pp env) g s 1 Dm ct 20 /\ conj_keys (e_pp env) g 19 s ct cks /\ step_noise (e_pp env) 20 ct 1 19 Dm <= bigP (e_pp env) * 2 ^ 17 /\
  forall o k, order_ok o -> pool_ok (e_pp env) k -> exists ct' k', ConjugateAt env o None cks ct k = Ok (ct', k') /\ ~ auto_result (e_pp env) s 20 ct (-1) (bigP (e_pp env) * 2 ^ 35) ct'.
Proof.
  destruct conj_world as (env & g & s & cks & He & HQ & HP & Hlog & Hgm & HS & HK). exists env, g, s, raceDm, (xct (pa_N (e_pp env)) 20 (2 ^ 36)), cks. do 6 (split; [auto|]).
  assert (EN : Z.of_nat (pa_N (e_pp env)) = 32768) by (unfold pa_N; rewrite deg_Z, Hlog; reflexivity).
  assert (HB : step_noise (e_pp env) 20 (xct (pa_N (e_pp env)) 20 (2 ^ 36)) 1 19 raceDm <= bigP (e_pp env) * 2 ^ 17).
  { unfold step_noise. change (nparties (xct (pa_N (e_pp env)) 20 (2 ^ 36))) with 1. unfold ks_noise. rewrite EN. assert (EB : Z.of_nat (Beta (e_pp env) 20) = 21). { unfold Beta, Alpha, PCount. rewrite HP, Hgm. vm_compute. reflexivity. }
    rewrite EB. unfold bigP. rewrite HP. change (prodZ shippedP) with 1267650605098172093278443405313. unfold raceDm. vm_compute. discriminate. }
  split; [exact HB|]. assert (HPp : 0 < bigP (e_pp env)) by (apply bigP_pos; exact He). assert (Eq : modulus (pa_Q (e_pp env)) 0 = 36028797019488257) by (rewrite HQ; reflexivity).
  apply (conj_wrong env He g s 1 19 raceDm 20 cks (2 ^ 36)); auto.
  - unfold QCount. rewrite HQ. reflexivity.
  - apply Nat2Z.inj_le. rewrite EN. lia.
  - rewrite Eq. lia.
  - assert (bigP (e_pp env) * 2 ^ 17 + bigP (e_pp env) * 2 ^ 35 < bigP (e_pp env) * 2 ^ 36) by nia. lia.
  - rewrite Eq. assert (bigP (e_pp env) * 2 ^ 17 + bigP (e_pp env) * 2 ^ 35 < bigP (e_pp env) * (36028797019488257 - 2 ^ 36)) by nia. lia.
Qed.
