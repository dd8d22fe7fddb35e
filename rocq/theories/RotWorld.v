(** Default rotation keys, the permutation loop in full, and concrete cases for rotations. *)
From Coq Require Import ZArith Znumtheory Lia Bool String List.
From Verif Require Import EvThms LattigoProofs Spec SpecProofs Go GoProofs Arith NegRing NegRingProofs NTT NTTProofs RingOps RingOpsProofs Maps MapsProofs F64 BasisExt Params Elements KeySwitch KeySets KeyGen EncDec Utils Evaluator Repr KSProofs ParamsProofs ParamsSpec Galois SpecKeys KeyGenProofs KeySpec KeyWitness KeyThms SpecCt KSSem SpecEnc EncWorld SpecEv SpecRot SpecSlots SlotThms RotProofs RotThms ConjThms RotEvThms Shipped World EvProofs EvWorld.
Import ListNotations.
Local Open Scope Z_scope.

(** * GenDefaultRotationKeys *)
Definition keyat (rks : rotset) (id : string) (ix : Z) : option rotkey := match sget rks id with Some m => zget m ix | None => None end.
Lemma keyat_add rks rk id ix : keyat (AddRotationKey rks rk) id ix = if (string_dec id (rk_ID rk)) then if Z.eq_dec ix (rk_idx rk) then Some rk else keyat rks id ix else keyat rks id ix.
Proof.
  unfold keyat, AddRotationKey. destruct (string_dec id (rk_ID rk)) as [->|H].
  - rewrite (mget_mset_same _ seqb). destruct (Z.eq_dec ix (rk_idx rk)) as [->|H].
    + now rewrite (mget_mset_same _ zeqb).
    + rewrite (mget_mset_other _ zeqb) by auto. now destruct (sget rks (rk_ID rk)).
  - now rewrite (mget_mset_other _ seqb) by auto.
Qed.
Section D.
Context (pp : params) (Hpp : params_ok pp).
Notation N := (pa_N pp).
Notation n2 := (pa_logN pp - 1)%nat.
Context (g : nat -> Z) (Hg : gadget pp g) (B : Z) (HB : bound_ok pp B) (s : string -> zpoly).
Context (A : nat -> nat -> zpoly) (HA : forall i, (i < n2)%nat -> crs_is pp (2 ^ Z.of_nat i) (A i)).
Definition gi (i : nat) : Z := galInverse (pa_logN pp) (5 ^ (2 ^ Z.of_nat i)).
Definition good (rks : rotset) (id : string) (i : nat) : Prop :=
  exists rk, keyat rks id (2 ^ Z.of_nat i) = Some rk /\ swkey_valid pp g (A i) B (psigma N (gi i) (s id)) (s id) (rk_val rk).
Lemma logN1 : (1 <= pa_logN pp)%nat.
Proof. pose proof (ro_log _ (po_rQ _ Hpp)) as X; cbn in X; lia. Qed.
Lemma five_pow_odd k : 0 <= k -> Z.Odd (5 ^ k).
Proof. intros Hk. apply odd_powZ; [exists 2; reflexivity|auto]. Qed.
Lemma gi_ok i : Z.Odd (gi i) /\ cong (2 * Z.of_nat N) (5 ^ (2 ^ Z.of_nat i) * gi i) 1.
Proof.
  assert (Ho : Z.Odd (5 ^ (2 ^ Z.of_nat i))) by (apply five_pow_odd; lia).
  destruct (galInverse_ok (pa_logN pp) _ Ho) as (_ & H1 & H2). split; [exact H1|exact H2].
Qed.
Lemma crs_mhas ix Ax : crs_is pp ix Ax -> mhas Z.eqb (pa_CRS pp) ix = true.
Proof.
  intros (v & E & _). unfold getCRS, mptr in E. unfold mhas. destruct (mget Z.eqb (pa_CRS pp) ix); [reflexivity|discriminate].
Qed.
Lemma gen_one sk es : sk_is pp sk (s (sk_ID sk)) -> (forall ix, errs_ok pp B (es ix)) -> forall L rks pool, (forall i, In i L -> (i < n2)%nat) -> pshp pp pool ->
  exists rks' pool', foldM (fun '(rks, poolQ) ix => let* (rk, poolQ) := GenRotationKey pp ix sk (es ix) poolQ in Ok (AddRotationKey rks rk, poolQ)) (map (fun i => 2 ^ Z.of_nat i) L) (rks, pool) = Ok (rks', pool') /\
    pshp pp pool' /\ (forall i, In i L -> good rks' (sk_ID sk) i) /\ (forall id i, good rks id i -> good rks' id i) /\
    (forall id ix, keyat rks' id ix <> None -> keyat rks id ix <> None \/ exists i, In i L /\ ix = 2 ^ Z.of_nat i).
Proof.
  intros Hsk He. induction L as [|i L IH]; intros rks pool HL Hp.
  - exists rks, pool. cbn. split; [auto|]. split; [auto|]. split; [intros i []|]. split; auto.
  - assert (Hi : (i < n2)%nat) by (apply HL; now left).
    assert (Hnn : 2 ^ Z.of_nat i = normNeg (pa_logN pp) (2 ^ Z.of_nat i)). { unfold normNeg. destruct (Z.ltb_spec (2 ^ Z.of_nat i) 0); [lia|reflexivity]. }
    destruct (gi_ok i) as [G1 G2].
    destruct (rot_key_lemma pp Hpp (2 ^ Z.of_nat i) (2 ^ Z.of_nat i) (gi i) sk (s (sk_ID sk)) (A i) (es (2 ^ Z.of_nat i)) B g pool) as (rk & pool1 & E & E1 & E2 & P1 & K); auto.
    { eapply crs_mhas. now apply HA. }
    assert (Hgood : forall r, keyat r (sk_ID sk) (2 ^ Z.of_nat i) = Some rk -> good r (sk_ID sk) i).
    { intros r Hr. exists rk. split; [exact Hr|]. exists (fun t => smallpoly (es (2 ^ Z.of_nat i) t)). split; [|exact K]. intros t Ht. apply smallpoly_norm. now apply He. }
    destruct (IH (AddRotationKey rks rk) pool1) as (rks' & pool' & F & P' & I1 & I2 & I3); [intros; apply HL; now right|auto|].
    exists rks', pool'. split; [cbn [map foldM]; rewrite E; cbn [bind]; exact F|]. split; [auto|].
    assert (Hnew : good (AddRotationKey rks rk) (sk_ID sk) i).
    { apply Hgood. rewrite keyat_add, E1, E2. destruct (string_dec (sk_ID sk) (sk_ID sk)); [|congruence]. now destruct (Z.eq_dec (2 ^ Z.of_nat i) (2 ^ Z.of_nat i)). }
    split; [|split].
    + intros i' [<-|Hin]; [|now apply I1]. now apply I2.
    + intros id i' Hgd. apply I2. destruct (string_dec id (sk_ID sk)) as [->|Hne].
      * destruct (Nat.eq_dec i' i) as [->|Hne]; [exact Hnew|]. destruct Hgd as (r & Hr & Hv). exists r. split; [|exact Hv]. rewrite keyat_add, E1, E2. destruct (string_dec _ _); [|congruence].
        destruct (Z.eq_dec (2 ^ Z.of_nat i') (2 ^ Z.of_nat i)) as [Ee|]; [|exact Hr]. apply Z.pow_inj_r in Ee; lia.
      * destruct Hgd as (r & Hr & Hv). exists r. split; [|exact Hv]. rewrite keyat_add, E1. destruct (string_dec id (sk_ID sk)); [congruence|exact Hr].
    + intros id ix Hk. destruct (I3 id ix Hk) as [H|(j & Hj & ->)]; [|right; exists j; split; [now right|reflexivity]].
      rewrite keyat_add, E2 in H. destruct (string_dec id (rk_ID rk)); [|now left]. destruct (Z.eq_dec ix (2 ^ Z.of_nat i)) as [->|]; [right; exists i; split; [now left|reflexivity]|now left].
Qed.
Lemma gen_all : forall parties rks pool, generators_ok pp s B parties -> pshp pp pool ->
  exists rks' pool', genDefaultAll pp parties rks pool = Ok (rks', pool') /\ pshp pp pool' /\
    (forall sk es i, In (sk, es) parties -> (i < n2)%nat -> good rks' (sk_ID sk) i) /\ (forall id i, good rks id i -> good rks' id i) /\
    (forall id ix, keyat rks' id ix <> None -> keyat rks id ix <> None \/ exists i, (i < n2)%nat /\ ix = 2 ^ Z.of_nat i).
Proof.
  unfold genDefaultAll. induction parties as [|[sk es] L IH]; intros rks pool Hgen Hp.
  - exists rks, pool. cbn. split; [auto|]. split; [auto|]. split; [intros sk es i []|]. split; auto.
  - destruct (Hgen sk es (or_introl eq_refl)) as [Hsk He].
    destruct (gen_one sk es Hsk He (seq 0 n2) rks pool) as (r1 & p1 & E & P1 & I1 & I2 & I3); [intros i Hi; apply in_seq in Hi; lia|auto|].
    destruct (IH r1 p1) as (r2 & p2 & F & P2 & J1 & J2 & J3); [intros k e Hin; apply Hgen; now right|auto|].
    exists r2, p2. assert (E' : GenDefaultRotationKeys pp sk es rks pool = Ok (r1, p1)) by exact E. split; [cbn [foldM]; rewrite E'; exact F|]. split; [auto|]. split; [|split].
    + intros k e i [[= <- <-]|Hin] Hi; [|now apply (J1 k e)]. apply J2, I1, in_seq. lia.
    + intros id i H. now apply J2, I2.
    + intros id ix H. destruct (J3 id ix H) as [H1|H1]; [|now right]. destruct (I3 id ix H1) as [H2|(i & Hi & ->)]; [now left|]. right. exists i. split; [apply in_seq in Hi; lia|reflexivity].
Qed.
Lemma good_keys rks ct i : (i < n2)%nat -> (forall id, party ct id -> good rks id i) -> rot_keys pp g B s ct (2 ^ Z.of_nat i) rks.
Proof.
  intros Hi H. exists (A i), (gi i). destruct (gi_ok i) as [G1 G2]. split; [now apply HA|]. split; [auto|]. split; [auto|]. intros id Hid. destruct (H id Hid) as (rk & Hk & Hv). unfold keyat in Hk. destruct (sget rks id) as [m|] eqn:E; [|discriminate]. eauto.
Qed.
End D.
Lemma default_keys pp g B s parties pool : params_ok pp -> gadget pp g -> bound_ok pp B -> powers_crs pp -> generators_ok pp s B parties -> pshp pp pool ->
  forall rks, exists rks' pool', genDefaultAll pp parties rks pool = Ok (rks', pool') /\ pshp pp pool' /\
    (forall ct i, covered parties ct -> 0 <= i < Z.of_nat (pa_logN pp) - 1 -> rot_keys pp g B s ct (2 ^ i) rks') /\
    (forall id m ix rk, sget rks' id = Some m -> zget m ix = Some rk -> (forall m0, sget rks id = Some m0 -> zget m0 ix = None) -> exists i, 0 <= i < Z.of_nat (pa_logN pp) - 1 /\ ix = 2 ^ i).
Proof.
  intros Hpp Hg HB HC Hgen Hp rks.
  destruct (choose_fun (fun _ => pzero) (pa_logN pp - 1)%nat (fun i => crs_is pp (2 ^ Z.of_nat i))) as [A HA]; [intros i Hi; apply HC; lia|].
  destruct (gen_all pp Hpp g Hg B HB s A HA parties rks pool Hgen Hp) as (r & p & E & P & I1 & _ & I3). exists r, p. split; [auto|]. split; [auto|]. split.
  - intros ct i Hc Hi. rewrite <- (Z2Nat.id i) by lia. apply (good_keys pp g B s A HA); [lia|]. intros id Hid. destruct (Hc id Hid) as (sk & es & Hin & <-). apply (I1 sk es); [auto|lia].
  - intros id m ix rk Em Ek H0. destruct (I3 id ix) as [H|(i & Hi & ->)].
    + unfold keyat. rewrite Em, Ek. discriminate.
    + exfalso. apply H. unfold keyat. destruct (sget rks id) as [m0|] eqn:E0; [now apply H0|reflexivity].
    + exists (Z.of_nat i). split; [lia|reflexivity].
Qed.

(** * The permutation loop *)
Lemma cong_mod_eq n a b : n <> 0 -> cong n a b -> a mod n = b mod n.
Proof. intros Hn H. now apply (eqm_cong n a b Hn). Qed.
Lemma permute_bij logN g : (1 <= logN)%nat -> Z.Odd g -> forall m, 0 <= m < Z.of_nat (deg logN) ->
  exists i, (0 <= i < Z.of_nat (deg logN) /\ (i * g) mod Z.of_nat (deg logN) = m) /\
    forall i', 0 <= i' < Z.of_nat (deg logN) -> (i' * g) mod Z.of_nat (deg logN) = m -> i' = i.
Proof.
  intros Hl Ho m Hm. set (n := Z.of_nat (deg logN)) in *. destruct (galInverse_ok logN g Ho) as (_ & _ & Hc). set (g' := galInverse logN g) in *.
  assert (Hgn : cong n (g * g') 1). { destruct Hc as [u Hu]. exists (2 * u). rewrite Hu. fold n. ring. }
  assert (Hn : 0 < n) by lia. exists ((g' * m) mod n). pose proof (Z.mod_pos_bound (g' * m) n Hn) as Hb. split; [split; [exact Hb|]|].
  - rewrite <- (Z.mod_small m n) at 2 by lia. apply cong_mod_eq; [lia|]. rewrite (cong_mod n (g' * m)) by lia. transitivity (g * g' * m); [apply cong_eq; ring|]. rewrite Hgn. apply cong_eq; ring.
  - intros i' Hi' E. rewrite <- (Z.mod_small i' n) by lia. apply cong_mod_eq; [lia|]. rewrite <- E. rewrite (cong_mod n (i' * g)) by lia. symmetry. transitivity (g * g' * i'); [apply cong_eq; ring|]. rewrite Hgn. apply cong_eq; ring.
Qed.
Lemma permute_auto logN g q x old A : (1 <= logN <= 30)%nat -> 1 < q -> q < W -> 0 <= g < 2 * Z.of_nat (deg logN) -> Z.Odd g -> length old = deg logN ->
  lrep (deg logN) q (q + 1) x A -> lrep (deg logN) q (q + 1) (permute_limb logN g q x old) (psigma (deg logN) g A).
Proof.
  intros HL Hq HqW Hg Ho Hold Hx. destruct (galInverse_ok logN g Ho) as (_ & _ & Hc).
  destruct (permute_limb_lrep logN g (galInverse logN g) q (q + 1) x old A) as [L H]; auto; [lia|]. split; [exact L|]. intros i Hi. destruct (H i Hi) as [H1 H2]. split; [exact H1|]. rewrite H2.
  pose proof (psigma_inv (deg logN) q g (galInverse logN g) A (deg_pos logN) Ho Hc) as P. symmetry. now apply P.
Qed.
Lemma permute_fresh logN g q x old old' : (1 <= logN <= 30)%nat -> 0 <= g < 2 * Z.of_nat (deg logN) -> Z.Odd g -> length old = deg logN -> length old' = deg logN ->
  permute_limb logN g q x old = permute_limb logN g q x old'.
Proof. intros HL Hg Ho H1 H2. destruct (galInverse_ok logN g Ho) as (_ & _ & Hc). eapply permute_limb_old; eauto. Qed.
Lemma permute_q logN g q old : (1 <= logN <= 30)%nat -> 1 < q -> q < W -> 1 < g < 2 * Z.of_nat (deg logN) -> Z.Odd g -> length old = deg logN ->
  exists m, (m < deg logN)%nat /\ nth m (permute_limb logN g q (repeat 0 (deg logN)) old) 0 = q.
Proof.
  intros HL Hq HqW Hg Ho Hold. destruct (galInverse_ok logN g Ho) as (_ & _ & Hc). set (g' := galInverse logN g) in *.
  destruct (permute_limb_nth logN g g' q (repeat 0 (deg logN)) old) as [_ HN]; auto; [lia|].
  set (n := Z.of_nat (deg logN)) in *. pose proof (deg_pos logN) as HNp. assert (Hn : 0 < n) by lia.
  assert (HI : exists i, 0 <= i < n /\ n <= i * g < 2 * n).
  { destruct (Z_le_gt_dec n g) as [H|H].
    - exists 1. split; [|lia]. assert (2 <= n). { unfold n, deg. rewrite Nat2Z.inj_pow. change (Z.of_nat 2) with 2. change 2 with (2 ^ 1) at 1. apply Z.pow_le_mono_r; lia. } lia.
    - exists ((n - 1) / g + 1). pose proof (Z.div_mod (n - 1) g ltac:(lia)) as D. pose proof (Z.mod_pos_bound (n - 1) g ltac:(lia)) as Mb. set (d := (n - 1) / g) in *. set (r := (n - 1) mod g) in *.
      assert (0 <= d) by (unfold d; apply Z.div_pos; lia). split; [split; [lia|]|split; nia]. nia. }
  destruct HI as (i & Hi & Hig). exists (Z.to_nat (i * g - n)). split; [lia|]. rewrite HN by lia. cbv zeta. rewrite Z2Nat.id by lia. destruct Hc as [u Hu]. fold n in Hu.
  assert (EQ : g' * (i * g - n) = i + (2 * u * i - g') * n). { assert (g' * g = u * (2 * n) + 1) by lia. replace (g' * (i * g - n)) with (i * (g' * g) - g' * n) by ring. rewrite H. ring. }
  rewrite EQ. rewrite Z.div_add by lia. rewrite (Z.div_small i) by lia. rewrite Z.add_0_l.
  assert (Hev : Z.even (2 * u * i - g') = false).
  { rewrite Z.even_sub. replace (2 * u * i) with (2 * (u * i)) by ring. rewrite Z.even_mul. cbn [Z.even orb]. assert (Z.Odd g') as Hog by (apply galInverse_ok; exact Ho). apply Z.odd_spec in Hog. rewrite <- Z.negb_odd, Hog. reflexivity. }
  rewrite Hev. rewrite nth_repeat. unfold wsub. rewrite Z.sub_0_r. apply wrap_small. lia.
Qed.

(** * A concrete case: the shipped parameters, two parties *)
Lemma rot_world : exists ce st g s Dm parties pool cks, env_ok (ce_env ce) /\ ev_ok (e_pp (ce_env ce)) st /\ pa_Q (e_pp (ce_env ce)) = shippedQ /\ pa_P (e_pp (ce_env ce)) = shippedP /\ pa_logN (e_pp (ce_env ce)) = 15%nat /\
  gadget (e_pp (ce_env ce)) g /\ bound_ok (e_pp (ce_env ce)) 19 /\ powers_crs (e_pp (ce_env ce)) /\
  (forall i, has_crs (e_pp (ce_env ce)) i <-> In i (crsIndices (pa_logN (e_pp (ce_env ce))))) /\
  generators_ok (e_pp (ce_env ce)) s 19 parties /\ pshp (e_pp (ce_env ce)) pool /\
  forall l, (l < QCount (e_pp (ce_env ce)))%nat -> rot_setting (e_pp (ce_env ce)) g s 1 Dm (ones_ct (e_pp (ce_env ce)) l ["a"; "b"]%string) l /\
    covered parties (ones_ct (e_pp (ce_env ce)) l ["a"; "b"]%string) /\ conj_keys (e_pp (ce_env ce)) g 19 s (ones_ct (e_pp (ce_env ce)) l ["a"; "b"]%string) cks.
Proof.
  destruct shipped_key_witness as (pp & sk & Hpp & HQ & HP & Hlog & Hgm & HB & Hsk & He & Hcrs & Hmh & (g & Hg) & Hps & _).
  set (env := fst (NewKeySwitcher (fun _ _ _ => false) pp)). assert (Henv : env_ok env) by (constructor; auto).
  destruct (NewEvaluator o_id (e_lz env) (mkCkp pp sc38)) as [c0 st] eqn:EN. pose proof (NewEvaluator_ok o_id (e_lz env) (mkCkp pp sc38) Hpp o_id_ok) as HE. rewrite EN in HE. destruct HE as (_ & _ & _ & Hst).
  destruct (digit_bound_exists pp Hpp) as (Dm & _ & HD).
  assert (H2 : crs_is pp (-2) (fun _ => pone)). { apply Hcrs. unfold crsIndices. cbn. auto. }
  destruct (conj_key_lemma pp Hpp sk _ _ _ _ g _ Hsk H2 HB He Hg Hps) as (ck & pool' & _ & _ & _ & HK).
  set (k := fun id => mkSk (sk_val sk) id). set (s := fun _ : string => smallpoly (KeyWitness.ones (pa_N pp))).
  exists (mkCke env sc38), st, g, s, Dm, [(k "a", fun _ _ => KeyWitness.ones (pa_N pp)); (k "b", fun _ _ => KeyWitness.ones (pa_N pp))]%string, (qQ (newQP pp)), [("a"%string, ck); ("b"%string, ck)].
  cbn [ce_env]. change (e_pp env) with pp. split; [auto|]. split; [exact Hst|]. do 5 (split; [auto|]). split.
  { intros i Hi. exists (fun _ => pone). apply Hcrs. rewrite <- (Z2Nat.id i) by lia. unfold crsIndices. apply in_or_app. right. rewrite Hlog in *. apply (in_map (fun i => 2 ^ Z.of_nat i)), in_seq. lia. }
  split.
  { intros i. rewrite <- Hmh. unfold has_crs, mhas. destruct (mget Z.eqb (pa_CRS pp) i); split; eauto; intros H; [now destruct H|discriminate]. }
  split. { intros sk' es [[= <- <-]|[[= <- <-]|[]]]; (split; [exact Hsk|intros ix; exact He]). }
  split; [exact Hps|]. intros l Hl. assert (Hab : NoDup ["0"; "a"; "b"]%string) by (repeat constructor; cbn; intuition congruence).
  assert (HPt : forall id, party (ones_ct pp l ["a"; "b"]%string) id -> id = "a"%string \/ id = "b"%string).
  { intros id [Hin Hne]. rewrite ones_ct_keys in Hin. cbn [In] in Hin. intuition congruence. }
  split; [|split].
  - constructor; auto; [now apply ones_ct_ok|]. intros id _. unfold s. apply smallpoly_norm, ones_ok. lia.
  - intros id Hid. destruct (HPt id Hid) as [->| ->]; [exists (k "a"%string)|exists (k "b"%string)]; eexists; (split; [cbn; eauto|reflexivity]).
  - exists (fun _ => pone). split; [exact H2|]. intros id Hid. exists ck. split; [destruct (HPt id Hid) as [->| ->]; reflexivity|].
    exists (fun t => smallpoly (KeyWitness.ones (pa_N pp))). split; [intros t Ht; apply smallpoly_norm; apply (He t Ht)|exact HK].
Qed.

(** * Default keys and RotateNew *)
Lemma default_suffice ce : env_ok (ce_env ce) -> let pp := e_pp (ce_env ce) in forall g B s parties pool rks,
  gadget pp g -> bound_ok pp B -> powers_crs pp -> (forall i, has_crs pp i -> In i (crsIndices (pa_logN pp))) -> generators_ok pp s B parties -> pshp pp pool ->
  exists rks' pool', genDefaultAll pp parties rks pool = Ok (rks', pool') /\
    forall ct sc l Bs Dm k m, rot_setting pp g s Bs Dm ct l -> covered parties ct -> 0 <= m -> cong (Z.of_nat (pa_N pp) / 2) k m ->
      exists n cout, 0 <= n <= Z.of_nat (pa_logN pp) - 1 /\ auto_result pp s l ct (5 ^ m) (n * step_noise pp l ct Bs B Dm) cout /\
        forall o st, order_ok o -> ev_ok pp st -> exists out st', RotateNew ce o (mkCk ct sc) k rks' st = Ok (mkCk out sc, st') /\ same_ct out cout /\ ev_ok pp st'.
Proof.
  intros He pp g B s parties pool rks Hg HB HC Hcrs Hgen Hp. destruct (default_keys pp g B s parties pool (eo_pp _ He) Hg HB HC Hgen Hp rks) as (r & p & E & _ & HK & _).
  exists r, p. split; [exact E|]. intros ct sc l Bs Dm k m HS Hcov Hm Hc.
  destruct (default_ready ce He g B s ct r k Hcrs) as (n & Hn & HR). { intros i Hi. now apply HK. }
  destruct (rotate_new ce He g s Bs B Dm ct sc l r k m n HS Hm Hc HR) as (cout & HA & HRun). exists n, cout. auto.
Qed.
Lemma crs_without_key pp g B s parties pool r smp pp' : params_ok pp -> gadget pp g -> bound_ok pp B -> powers_crs pp -> generators_ok pp s B parties -> pshp pp pool ->
  (forall i, uniform_sample pp (smp r i)) -> AddCRS pp r smp = Ok pp' -> (forall i, 0 <= i -> r <> 2 ^ i) -> 0 < r < Z.of_nat (pa_N pp) / 2 ->
  exists rks pool', genDefaultAll pp parties [] pool = Ok (rks, pool') /\
    forall ce ct sc l id k o st, env_ok (ce_env ce) -> e_pp (ce_env ce) = pp' -> (l < QCount pp')%nat -> ct_ok pp' l ct -> party ct id -> order_ok o ->
      k mod (Z.of_nat (pa_N pp) / 2) = r -> exists e, RotateNew ce o (mkCk ct sc) k rks st = Panic e.
Proof.
  intros Hpp Hg HB HC Hgen Hp HU EA Hr2 Hr.
  destruct (default_keys pp g B s parties pool Hpp Hg HB HC Hgen Hp []) as (rks & p & E & _ & _ & HK). exists rks, p. split; [exact E|].
  destruct (C40_lemma pp r smp Hpp HU) as (pp2 & E2 & HF & _ & (v & Hv & _) & _). rewrite EA in E2. injection E2 as <-.
  intros ce ct sc l id k o st He Ee Hl Hct Hid Ho Hk. assert (EN : pa_N (e_pp (ce_env ce)) = pa_N pp) by (rewrite Ee; unfold pa_N; injection HF; intros; congruence).
  rewrite <- Ee in *. apply (rotate_missing ce He ct sc l rks k o st id); rewrite ?EN, ?Hk; auto; try lia.
  - unfold has_crs. unfold getCRS, mptr in Hv. destruct (mget Z.eqb (pa_CRS (e_pp (ce_env ce))) r); [eauto|discriminate].
  - intros m Em. destruct (zget m r) as [rk|] eqn:Ez; [|reflexivity]. destruct (HK id m r rk Em Ez) as (i & Hi & ->); [intros m0 H0; discriminate|]. exfalso. now apply (Hr2 i).
Qed.
Lemma extra_world : exists pp pp' g s parties pool smp, params_ok pp /\ pa_Q pp = shippedQ /\ gadget pp g /\ bound_ok pp 19 /\ powers_crs pp /\ generators_ok pp s 19 parties /\ pshp pp pool /\
  (forall i, uniform_sample pp (smp 3 i)) /\ AddCRS pp 3 smp = Ok pp' /\ (forall i, 0 <= i -> 3 <> 2 ^ i) /\ 0 < 3 < Z.of_nat (pa_N pp) / 2 /\
  exists ce st, env_ok (ce_env ce) /\ e_pp (ce_env ce) = pp' /\ ev_ok pp' st /\ ct_ok pp' 20 (ones_ct pp' 20 ["a"]%string) /\ party (ones_ct pp' 20 ["a"]%string) "a".
Proof.
  destruct rot_world as (ce0 & st0 & g & s & Dm & parties & pool & cks & He & Hst & HQ & HP & HL & Hg & HB & HC & _ & Hgen & Hp & _).
  set (pp := e_pp (ce_env ce0)) in *. pose proof (eo_pp _ He) as Hpp. fold pp in Hpp.
  destruct (const_sample pp 5 Hpp) as [U _]. { rewrite HQ, HP. unfold shippedQ, shippedP. repeat (constructor; [lia|]). constructor. }
  destruct (AddCRS_ok (ce_env ce0) 3 (fun _ _ => constQP pp 5) He) as (crs & EA & Hpp' & _). { intros i. apply uniform_ok; auto. }
  set (pp' := mkParams _ _ _ _ _ _ _) in EA, Hpp'. fold pp in EA.
  exists pp, pp', g, s, parties, pool, (fun _ _ => constQP pp 5). do 7 (split; [auto|]). split; [auto|]. split; [exact EA|]. split.
  { intros i Hi E. destruct (Z.eq_dec i 0) as [->|]; [discriminate|]. assert (Z.even 3 = true); [|discriminate]. rewrite E. now rewrite Z.even_pow by lia. }
  split. { unfold pa_N, deg. rewrite HL. rewrite Nat2Z.inj_pow. split; [lia|reflexivity]. }
  set (env := fst (NewKeySwitcher (fun _ _ _ => false) pp')). assert (Henv : env_ok env) by (constructor; auto).
  destruct (NewEvaluator o_id (e_lz env) (mkCkp pp' sc38)) as [c0 st] eqn:EN. pose proof (NewEvaluator_ok o_id (e_lz env) (mkCkp pp' sc38) Hpp' o_id_ok) as HE. rewrite EN in HE. destruct HE as (_ & _ & _ & Hst').
  exists (mkCke env sc38), st. split; [auto|]. split; [reflexivity|]. split; [exact Hst'|]. split.
  - apply ones_ct_ok; auto; [|repeat constructor; cbn; intuition congruence]. unfold QCount. change (pa_Q pp') with (pa_Q pp). rewrite HQ. cbn. lia.
  - split; [rewrite ones_ct_keys; cbn; auto|discriminate].
Qed.

Lemma root_case : rpow 1 (fun a b => (a * b) mod 17) 3 (deg 3) = (- 1) mod 17 /\ forall logN, rpow c1 cmul (croot (deg logN) 1) (deg logN) = copp c1.
Proof. split; [reflexivity|]. intros logN. apply croot_odd; [apply deg_pos|lia|exists 0; reflexivity]. Qed.
Lemma permute_case : permute_limb 2 5 17 [1; 2; 3; 4] [9; 9; 9; 9] = [1; 15; 3; 13] /\ permute_limb 2 5 17 [0; 0; 0; 0] [9; 9; 9; 9] = [0; 17; 0; 17].
Proof. split; vm_compute; reflexivity. Qed.
