(** Conjugate written into its own operand. *)
From Coq Require Import String ZArith Znumtheory List Lia Bool Permutation.
From Verif Require Import Spec SpecProofs Go GoProofs Lattigo LattigoProofs Arith NegRing NegRingProofs NTT NTTProofs F64 BasisExt BasisExtProofs RingOps RingOpsProofs Maps MapsProofs Params Elements KeySwitch KeySets KeyGen EncDec Utils Evaluator Repr KSProofs KSMulProofs Galois SpecKeys SpecCt KSSem SpecEv SpecRot RotProofs ConjThms ConcProofs SpecAlias Alias AliasProofs AliasConst.
Import ListNotations.
Local Open Scope Z_scope.
Local Open Scope list_scope.

Section L.
Context (logN : nat) (HlN : (1 <= logN <= 30)%nat) (q : Z) (Hq : 0 < q < W).
Notation N := (deg logN).
Notation n := (Z.of_nat N).
Notation g := (galRow logN).
Definition mirl (x : list Z) : list Z := map (fun i => if (i <=? N / 2)%nat then nth i x 0 else wsub q (nth (N - i) x 0)) (seq 0 N).
Lemma mirl_length x : List.length (mirl x) = N.
Proof. unfold mirl. now rewrite map_length, seq_length. Qed.
Lemma mirl_nth x i : (i < N)%nat -> nth i (mirl x) 0 = if (i <=? N / 2)%nat then nth i x 0 else wsub q (nth (N - i) x 0).
Proof. intros H. unfold mirl. now rewrite (nth_map_seq _ _ i) by auto. Qed.
Lemma even_deg : (N / 2 + N / 2 = N)%nat.
Proof. destruct logN as [|k]; [lia|]. unfold deg. rewrite Nat.pow_succ_r'. rewrite (Nat.mul_comm 2), Nat.div_mul by lia. lia. Qed.
Lemma raw_row i : (i < N)%nat -> wmul (Z.of_nat i) g = Z.of_nat i * g.
Proof.
  intros Hi. assert (n <= 2 ^ 30). { rewrite deg_Z. apply Z.pow_le_mono_r; lia. } unfold wmul, galRow. apply wrap_small. rewrite W_val. change (2 ^ 30) with 1073741824 in *. nia.
Qed.
Lemma idx_row i : (0 < i < N)%nat -> Z.to_nat (wmul (Z.of_nat i) g mod n) = (N - i)%nat /\ (wmul (Z.of_nat i) g / n) mod 2 =? 0 = false.
Proof.
  intros Hi. rewrite raw_row by lia. unfold galRow. assert (E : Z.of_nat i * (2 * n - 1) = (n - Z.of_nat i) + (2 * Z.of_nat i - 1) * n) by ring. rewrite E.
  rewrite Z.mod_add, Z.div_add, Z.div_small, Z.mod_small by lia. split; [lia|]. apply Z.eqb_neq. replace (0 + (2 * Z.of_nat i - 1)) with (1 + (Z.of_nat i - 1) * 2) by ring. rewrite Z.mod_add by lia. discriminate.
Qed.
Lemma idx_row0 : Z.to_nat (wmul (Z.of_nat 0) g mod n) = 0%nat /\ (wmul (Z.of_nat 0) g / n) mod 2 =? 0 = true.
Proof. pose proof (deg_pos logN). rewrite raw_row by lia. cbn [Z.of_nat Z.mul]. rewrite Z.mod_0_l, Z.div_0_l by lia. split; reflexivity. Qed.

(** the two loops, as a function of the index reached *)
Lemma self_loop x k : List.length x = N -> (k <= N)%nat ->
  let out := fold_left (fun out i => let raw := wmul (Z.of_nat i) g in let v := nth i out 0 in upd out (Z.to_nat (raw mod n)) (if (raw / n) mod 2 =? 0 then v else wsub q v)) (seq 0 k) x in
  List.length out = N /\ forall j, (j < N)%nat -> nth j out 0 = if (0 <? j)%nat && (N - j <? k)%nat then wsub q (nth (N - j) (mirl x) 0) else nth j x 0.
Proof.
  intros Hx. pose proof even_deg as HE. induction k as [|k IH]; intros Hk out.
  - subst out. cbn. split; [exact Hx|]. intros j Hj. now rewrite andb_false_r.
  - destruct (IH ltac:(lia)) as [L V]. subst out. rewrite seq_S, fold_left_app. cbn [fold_left Nat.add]. set (o := fold_left _ (seq 0 k) x) in *.
    destruct k as [|k].
    + destruct idx_row0 as [E1 E2]. cbv zeta. rewrite E1, E2. rewrite upd_length by lia. split; [exact L|]. intros j Hj. rewrite upd_nth by lia. destruct (Nat.eqb_spec j 0) as [->|].
      * cbn [Nat.ltb Nat.leb andb]. rewrite V by lia. reflexivity.
      * rewrite V by lia. destruct (Nat.ltb_spec (N - j) 0), (Nat.ltb_spec (N - j) 1); rewrite ?andb_false_r; auto; lia.
    + set (i := S k) in *. destruct (idx_row i ltac:(lia)) as [E1 E2]. cbv zeta. rewrite E1, E2. rewrite upd_length by lia. split; [exact L|]. intros j Hj. rewrite upd_nth by lia.
      assert (Ev : nth i o 0 = nth i (mirl x) 0).
      { rewrite V by lia. rewrite !mirl_nth by lia. destruct (Nat.ltb_spec 0 i); [|lia]. cbn [andb]. destruct (Nat.ltb_spec (N - i) i), (Nat.leb_spec i (N / 2)), (Nat.leb_spec (N - i) (N / 2)); try lia; auto. }
      destruct (Nat.eqb_spec j (N - i)) as [->|Hj'].
      * destruct (Nat.ltb_spec 0 (N - i)); [|lia]. destruct (Nat.ltb_spec (N - (N - i)) (S i)); [|lia]. cbn [andb]. replace (N - (N - i))%nat with i by lia. now rewrite Ev.
      * rewrite V by lia. destruct (Nat.ltb_spec 0 j); cbn [andb]; [|reflexivity]. destruct (Nat.ltb_spec (N - j) i), (Nat.ltb_spec (N - j) (S i)); auto; lia.
Qed.
Lemma self_mirror x old : List.length x = N -> List.length old = N -> permute_self logN g q x = permute_limb logN g q (mirl x) old.
Proof.
  intros Hx Ho. unfold permute_self. destruct (self_loop x N Hx ltac:(lia)) as [L V]. set (o := fold_left _ _ x) in *.
  destruct (galRow_ok logN) as (G1 & G2 & G3). destruct (permute_limb_nth logN g g q (mirl x) old HlN G1 G2 G3 Ho) as [L' V'].
  apply (nth_ext _ _ 0 0); [lia|]. intros j Hj. rewrite L in Hj. rewrite V, V' by lia. cbv zeta. destruct (Nat.ltb_spec 0 j).
  - destruct (Nat.ltb_spec (N - j) N); [|lia]. cbn [andb]. unfold galRow. replace ((2 * n - 1) * Z.of_nat j) with ((n - Z.of_nat j) + (2 * Z.of_nat j - 1) * n) by ring.
    rewrite Z.mod_add, Z.div_add, Z.div_small, Z.mod_small by lia. replace (Z.to_nat (n - Z.of_nat j)) with (N - j)%nat by lia.
    replace (0 + (2 * Z.of_nat j - 1)) with (1 + 2 * (Z.of_nat j - 1)) by ring. now rewrite Z.even_add_mul_2.
  - cbn [andb]. replace j with 0%nat by lia. cbn [Z.of_nat]. rewrite Z.mul_0_r. pose proof (deg_pos logN). rewrite Z.mod_0_l, Z.div_0_l by lia. cbn [Z.even Z.to_nat]. rewrite mirl_nth by lia. reflexivity.
Qed.
End L.

Section K.
Context (env : kenv) (He : env_ok env).
Notation pp := (e_pp env).
Notation N := (pa_N pp).
Notation rQ := (ringQ pp).
Let Hpp : params_ok pp := eo_pp _ He.
Let HQ : ring_ok rQ := po_rQ _ Hpp.
Definition mirp (p : poly) : poly := mkPoly (p_ntt p) (map (fun j => mirl (pa_logN pp) (nth j (pa_Q pp) 0) (nth j (p_co p) [])) (seq 0 (plen p))).
Definition mirc (ct : ciphertext) : ciphertext := map (fun kp => (fst kp, mirp (snd kp))) ct.
Lemma mirc_keys ct : mkeys (mirc ct) = mkeys ct.
Proof. unfold mirc, mkeys. now rewrite map_map. Qed.
Lemma mirc_get ct id : sget (mirc ct) id = option_map mirp (sget ct id).
Proof. induction ct as [|[k p] ct IH]; [reflexivity|]. cbn. destruct (String.eqb_spec id k); auto. Qed.
Lemma mirp_len p : plen (mirp p) = plen p.
Proof. unfold mirp, plen. cbn [p_co]. now rewrite map_length, seq_length. Qed.
Lemma mirp_nth p j : (j < plen p)%nat -> nth j (p_co (mirp p)) [] = mirl (pa_logN pp) (nth j (pa_Q pp) 0) (nth j (p_co p) []).
Proof. intros H. unfold mirp. cbn [p_co]. now rewrite (nth_map_seq _ _ j) by auto. Qed.

Lemma perm_self l p : QCount pp = (l + 1)%nat -> plen p = (l + 1)%nat -> (forall j, (j <= l)%nat -> List.length (nth j (p_co p) []) = N) ->
  PermuteSelf rQ p (galRow (pa_logN pp)) = Permute rQ (mirp p) (galRow (pa_logN pp)) p.
Proof.
  intros Hm HL HW. unfold PermuteSelf, Permute. replace (List.length (r_mods rQ) - 1)%nat with l by (change (List.length (r_mods rQ)) with (QCount pp); lia).
  pose proof (ro_log rQ HQ) as Hlog. cbn [r_logN ringQ] in *. unfold QCount in Hm. unfold lvl3.
  rewrite (mapM_ok _ (fun j => permute_self (pa_logN pp) (galRow (pa_logN pp)) (nth j (pa_Q pp) 0) (nth j (p_co p) []))).
  2:{ intros j Hj. apply in_seq in Hj. cbn [r_mods ringQ]. rewrite (idx_nth (pa_Q pp) j 0), (idx_nth (p_co p) j []) by (unfold plen in HL; lia). reflexivity. }
  rewrite (mapM_ok _ (fun j => permute_self (pa_logN pp) (galRow (pa_logN pp)) (nth j (pa_Q pp) 0) (nth j (p_co p) []))); [reflexivity|].
  intros j Hj. apply in_seq in Hj. cbn [r_mods ringQ]. pose proof (mirp_len p) as LM. unfold plen in *. rewrite (idx_nth (pa_Q pp) j 0), (idx_nth (p_co p) j []), (idx_nth (p_co (mirp p)) j []) by lia. cbn [bind].
  f_equal. rewrite mirp_nth by (unfold plen; lia). symmetry. apply self_mirror; auto; apply HW; lia.
Qed.

Lemma conj_self o cks ct k l : order_ok o -> QCount pp = (l + 1)%nat -> ct_ok pp l ct ->
  ConjugateAt env o None cks ct k = Conjugate env o (mirc ct) cks ct k.
Proof.
  intros Ho Hm Hc. unfold ConjugateAt, Conjugate. cbn [rd].
  assert (Ekeys : mkeys (mirc ct) = mkeys ct) by apply mirc_keys.
  assert (El : ctLevel (mirc ct) = ctLevel ct). { unfold ctLevel, mptr. rewrite mirc_get. destruct (sget ct "0"%string); cbn [option_map bind]; [|reflexivity]. now rewrite mirp_len. }
  assert (Ei : ctIDSet o (mirc ct) = ctIDSet o ct) by (unfold ctIDSet; now rewrite Ekeys).
  rewrite El, Ei, Ekeys. rewrite (ct_level env l ct Hc). cbn [bind]. destruct (ctIDSet o ct) as [ids|]; [|reflexivity]. cbn [bind]. destruct (l <? l)%nat; [reflexivity|].
  match goal with |- bind (foldM ?f ?L ?s) ?K1 = bind (foldM ?g ?L ?s) ?K2 => rewrite (foldM_eq f g (fun rest c => NoDup rest /\ (forall i, In i rest -> sget c i = sget ct i))); [reflexivity| |] end.
  - intros x rest c [H1 H2]. apply NoDup_cons_iff in H1 as [Hx H1].
    assert (E : ctUpd c x (fun p => PermuteSelf rQ p (galRow (pa_logN pp))) = bind (sptr (mirc ct) x) (fun a => ctUpd c x (fun p => Permute rQ a (galRow (pa_logN pp)) p))).
    { unfold ctUpd, mptr. rewrite mirc_get, (H2 x) by now left. destruct (sget ct x) as [p|] eqn:Ep; [|reflexivity]. cbn [option_map bind].
      destruct (ck_comp _ _ _ Hc x p Ep) as (_ & P2 & P3). rewrite (perm_self l p); auto. intros j Hj. apply (P3 j Hj). }
    split; [exact E|]. intros c' Ec. apply ctUpd_inv in Ec as (p & p' & _ & _ & ->). split; [auto|]. intros i Hi. rewrite (mget_mset_other _ seqb) by (intros ->; auto). apply H2. now right.
  - split; [apply order_nodup; [exact Ho|apply Hc]|auto].
Qed.
Lemma mirc_ok ct l : (l < QCount pp)%nat -> ct_ok pp l ct -> mirrored pp l ct (mirc ct).
Proof.
  intros Hl Hc. pose proof (ro_log rQ HQ) as Hlog. cbn [r_logN ringQ] in *. assert (EN : N = deg (pa_logN pp)) by reflexivity.
  assert (HqW : forall j, (j <= l)%nat -> 1 < nth j (pa_Q pp) 0 /\ nth j (pa_Q pp) 0 < W).
  { intros j Hj. destruct (ring_q1 rQ j HQ) as [A B]; [cbn [r_mods ringQ]; unfold QCount in Hl; lia|]. cbn [r_mods ringQ] in *. lia. }
  assert (HV : forall p j x, p_ntt p = false /\ plen p = (l + 1)%nat /\ (forall j, (j <= l)%nat -> List.length (nth j (p_co p) []) = N /\ forall x, (x < N)%nat -> 0 <= nth x (nth j (p_co p) []) 0 <= nth j (pa_Q pp) 0) ->
    (j <= l)%nat -> (x < N)%nat -> nth x (nth j (p_co (mirp p)) []) 0 = if (x <=? N / 2)%nat then nth x (nth j (p_co p) []) 0 else nth j (pa_Q pp) 0 - nth (N - x) (nth j (p_co p) []) 0).
  { intros p j x (_ & P2 & P3) Hj Hx. rewrite mirp_nth by lia. rewrite mirl_nth by exact Hx. rewrite <- EN. destruct (Nat.leb_spec x (N / 2)); [reflexivity|]. unfold wsub. apply wrap_small.
    destruct (P3 j Hj) as [_ B]. specialize (B (N - x)%nat ltac:(lia)). specialize (HqW j Hj). lia. }
  split; [|split; [apply mirc_keys|]].
  - constructor; rewrite ?mirc_keys; [apply Hc|apply Hc|]. intros id p E. rewrite mirc_get in E. destruct (sget ct id) as [p0|] eqn:Ep; [|discriminate]. cbn in E. injection E as <-.
    pose proof (ck_comp _ _ _ Hc id p0 Ep) as P0. destruct P0 as (P1 & P2 & P3). split; [exact P1|]. split; [now rewrite mirp_len|]. intros j Hj. split; [rewrite mirp_nth by lia; apply mirl_length|].
    intros x Hx. rewrite HV by auto. destruct (P3 j Hj) as [_ B]. destruct (Nat.leb_spec x (N / 2)); [now apply B|]. specialize (B (N - x)%nat ltac:(lia)). lia.
  - intros id j x Hid Hj Hx. unfold limb. rewrite mirc_get. destruct (mget_ex _ seqb ct id Hid) as (p & Ep). rewrite Ep. cbn [option_map]. apply HV; auto. apply (ck_comp _ _ _ Hc id p Ep).
Qed.

Lemma conjugate_in_place g s Bs Be Dm ct l cks : rot_setting pp g s Bs Dm ct l -> QCount pp = (l + 1)%nat -> conj_keys pp g Be s ct cks ->
  exists m cout, mirrored pp l ct m /\ auto_result pp s l m (-1) (step_noise pp l ct Bs Be Dm) cout /\
    forall o k, order_ok o -> pool_ok pp k -> exists ct' k', ConjugateAt env o None cks ct k = Ok (ct', k') /\ pool_ok pp k' /\ same_ct ct' cout.
Proof.
  intros HS Hm HK. pose proof HS as [Hc Hl Hg Hs HD]. pose proof (mirc_ok ct l Hl Hc) as HM. pose proof HM as (M1 & M2 & M3).
  assert (HP : forall id, party (mirc ct) id <-> party ct id) by (intros id; unfold party; now rewrite mirc_keys).
  assert (HS' : rot_setting pp g s Bs Dm (mirc ct) l) by (constructor; auto; intros id Hid; apply Hs; now apply HP).
  assert (HK' : conj_keys pp g Be s (mirc ct) cks) by (destruct HK as (A & HA & H); exists A; split; [auto|]; intros id Hid; apply H; now apply HP).
  destruct (conj_step env He g s Bs Be Dm (mirc ct) l cks HS' Hm HK') as (cout & HR & HC). exists (mirc ct), cout. split; [exact HM|]. split.
  - replace (step_noise pp l ct Bs Be Dm) with (step_noise pp l (mirc ct) Bs Be Dm); [exact HR|]. unfold step_noise, nparties. now rewrite mirc_keys.
  - intros o k Ho Hk. destruct (HC ct o k Hc) as (ct' & k' & E & P & _ & S); auto. { split; rewrite mirc_keys; auto. }
    exists ct', k'. rewrite (conj_self o cks ct k l Ho Hm Hc). auto.
Qed.
End K.
