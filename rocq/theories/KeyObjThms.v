(** C74 from the invariants of KeyObjProofs.v. *)
From Coq Require Import String ZArith List Lia Bool.
From Verif Require Import Spec SpecProofs Go GoProofs Lattigo LattigoProofs Arith NegRing NegRingProofs NTT NTTProofs F64 BasisExt BasisExtProofs RingOps RingOpsProofs Maps MapsProofs Params Elements KeySwitch KeySets KeyGen EncDec Repr KSProofs ParamsProofs Crt KeyGenProofs ParamsSpec SpecKeys Shipped KeySpec KeyWitness KeyThms SpecCt KSSem World SpecEnc EncProofs EncThms CkEncThms EncWorld KSMulProofs Heap HeapProofs KeyObj SpecKeyObj KeyObjProofs.
Import ListNotations.
Open Scope list_scope.

Lemma keyOf_at s k a : nth_error (fst s) k = Some (Some a) -> keyOf s k = (let* x := loadKey (snd s) a in Ok (Some x))%go.
Proof. intros H. unfold keyOf. rewrite (proj2 (idx_some _ _ _) H). reflexivity. Qed.
Lemma keyOf_nil s k : nth_error (fst s) k = Some None -> keyOf s k = Ok None.
Proof. intros H. unfold keyOf. rewrite (proj2 (idx_some _ _ _) H). reflexivity. Qed.
Lemma keyOf_some s k x : keyOf s k = Ok (Some x) -> exists a, nth_error (fst s) k = Some (Some a) /\ loadKey (snd s) a = Ok x.
Proof.
  unfold keyOf. intros H. apply bind_ok in H as (v & H1 & H2). apply idx_some in H1. destruct v as [a|]; [|discriminate]. apply bind_ok in H2 as (y & H2 & H3). injection H3 as ->. eauto.
Qed.
Lemma load_id h a vals id : loadKey h a = Ok (vals, id) -> exists ps, nth_error (kh_key h) a = Some (ps, id).
Proof. unfold loadKey. intros H. apply bind_ok in H as ([ps i] & H1 & H2). apply deref_nth in H1. apply bind_ok in H2 as (v & _ & H2). injection H2 as _ ->. eauto. Qed.
Lemma keyOf_ext s s' k : nth_error (fst s') k = nth_error (fst s) k -> (forall a, nth_error (fst s) k = Some (Some a) -> loadKey (snd s') a = loadKey (snd s) a) -> keyOf s' k = keyOf s k.
Proof.
  intros H1 H2. unfold keyOf, idx. rewrite H1. destruct (nth_error (fst s) k) as [[a|]|]; cbn [bind]; auto. now rewrite H2.
Qed.
Lemma stored_ext s s' t id : kh_set (snd s') = kh_set (snd s) -> (forall m a, nth_error (kh_set (snd s)) t = Some m -> sget m id = Some a -> loadKey (snd s') a = loadKey (snd s) a) -> stored s' t id = stored s t id.
Proof.
  intros H1 H2. unfold stored. rewrite H1. unfold idx. destruct (nth_error (kh_set (snd s)) t) as [m|] eqn:E; cbn [bind]; auto. destruct (sget m id) as [a|] eqn:G; auto. now rewrite (H2 m a eq_refl G).
Qed.

Lemma copy_thm P s0 k s : runK P = Ok s0 -> stepK s0 (KCopy k) = Ok s ->
  nkeys s = S (nkeys s0) /\ keyOf s (nkeys s0) = keyOf s0 k /\ (forall j, (j < nkeys s0)%nat -> keyOf s j = keyOf s0 j) /\
  (forall Q s', leaves (nkeys s0) Q -> foldM stepK Q s = Ok s' -> keyOf s' (nkeys s0) = keyOf s0 k) /\
  (forall Q s', changes_only (nkeys s0) Q -> foldM stepK Q s = Ok s' -> (forall j, (j < nkeys s0)%nat -> keyOf s' j = keyOf s0 j) /\ forall t id, stored s' t id = stored s0 t id).
Proof.
  intros HP H. pose proof (run_wf _ _ HP) as W. pose proof (step_wf _ _ _ W H) as W'. destruct s0 as [vs h]. unfold nkeys in *. cbn [fst] in *. cbn [stepK] in H. apply bind_ok in H as (v & Hv & H). apply idx_some in Hv.
  destruct v as [a|].
  - apply bind_ok in H as ([vals id] & HL & H). injection H as <-. change (List.length (kh_key h)) with (fst (allocKey vals id h)) in *.
    change ((vs ++ [Some (fst (allocKey vals id h))], mkKh (kh_qp h ++ vals) (kh_key h ++ [(seq (List.length (kh_qp h)) (List.length vals), id)]) (kh_set h))) with (vs ++ [Some (fst (allocKey vals id h))], snd (allocKey vals id h)) in *.
    destruct (alloc_wf vs h vals id W) as (_ & LN & LO). pose proof (alloc_private vs h vals id W) as PR. set (s := (vs ++ [Some (fst (allocKey vals id h))], snd (allocKey vals id h))) in *.
    assert (K0 : keyOf (vs, h) k = Ok (Some (vals, id))). { rewrite (keyOf_at (vs, h) k a Hv). cbn [snd]. rewrite HL. reflexivity. }
    assert (KO : forall j, (j < List.length vs)%nat -> keyOf s j = keyOf (vs, h) j). { intros j Hj. apply keyOf_ext; cbn [s fst snd]; [now rewrite nth_error_app1|]. intros b Hb. apply LO. exact (w_var _ W _ _ Hb). }
    assert (KQ : keyOf s (List.length vs) = Ok (Some (vals, id))). { rewrite (keyOf_at s _ _ (proj1 PR)). cbn [s snd]. rewrite LN. reflexivity. }
    split; [cbn; rewrite app_length; cbn; lia|]. split; [congruence|]. split; [exact KO|]. split.
    + intros Q s' HQ HR. destruct (run_private Q s s' _ _ W' PR HQ HR) as [PR' E]. rewrite (keyOf_at s' _ _ (proj1 PR')), E. rewrite <- (keyOf_at s _ _ (proj1 PR)). congruence.
    + intros Q s' HQ HR. destruct (run_other Q s s' _ _ W' PR HQ HR) as (E1 & E2 & E3). split.
      * intros j Hj. rewrite <- KO by auto. apply keyOf_ext; [now rewrite E1|]. intros b Hb. apply E3. intros ->. apply (proj1 (proj2 PR)) in Hb. lia.
      * intros t i. transitivity (stored s t i).
        -- apply stored_ext; [exact E2|]. intros m b Hm Hb. apply E3. intros ->. exact (proj2 (proj2 PR) _ _ _ Hm Hb).
        -- apply stored_ext; [reflexivity|]. intros m b Hm Hb. apply LO. exact (w_set _ W _ _ _ _ Hm Hb).
  - injection H as <-. set (s := (vs ++ [None], h)) in *. assert (NQ : nth_error (fst s) (List.length vs) = Some None) by apply nth_app_new.
    split; [cbn; rewrite app_length; cbn; lia|]. split; [now rewrite (keyOf_nil s _ NQ), (keyOf_nil (vs, h) k Hv)|].
    assert (KO : forall j, (j < List.length vs)%nat -> keyOf s j = keyOf (vs, h) j). { intros j Hj. apply keyOf_ext; cbn [s fst snd]; [now rewrite nth_error_app1|reflexivity]. }
    split; [exact KO|]. split.
    + intros Q s' _ HR. rewrite (keyOf_nil (vs, h) k Hv). apply keyOf_nil. exact (run_vars Q s s' _ _ HR NQ).
    + intros Q s' HQ HR. destruct Q as [|i Q]; [cbn in HR; injection HR as <-; split; [exact KO|reflexivity]|]. exfalso. cbn [foldM] in HR. apply bind_ok in HR as (s1 & H1 & _). specialize (HQ i (or_introl eq_refl)).
      destruct i; try contradiction; subst k0; cbn [stepK s] in H1; apply bind_ok in H1 as (b & Hb & _); apply keyVar_inv in Hb; cbn [fst s] in NQ; congruence.
Qed.

Lemma add_step s0 t k vals id m : keyOf s0 k = Ok (Some (vals, id)) -> nth_error (kh_set (snd s0)) t = Some m ->
  exists a, nth_error (fst s0) k = Some (Some a) /\ loadKey (snd s0) a = Ok (vals, id) /\ stepK s0 (KAdd t k) = Ok (fst s0, mkKh (kh_qp (snd s0)) (kh_key (snd s0)) (lset (kh_set (snd s0)) t (sset m id a))).
Proof.
  intros HK Hm. apply keyOf_some in HK as (a & Ha & HL). destruct (load_id _ _ _ _ HL) as (ps & Hd). exists a. split; [exact Ha|]. split; [exact HL|]. destruct s0 as [vs h]. cbn [fst snd stepK] in *.
  unfold keyVar. rewrite (proj2 (idx_some _ _ _) Ha). cbn [bind]. rewrite (proj2 (deref_nth _ _ _) Hd). cbn [bind]. rewrite (proj2 (idx_some _ _ _) Hm). reflexivity.
Qed.
Lemma shared_thm P s0 t k vals id : runK P = Ok s0 -> keyOf s0 k = Ok (Some (vals, id)) -> (t < List.length (kh_set (snd s0)))%nat ->
  exists s, foldM stepK [KAdd t k; KGet t id] s0 = Ok s /\ nkeys s = S (nkeys s0) /\ keyOf s (nkeys s0) = Ok (Some (vals, id)) /\
    forall Q s', foldM stepK Q s = Ok s' -> keyOf s' (nkeys s0) = keyOf s' k.
Proof.
  intros HP HK Ht. destruct (nth_error (kh_set (snd s0)) t) as [m|] eqn:Hm; [|apply nth_error_None in Hm; lia]. destruct (add_step s0 t k vals id m HK Hm) as (a & Ha & HL & HS). cbn [foldM]. rewrite HS. cbn [bind stepK kh_set].
  unfold idx. rewrite lset_same by auto. cbn [bind]. rewrite (mget_mset_same _ seqb). cbn [bind]. eexists. split; [reflexivity|]. unfold nkeys. cbn [fst]. split; [rewrite app_length; cbn; lia|]. split.
  - rewrite (keyOf_at _ _ a); [|apply nth_app_new]. cbn [snd]. rewrite (load_ext (snd s0)); [now rewrite HL|reflexivity|reflexivity].
  - intros Q s' HR. rewrite (keyOf_at s' _ a), (keyOf_at s' k a); [reflexivity| |]; eapply run_vars; [exact HR| |exact HR|]; cbn [fst]; [now apply nth_app_old|apply nth_app_new].
Qed.
Lemma renamed_thm P s0 t k vals id id' : runK P = Ok s0 -> keyOf s0 k = Ok (Some (vals, id)) -> (t < List.length (kh_set (snd s0)))%nat ->
  exists s, foldM stepK [KAdd t k; KSetID k id'] s0 = Ok s /\ stored s t id = Ok (Some (vals, id')) /\
    (id' <> id -> exists s', stepK s (KDel t id') = Ok s' /\ stored s' t id = Ok (Some (vals, id')) /\ stored s' t id' = Ok None).
Proof.
  intros HP HK Ht. pose proof (run_wf _ _ HP) as W. destruct (nth_error (kh_set (snd s0)) t) as [m|] eqn:Hm; [|apply nth_error_None in Hm; lia]. destruct (add_step s0 t k vals id m HK Hm) as (a & Ha & HL & HS).
  destruct (load_id _ _ _ _ HL) as (ps & Hd). pose proof (nth_lt _ _ _ Hd) as Hlt. cbn [foldM]. rewrite HS. cbn [bind stepK kh_key kh_qp kh_set]. unfold keyVar. rewrite (proj2 (idx_some _ _ _) Ha). cbn [bind]. rewrite (proj2 (deref_nth _ _ _) Hd). cbn [bind].
  set (h := mkKh (kh_qp (snd s0)) (lset (kh_key (snd s0)) a (ps, id')) (lset (kh_set (snd s0)) t (sset m id a))).
  assert (L' : forall S, loadKey (mkKh (kh_qp (snd s0)) (lset (kh_key (snd s0)) a (ps, id')) S) a = Ok (vals, id')).
  { intros S. unfold loadKey in *. cbn [kh_key kh_qp]. rewrite (proj2 (deref_nth _ _ _) Hd) in HL. cbn [bind] in HL. unfold deref at 1. rewrite lset_same by auto. cbn [bind]. apply bind_ok in HL as (v & Ev & HL). rewrite Ev. cbn [bind]. now injection HL as ->. }
  exists (fst s0, h). split; [reflexivity|]. split.
  - unfold stored, idx. cbn [snd h kh_set]. rewrite lset_same by auto. cbn [bind]. rewrite (mget_mset_same _ seqb). unfold h. rewrite L'. reflexivity.
  - intros Hne. unfold h. cbn [stepK kh_set kh_qp kh_key]. unfold idx. rewrite lset_same by auto. cbn [bind]. eexists. split; [reflexivity|]. unfold stored, idx. cbn [snd kh_set]. rewrite lset_same by (rewrite lset_length; auto). cbn [bind].
    rewrite !(mget_mdel _ seqb), !(mget_mset _ seqb), !String.eqb_refl. destruct (String.eqb_spec id id'); [congruence|]. rewrite L'. split; reflexivity.
Qed.

(** ** changing a key *)
Lemma idx_lset {A} (l : list A) i x j : (i < List.length l)%nat -> idx (lset l i x) j = if Nat.eqb j i then Ok x else idx l j.
Proof. intros H. unfold idx. rewrite lset_nth by auto. destruct (Nat.eqb j i); reflexivity. Qed.
Lemma mapM_nth {A B} (f : A -> res B) : forall l v, mapM f l = Ok v -> List.length v = List.length l /\ forall j y, nth_error l j = Some y -> exists z, nth_error v j = Some z /\ f y = Ok z.
Proof.
  induction l as [|a l IH]; intros v H; cbn [mapM] in H; [injection H as <-; split; auto; intros [|j] y E; discriminate|]. apply bind_ok in H as (z & Hz & H). apply bind_ok in H as (w & Hw & H). injection H as <-. destruct (IH w Hw) as [HL HI].
  split; [cbn; lia|]. intros [|j] y E; cbn in *; [injection E as <-; eauto|auto].
Qed.
Lemma write_thm P s0 k vals id i x : runK P = Ok s0 -> keyOf s0 k = Ok (Some (vals, id)) ->
  ((i < List.length vals)%nat -> exists s, stepK s0 (KWrite k i x) = Ok s /\ nkeys s = nkeys s0 /\ keyOf s k = Ok (Some (lset vals i x, id)) /\
     forall j, keyOf s j = keyOf s0 j \/ keyOf s0 j = keyOf s0 k /\ keyOf s j = keyOf s k) /\
  ((List.length vals <= i)%nat -> stepK s0 (KWrite k i x) = Panic PIndex) /\
  forall id', exists s, stepK s0 (KSetID k id') = Ok s /\ nkeys s = nkeys s0 /\ keyOf s k = Ok (Some (vals, id')) /\
     forall j, keyOf s j = keyOf s0 j \/ keyOf s0 j = keyOf s0 k /\ keyOf s j = keyOf s k.
Proof.
  intros HP HK. pose proof (run_wf _ _ HP) as W. destruct (keyOf_some _ _ _ HK) as (a & Ha & HL). destruct (load_id _ _ _ _ HL) as (ps & Hd). pose proof (nth_lt _ _ _ Hd) as Hlt.
  assert (HM : mapM (deref (kh_qp (snd s0))) ps = Ok vals). { unfold loadKey in HL. rewrite (proj2 (deref_nth _ _ _) Hd) in HL. cbn [bind] in HL. apply bind_ok in HL as (v & Ev & E). now injection E as <-. }
  destruct (mapM_nth _ _ _ HM) as [HLen HN]. destruct s0 as [vs h]. cbn [fst snd] in *.
  assert (KV : keyVar vs k = Ok a). { unfold keyVar. now rewrite (proj2 (idx_some _ _ _) Ha). }
  assert (OTH : forall h', kh_set h' = kh_set h -> (forall b, b <> a -> loadKey h' b = loadKey h b) -> forall j, keyOf (vs, h') j = keyOf (vs, h) j \/ keyOf (vs, h) j = keyOf (vs, h) k /\ keyOf (vs, h') j = keyOf (vs, h') k).
  { intros h' _ Hb j. destruct (nth_error vs j) as [[b|]|] eqn:Ej.
    - destruct (Nat.eq_dec b a) as [->|Hne]; [right; rewrite (keyOf_at (vs, h) j a Ej), (keyOf_at (vs, h) k a Ha), (keyOf_at (vs, h') j a Ej), (keyOf_at (vs, h') k a Ha); now split|left; apply keyOf_ext; [reflexivity|]; cbn [fst snd]; intros c Hc; apply Hb; congruence].
    - left. apply keyOf_ext; [reflexivity|]. cbn [fst snd]. congruence.
    - left. apply keyOf_ext; [reflexivity|]. cbn [fst snd]. congruence. }
  split; [|split].
  - intros Hi. destruct (nth_error ps i) as [p|] eqn:Ep; [|apply nth_error_None in Ep; lia]. pose proof (w_pol _ W _ _ _ _ Hd (nth_error_In _ _ Ep)) as Hp. cbn [stepK snd] in *. rewrite KV. cbn [bind]. rewrite (proj2 (deref_nth _ _ _) Hd). cbn [bind]. rewrite (proj2 (idx_some _ _ _) Ep). cbn [bind].
    eexists. split; [reflexivity|]. split; [reflexivity|]. split.
    + rewrite (keyOf_at (vs, _) k a Ha). cbn [snd]. unfold loadKey. cbn [kh_key kh_qp]. rewrite (proj2 (deref_nth _ _ _) Hd). cbn [bind]. rewrite (mapM_build _ _ (lset vals i x)); [reflexivity|rewrite lset_length by auto; exact HLen|].
      intros j y Ey. rewrite lset_nth by auto. unfold deref. rewrite lset_nth by auto. destruct (Nat.eqb_spec j i) as [->|Hne].
      * exists x. split; [reflexivity|]. rewrite Ep in Ey. injection Ey as ->. now rewrite Nat.eqb_refl.
      * destruct (HN j y Ey) as (z & Hz & E). exists z. split; [exact Hz|]. destruct (Nat.eqb_spec y p) as [->|]; [|exact E]. exfalso. apply Hne. apply (proj1 (NoDup_nth_error ps) (w_pnd _ W _ _ _ Hd)); [eapply nth_lt; eauto|congruence].
    + apply OTH; [reflexivity|]. intros b Hb. apply load_ext; cbn [kh_key kh_qp]; [reflexivity|]. intros qs j r E Hr. rewrite lset_nth by auto. destruct (Nat.eqb_spec r p) as [->|]; [|reflexivity]. exfalso. apply Hb. exact (w_sep _ W _ _ _ _ _ _ _ E Hd Hr (nth_error_In _ _ Ep)).
  - intros Hi. cbn [stepK]. rewrite KV. cbn [bind]. rewrite (proj2 (deref_nth _ _ _) Hd). cbn [bind]. unfold idx. rewrite (proj2 (nth_error_None _ _)); [reflexivity|lia].
  - intros id'. cbn [stepK]. rewrite KV. cbn [bind]. rewrite (proj2 (deref_nth _ _ _) Hd). cbn [bind]. eexists. split; [reflexivity|]. split; [reflexivity|]. split.
    + rewrite (keyOf_at (vs, _) k a Ha). cbn [snd]. unfold loadKey. cbn [kh_key kh_qp]. unfold deref at 1. rewrite lset_same by auto. cbn [bind]. rewrite HM. reflexivity.
    + apply OTH; [reflexivity|]. intros b Hb. apply load_ext; cbn [kh_key kh_qp]; [|reflexivity]. now rewrite lset_other.
Qed.

(** ** programs that change no key *)
Record sim (s : kstate) (v : vstate) : Prop := {
  sm_v : forall k, keyOf s k = idx (fst v) k; sm_n : List.length (fst s) = List.length (fst v);
  sm_s : forall t id, stored s t id = (let* m := idx (snd v) t in Ok (sget m id))%go; sm_t : List.length (kh_set (snd s)) = List.length (snd v) }.
Lemma sim_empty : sim emptyK ([], []).
Proof. constructor; cbn; auto. - intros k. unfold keyOf, idx. cbn. destruct k; reflexivity. - intros t id. unfold stored, idx. cbn. destruct t; reflexivity. Qed.
Lemma sim_var s v k : sim s v -> (nth_error (fst s) k = None /\ nth_error (fst v) k = None) \/ (nth_error (fst s) k = Some None /\ nth_error (fst v) k = Some None) \/
  exists a x, nth_error (fst s) k = Some (Some a) /\ loadKey (snd s) a = Ok x /\ nth_error (fst v) k = Some (Some x).
Proof.
  intros S. pose proof (sm_v _ _ S k) as H. pose proof (sm_n _ _ S) as HN. unfold keyOf, idx in H. destruct (nth_error (fst s) k) as [[a|]|] eqn:E; cbn [bind] in H.
  - right. right. destruct (nth_error (fst v) k) as [y|] eqn:E'; [|apply nth_lt in E; apply nth_error_None in E'; lia]. apply bind_ok in H as (x & H1 & H2). injection H2 as <-. eauto.
  - right. left. destruct (nth_error (fst v) k) as [y|]; [injection H as <-; auto|discriminate].
  - left. split; auto. apply nth_error_None in E. apply nth_error_None. lia.
Qed.
Lemma sim_set s v t : sim s v -> (nth_error (kh_set (snd s)) t = None /\ nth_error (snd v) t = None) \/
  exists m (m' : smap keyval), nth_error (kh_set (snd s)) t = Some m /\ nth_error (snd v) t = Some m' /\ forall id, (sget m id = None /\ sget m' id = None) \/ exists a (x : keyval), sget m id = Some a /\ loadKey (snd s) a = Ok x /\ sget m' id = Some x.
Proof.
  intros S. pose proof (sm_t _ _ S) as HN. destruct (nth_error (kh_set (snd s)) t) as [m|] eqn:E.
  - right. destruct (nth_error (snd v) t) as [m'|] eqn:E'; [|apply nth_lt in E; apply nth_error_None in E'; lia]. exists m, m'. split; auto. split; auto. intros id. pose proof (sm_s _ _ S t id) as H. unfold stored, idx in H. rewrite E, E' in H. cbn [bind] in H.
    destruct (sget m id) as [a|]; [right|left; split; [reflexivity|injection H as H; symmetry; exact H]]. apply bind_ok in H as (x & H1 & H2). injection H2 as H2. eauto.
  - left. split; auto. apply nth_error_None in E. apply nth_error_None. lia.
Qed.
Lemma sim_push s v a x h : sim s v -> kh_set h = kh_set (snd s) -> (forall b, (b < List.length (kh_key (snd s)))%nat -> loadKey h b = loadKey (snd s) b) -> kwf s ->
  (match a with None => x = None | Some b => exists y, x = Some y /\ loadKey h b = Ok y end) -> sim (fst s ++ [a], h) (fst v ++ [x], snd v).
Proof.
  intros S H1 H2 W H3. constructor; cbn [fst snd].
  - intros k. destruct (Nat.lt_trichotomy k (List.length (fst s))) as [Hk|[->|Hk]].
    + rewrite (keyOf_ext s); cbn [fst snd]; [|now rewrite nth_error_app1|intros b Hb; apply H2; exact (w_var _ W _ _ Hb)]. rewrite (sm_v _ _ S). unfold idx. rewrite nth_error_app1; auto. rewrite <- (sm_n _ _ S). exact Hk.
    + unfold idx. rewrite (sm_n _ _ S) at 2. rewrite nth_app_new. destruct a as [b|]; [|subst x; apply keyOf_nil; apply nth_app_new]. destruct H3 as (y & -> & HL). rewrite (keyOf_at _ _ b); [|apply nth_app_new]. cbn [snd]. now rewrite HL.
    + unfold keyOf, idx. cbn [fst]. rewrite (proj2 (nth_error_None _ _)), (proj2 (nth_error_None _ _)); [reflexivity| |]; rewrite app_length; cbn; [rewrite <- (sm_n _ _ S); lia|lia].
  - rewrite !app_length, (sm_n _ _ S). reflexivity.
  - intros t id. rewrite <- (sm_s _ _ S). apply stored_ext; cbn [snd]; [exact H1|]. intros m b Hm Hb. apply H2. exact (w_set _ W _ _ _ _ Hm Hb).
  - rewrite H1. apply (sm_t _ _ S).
Qed.
Lemma sim_upd s v t m (m' : smap keyval) : sim s v -> (t < List.length (kh_set (snd s)))%nat -> (forall id, (sget m id = None /\ sget m' id = None) \/ exists a (x : keyval), sget m id = Some a /\ loadKey (snd s) a = Ok x /\ sget m' id = Some x) ->
  sim (fst s, mkKh (kh_qp (snd s)) (kh_key (snd s)) (lset (kh_set (snd s)) t m)) (fst v, lset (snd v) t m').
Proof.
  intros S Ht H. constructor; cbn [fst snd].
  - intros k. rewrite <- (sm_v _ _ S). apply keyOf_ext; reflexivity. - apply (sm_n _ _ S).
  - intros t' id. pose proof (sm_s _ _ S t' id) as X. unfold stored, idx in *. cbn [snd kh_set]. rewrite !lset_nth by (try rewrite <- (sm_t _ _ S); exact Ht). destruct (Nat.eqb t' t); [|exact X]. cbn [bind].
    destruct (H id) as [(-> & ->)|(a & x & -> & HL & ->)]; [reflexivity|]. rewrite (load_ext (snd s)); [now rewrite HL|reflexivity|reflexivity].
  - cbn [kh_set]. rewrite !lset_length; [apply (sm_t _ _ S)| |exact Ht]. rewrite <- (sm_t _ _ S). exact Ht.
Qed.
Definition related (r : res kstate) (r' : res vstate) : Prop := match r, r' with Ok s, Ok v => kwf s /\ sim s v | Panic p, Panic p' => p = p' | _, _ => False end.
Lemma sim_step s v i : kwf s -> sim s v -> (match i with KWrite _ _ _ | KSetID _ _ => False | _ => True end) -> related (stepK s i) (stepVal v i).
Proof.
  intros W S Hi. assert (X : match stepK s i, stepVal v i with Ok s1, Ok v1 => sim s1 v1 | Panic p, Panic p' => p = p' | _, _ => False end).
  2: { unfold related. destruct (stepK s i) as [s1|] eqn:E; destruct (stepVal v i); auto. split; auto. eapply step_wf; eauto. }
  destruct s as [vs h], v as [ws ss].
  assert (AL : forall vals id, sim (vs ++ [Some (fst (allocKey vals id h))], snd (allocKey vals id h)) (ws ++ [Some (vals, id)], ss)).
  { intros vals id. destruct (alloc_wf vs h vals id W) as (_ & LN & LO). apply (sim_push (vs, h) (ws, ss)); auto. exists (vals, id). auto. }
  destruct i; try contradiction; cbn [stepK stepVal].
  - apply AL.
  - apply (sim_push (vs, h) (ws, ss)); auto.
  - unfold idx. destruct (sim_var _ _ k S) as [(E1 & E2)|[(E1 & E2)|(a & [vals id] & E1 & HL & E2)]]; cbn [fst snd] in *; rewrite E1, E2; cbn [bind]; [reflexivity|apply (sim_push (vs, h) (ws, ss)); auto|]. rewrite HL. cbn [bind]. apply AL.
  - constructor; cbn [fst snd kh_set].
    + intros k. rewrite <- (sm_v _ _ S). apply keyOf_ext; reflexivity. + apply (sm_n _ _ S).
    + intros t id. pose proof (sm_s _ _ S t id) as X. pose proof (sm_t _ _ S) as T. unfold stored, idx in *. cbn [snd kh_set fst] in *. destruct (Nat.lt_trichotomy t (List.length ss)) as [Hk|[->|Hk]].
      * rewrite !nth_error_app1 by lia. destruct (nth_error (kh_set h) t) as [m|]; exact X.
      * rewrite <- T at 1. rewrite !nth_app_new. reflexivity.
      * rewrite !(proj2 (nth_error_None _ _)); [reflexivity| |]; rewrite app_length; cbn; lia.
    + rewrite !app_length. cbn. pose proof (sm_t _ _ S). cbn [snd] in *. lia.
  - unfold keyVar, idx. destruct (sim_var _ _ k S) as [(E1 & E2)|[(E1 & E2)|(a & [vals id] & E1 & HL & E2)]]; cbn [fst snd] in *; rewrite E1, E2; cbn [bind]; [reflexivity|reflexivity|]. destruct (load_id _ _ _ _ HL) as (ps & Hd). rewrite (proj2 (deref_nth _ _ _) Hd). cbn [bind].
    destruct (sim_set _ _ s S) as [(F1 & F2)|(m & m' & F1 & F2 & HM)]; cbn [fst snd] in *; rewrite F1, F2; cbn [bind]; [reflexivity|]. apply (sim_upd (vs, h) (ws, ss)); auto; [eapply nth_lt; eauto|]. intros i. rewrite !(mget_mset _ seqb). destruct (String.eqb i id); [right|apply HM]. exists a, (vals, id). auto.
  - unfold idx. destruct (sim_set _ _ s S) as [(F1 & F2)|(m & m' & F1 & F2 & HM)]; cbn [fst snd] in *; rewrite F1, F2; cbn [bind]; [reflexivity|]. apply (sim_upd (vs, h) (ws, ss)); auto; [eapply nth_lt; eauto|]. intros i. rewrite !(mget_mdel _ seqb). destruct (String.eqb i id); [left; auto|apply HM].
  - unfold idx. destruct (sim_set _ _ s S) as [(F1 & F2)|(m & m' & F1 & F2 & HM)]; cbn [fst snd] in *; rewrite F1, F2; cbn [bind]; [reflexivity|]. destruct (HM id) as [(-> & ->)|(a & x & -> & HL & ->)]; [reflexivity|]. apply (sim_push (vs, h) (ws, ss)); auto. exists x. auto.
Qed.
Lemma sim_run P : forall s v, kwf s -> sim s v -> readonly P -> related (foldM stepK P s) (foldM stepVal P v).
Proof.
  induction P as [|i P IH]; intros s v W S HR; [cbn; auto|]. cbn [foldM]. pose proof (sim_step s v i W S (HR i (or_introl eq_refl))) as H. destruct (stepK s i) as [s1|p]; destruct (stepVal v i) as [v1|p']; cbn in H |- *; try contradiction; auto. apply IH; [tauto|tauto|]. intros j Hj. apply HR. now right.
Qed.
Lemma values_thm P : readonly P -> match runK P, runVal P with
  | Ok s, Ok v => (forall k, keyOf s k = idx (fst v) k) /\ forall t id, stored s t id = (let* m := idx (snd v) t in Ok (sget m id))%go
  | Panic p, Panic p' => p = p' | _, _ => False end.
Proof.
  intros HR. pose proof (sim_run P emptyK ([], []) kwf_empty sim_empty HR) as H. unfold runK, runVal. destruct (foldM stepK P emptyK); destruct (foldM stepVal P ([], [])); cbn in H; auto. destruct H as (_ & S). split; [exact (sm_v _ _ S)|exact (sm_s _ _ S)].
Qed.

(** ** the zero keys of the constructors *)
Section Zero.
Local Open Scope Z_scope.
Context (pp : params) (Hpp : params_ok pp).
Lemma newPoly_zero r : pZero (ringPoly r) = ringPoly r.
Proof.
  unfold pZero, ringPoly, newPoly. cbn. f_equal. induction (List.length (r_mods r)) as [|n IH]; cbn; [reflexivity|]. rewrite IH. f_equal. now rewrite repeat_length.
Qed.
Lemma newQP_zero : qrep pp (maxLevel pp) (newQP pp) pzero.
Proof.
  destruct (newQP_shp pp) as [[LQ SQ] [LP SP]]. pose proof (lvQ1 pp Hpp) as HQ. unfold newQP in *. cbn [qQ qP] in *.
  split; cbn [qQ qP]; rewrite <- newPoly_zero; apply nrep_zero; auto; try apply (po_rQ _ Hpp); try apply (po_rP _ Hpp); try (rewrite ?LQ, ?LP, ?HQ); try (apply le_n).
  all: unfold QCount, PCount, ringQ, ringP in *; cbn in *; try lia.
Qed.
Lemma zero_pk id s : pk_is pp (NewPublicKey pp id) s pzero pzero.
Proof.
  destruct newQP_zero as [A B]. assert (X : forall m, peq (pa_N pp) m pzero (psub pzero (pmul (pa_N pp) s pzero))).
  { intros m. rewrite (pmul_zero_r (pa_N pp) m) by apply deg_pos. intros i Hi. apply cong_eq. unfold psub, pzero. ring. }
  split; [split; [exact A|exact B]|]. split; (eapply nrep_peq; [| |first [exact A|exact B]]); [apply (po_rQ _ Hpp)| |apply (po_rP _ Hpp)|]; intros j _; apply X.
Qed.
Lemma zero_sk id : sk_is pp (NewSecretKey pp id) pzero.
Proof.
  destruct newQP_zero as [A B]. assert (X : forall m, peq (pa_N pp) m pzero (pscale W pzero)). { intros m i Hi. apply cong_eq. unfold pscale, pzero. ring. }
  split; [|apply newQP_shp]. split; (eapply nrep_peq; [| |first [exact A|exact B]]); [apply (po_rQ _ Hpp)| |apply (po_rP _ Hpp)|]; intros j _; apply X.
Qed.
Lemma zero_thm id pt pl M u e0 e1 Bu B ct cl ntt F ptOut po :
  (forall s, pk_is pp (NewPublicKey pp id) s pzero pzero) /\ sk_is pp (NewSecretKey pp id) pzero /\
  (enc_setting pp pt pl M (NewPublicKey pp id) pzero pzero pzero u e0 e1 Bu B ct cl ntt F -> foreign ct id = [] -> plen ptOut = (po + 1)%nat ->
   exists ct' pt' w, let l := Nat.min (Nat.min pl cl) po in
    (forall pool, (QCount pp <= plen pool)%nat -> exists pool', Encrypt pp pt (NewPublicKey pp id) u e0 e1 ct pool = Ok (ct', pool')) /\
    (forall o, order_ok o -> Decrypt pp o ct' [(id, NewSecretKey pp id)] ptOut = Ok pt') /\
    plen pt' = (l + 1)%nat /\ held pp ntt (fun q => q) l pt' (padd M w) /\ pnorm_le (pa_N pp) w (B * (1 + Z.of_nat (pa_N pp) * Bu))).
Proof.
  split; [exact (zero_pk id)|]. split; [exact (zero_sk id)|]. intros HS Hf HL. assert (HB : 0 <= B) by (destruct (es_B _ _ _ _ _ _ _ _ _ _ _ _ _ _ _ _ _ HS); lia).
  destruct (encrypt_fresh pp Hpp pt pl M (NewPublicKey pp id) pzero pzero pzero u e0 e1 0 Bu B ct cl ntt F ptOut po HS Hf HL) as (ct' & pt' & w & K1 & K2 & K3 & K4 & K5 & _); [intros i Hi; cbn; lia|intros i Hi; cbn; lia|].
  exists ct', pt', w. cbv zeta in *. split; [exact K1|]. split; [|split; [exact K3|split; [exact K4|]]].
  - intros o Ho. apply K2; [exact Ho| |now left]. split; [constructor; [intros []|constructor]|]. intros x sk E. cbn in E. destruct (String.eqb_spec x id) as [->|]; [|discriminate]. injection E as <-. split; [reflexivity|]. intros _. apply zero_sk.
  - replace (B * (1 + Z.of_nat (pa_N pp) * Bu)) with (B * (1 + Z.of_nat (pa_N pp) * Bu + Z.of_nat (pa_N pp) * 0)) by ring. exact K5.
Qed.
Lemma zero_swk : zero_swk_is pp (NewSwitchingKey pp).
Proof.
  unfold NewSwitchingKey, zero_swk_is. split; [now rewrite repeat_length|]. apply Forall_forall. intros x Hx. apply repeat_spec in Hx as ->. split; [apply newQP_shp|exact newQP_zero].
Qed.
Lemma zero_switching_thm id r :
  (let k := NewRelinearizationKey pp id in rl_ID k = id /\ zero_swk_is pp (rl_b k) /\ zero_swk_is pp (rl_d k) /\ zero_swk_is pp (rl_v k)) /\
  (let k := NewRotationKey pp r id in rk_ID k = id /\ rk_idx k = r /\ zero_swk_is pp (rk_val k)) /\
  (let k := NewConjugationKey pp id in cj_ID k = id /\ zero_swk_is pp (cj_val k)).
Proof. repeat split; apply zero_swk. Qed.
End Zero.
Local Open Scope Z_scope.
Lemma zero_world : exists pp on, params_ok pp /\ pa_Q pp = shippedQ /\ pa_logN pp = 15%nat /\
  forall pl cl, (pl < QCount pp)%nat -> (cl < QCount pp)%nat ->
    enc_setting pp (ones_poly pp pl) pl (fun _ => 1) (NewPublicKey pp "a") pzero pzero pzero on on on 1 19 (ones_ct pp cl ["a"%string]) cl false (fun _ _ => 1) /\ foreign (ones_ct pp cl ["a"%string]) "a" = [].
Proof.
  destruct shipped_key_witness as (pp & sk & Hpp & HQ & HP & Hlog & Hgm & HB & Hsk & _).
  assert (HB1 : bound_ok pp 1). { destruct HB as [_ HF]. split; [lia|]. revert HF. apply Forall_impl. intros q. lia. }
  assert (H19 : small_ok (pa_N pp) 19 (ones (pa_N pp))) by (apply ones_ok; lia). assert (H1 : small_ok (pa_N pp) 1 (ones (pa_N pp))) by (apply ones_ok; lia).
  assert (Hnd : NoDup ["0"; "a"]%string) by (repeat constructor; cbn; intuition discriminate).
  exists pp, (ones (pa_N pp)). do 3 (split; [assumption|]). intros pl cl Hpl Hcl. split; [|reflexivity]. constructor; auto.
  - split; [auto|]. split; [apply repeat_length|]. apply ones_held; auto.
  - now apply zero_pk.
  - discriminate.
  - exists (ones_poly pp cl). split; [apply ones_ct_has; now left|]. split; [apply repeat_length|reflexivity].
  - exists (ones_poly pp cl). split; [apply ones_ct_has; right; now left|]. unfold plen, ones_poly. cbn [p_co]. rewrite repeat_length. lia.
  - intros x p _ E. apply ones_ct_get in E as ->. split; [reflexivity|]. apply ones_held; auto. lia.
Qed.
