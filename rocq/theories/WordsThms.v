(** Proofs of C72. *)
From Coq Require Import String ZArith Znumtheory List Lia Bool Permutation Arith.
From Verif Require Import Spec SpecProofs Go GoProofs Arith NegRing NTT RingOps Maps MapsProofs Params Elements KeySwitch KeySets F64 EncDec Evaluator Repr KSProofs SpecCt KSSem SpecEnc EncProofs SpecEv EvProofs RescaleProofs EvThms AddThms MulEvThms Conc SpecConc ConcProofs Words SpecWords WordsProofs.
Import ListNotations.
Local Open Scope Z_scope.
Local Open Scope list_scope.

(** ** forms *)
Definition flags (s : swk) : list (bool * bool) := map (fun x => (p_ntt (qQ x), p_ntt (qP x))) s.
Lemma write_flag l ls p p' : write l ls p = Ok p' -> p_ntt p' = p_ntt p.
Proof. unfold write. destruct (plen p <=? l)%nat; [discriminate|]. now intros [= <-]. Qed.
Lemma lvl1_flag r f l a d d' : lvl1 r f l a d = Ok d' -> p_ntt d' = p_ntt d.
Proof. unfold lvl1. intros H. apply bind_inv in H as (ls & _ & H). exact (write_flag _ _ _ _ H). Qed.
Lemma single_flags env l al i a d x : DecomposeSingleNTT env l al i a d = Ok x -> p_ntt (qQ x) = p_ntt (qQ d) /\ p_ntt (qP x) = p_ntt (qP d).
Proof.
  unfold DecomposeSingleNTT. intros H. apply bind_inv in H as ([oq op] & _ & H). apply bind_inv in H as (dq & E1 & H). apply bind_inv in H as (dp & E2 & H).
  unfold NTTQP, qp1 in H. cbn [qQ qP] in H. apply bind_inv in H as (x1 & E3 & H). apply bind_inv in H as (y1 & E4 & H). injection H as <-. cbn.
  apply write_flag in E1, E2. apply lvl1_flag in E3, E4. split; congruence.
Qed.
Lemma idx_ok {X} (v : list X) i x : idx v i = Ok x -> nth_error v i = Some x.
Proof. unfold idx. destruct (nth_error v i); [now intros [= ->]|discriminate]. Qed.
Lemma set_flags v i x d v' : idx v i = Ok d -> p_ntt (qQ x) = p_ntt (qQ d) -> p_ntt (qP x) = p_ntt (qP d) -> swkSet v i x = Ok v' -> flags v' = flags v.
Proof.
  intros Ed H1 H2 E. apply idx_ok in Ed. unfold swkSet in E. destruct (i <? List.length v)%nat; [|discriminate]. injection E as <-.
  destruct (nth_error_split _ _ Ed) as (l1 & l2 & -> & Hl). subst i. rewrite firstn_app, Nat.sub_diag, firstn_all. cbn [firstn]. rewrite app_nil_r.
  rewrite skipn_app. replace (List.length l1 + 1 - List.length l1)%nat with 1%nat by lia. rewrite (skipn_all2 l1) by lia. cbn [skipn app]. unfold flags. rewrite !map_app. cbn [map]. now rewrite H1, H2.
Qed.
Lemma decompose_flags env l a s k s' k' : Decompose env l a s k = Ok (s', k') -> flags s' = flags s.
Proof.
  unfold Decompose. intros H. apply bind_inv in H as ([ai k1] & _ & H). apply bind_inv in H as (s1 & E & H). injection H as <- _.
  revert s E. generalize (seq 0 (Beta (e_pp env) l)). intros L. induction L as [|i L IH]; intros s E; cbn [foldM] in E. { now injection E as <-. }
  apply bind_inv in E as (s2 & E & E2). apply bind_inv in E as (d & E3 & E). apply bind_inv in E as (x & E4 & E). rewrite (IH _ E2).
  destruct (single_flags _ _ _ _ _ _ _ E4). eapply set_flags; eauto.
Qed.
Lemma eraseP_shp N p n : plen p = n -> shp N (p_co p) -> eraseP p = mkPoly (p_ntt p) (repeat (repeat 0 N) n).
Proof.
  intros <- H. unfold eraseP, plen. f_equal. unfold shp in H. induction (p_co p) as [|r l IH]; [reflexivity|]. inversion H as [|? ? [Hr _] Hl]; subst. cbn. f_equal; [|now apply IH].
  clear. induction r; cbn; congruence.
Qed.
Lemma erase_same pp s t : swk_ok pp s -> swk_ok pp t -> flags s = flags t -> erase s = erase t.
Proof.
  intros [_ Hs] [_ Ht] E.
  assert (X : forall v, Forall (qshp pp) v -> erase v = map (fun '(a, b) => mkQP (mkPoly a (repeat (repeat 0 (pa_N pp)) (QCount pp))) (mkPoly b (repeat (repeat 0 (pa_N pp)) (PCount pp)))) (flags v)).
  { intros v Hv. unfold flags. rewrite map_map. unfold erase. apply map_ext_in. intros x Hx. rewrite Forall_forall in Hv. destruct (Hv x Hx) as [[A1 A2] [B1 B2]].
    now rewrite (eraseP_shp _ _ _ A1 A2), (eraseP_shp _ _ _ B1 B2). }
  rewrite (X s Hs), (X t Ht). now rewrite E.
Qed.
Lemma Forall_mapi {X Y} (Q : Y -> Prop) (f : nat -> X -> Y) l i : (forall k x, In x l -> Q (f k x)) -> Forall Q (mapi f i l).
Proof. intros H. apply Forall_forall. intros y Hy. apply mapi_In in Hy as (k & x & E & ->). apply H. eapply nth_error_In; eauto. Qed.
Lemma view_shp b id i P N p m : mem_ok m -> shp N (p_co p) -> plen (viewPoly b id i P p m) = plen p /\ shp N (p_co (viewPoly b id i P p m)).
Proof.
  intros Hm Hp. unfold viewPoly, plen. cbn [p_co]. split; [apply mapi_length|]. apply Forall_mapi. intros j row Hr. unfold shp in Hp. rewrite Forall_forall in Hp. destruct (Hp row Hr) as [Hl _].
  split; [now rewrite mapi_length|]. apply Forall_mapi. intros k x _. apply Hm.
Qed.
Lemma view_ok pp b id t m : swk_ok pp t -> mem_ok m -> swk_ok pp (viewSwk b id t m).
Proof.
  intros [H1 H2] Hm. split; [unfold viewSwk; now rewrite mapi_length|]. apply Forall_mapi. intros i x Hx. rewrite Forall_forall in H2. destruct (H2 x Hx) as [[A1 A2] [B1 B2]].
  destruct (view_shp b id i false _ (qQ x) m Hm A2). destruct (view_shp b id i true _ (qP x) m Hm B2). unfold qshp. cbn [qQ qP]. split; split; first [assumption|congruence].
Qed.
Lemma view_flags b id t m : flags (viewSwk b id t m) = flags t.
Proof.
  unfold flags, viewSwk. generalize 0%nat. induction t as [|x t IH]; intros i; [reflexivity|]. cbn. now rewrite IH.
Qed.
Lemma pokes_ok : forall l m, mem_ok m -> (forall c x, In (c, x) l -> 0 <= x < W) -> mem_ok (pokes m l).
Proof.
  induction l as [|[c v] l IH]; intros m Hm H; [exact Hm|]. cbn. apply IH; [|intros; eapply H; right; eauto]. intros d. unfold poke. destruct (cell_dec c d); [|apply Hm]. apply (H c v). now left.
Qed.
Lemma cells_ok pp b id s c x : swk_ok pp s -> In (c, x) (swkCells b id s) -> 0 <= x < W.
Proof.
  intros [_ H] Hi. apply swk_cells in Hi as (i & P & j & k & e & row & -> & E1 & E2 & E3). rewrite Forall_forall in H. destruct (H e (nth_error_In _ _ E1)) as [[_ A] [_ B]].
  assert (HP : shp (pa_N pp) (p_co (if P then qP e else qQ e))) by (destruct P; assumption). unfold shp in HP. rewrite Forall_forall in HP. destruct (HP row (nth_error_In _ _ E2)) as [_ Hw].
  unfold words in Hw. rewrite Forall_forall in Hw. apply Hw. eapply nth_error_In; eauto.
Qed.
Lemma cells_at b id s c : In c (map fst (swkCells b id s)) -> cell_pool c = b /\ cell_id c = id.
Proof. intros H. apply in_map_iff in H as ([c' x] & <- & H). apply swk_cells in H as (i & P & j & k & e & row & -> & _). auto. Qed.

Section P.
Context (ce : ckenv) (He : env_ok (ce_env ce)).
Notation pp := (e_pp (ce_env ce)).
Notation wres := (wprog (res (ckct * evst))).

Definition entry_dec (b : bool) (l : nat) (op : ciphertext) (pool : hoisted) (m : memory) (id : string) : Prop := exists p t s0 k k',
  sget op id = Some p /\ sget pool id = Some t /\ swk_ok pp s0 /\ pool_ok pp k /\ Decompose (ce_env ce) l p s0 k = Ok (viewSwk b id t m, k').
(** one component: up to the stores, and after them *)
Lemma component b l op sc pool id st (m : memory) : (l < QCount pp)%nat -> ct_ok pp l op -> hoist_ready pp pool op -> party op id -> ev_ok pp st -> mem_ok m ->
  exists p t new kp, sget op id = Some p /\ sget pool id = Some t /\ swk_ok pp t /\ swk_ok pp new /\ erase new = erase t /\ ev_ok pp (set_k kp st) /\
    Decompose (ce_env ce) l p (viewSwk b id t m) (ev_k st) = Ok (new, kp) /\ swk_ok pp (viewSwk b id t m) /\
    forall L (k : evst -> wres), exists n, goes m (decompAll ce b (id :: L) (mkCk op sc) pool st k) n m (storeEntry b id new (decompAll ce b L (mkCk op sc) pool (set_k kp st) k)).
Proof.
  intros Hl Hc Hr Hi Hst Hm. destruct (ct_lift (ce_env ce) He l op Hl Hc) as (f & Hf). destruct (Hf id (proj1 Hi)) as (p & Ep & HPp & Hnt & _ & Hsh).
  destruct (Hr id Hi) as (t & Et & Ht). pose proof (view_ok pp b id t m Ht Hm) as Hv.
  destruct (digits_exist (ce_env ce) He l (p_co p) Hl) as (D & HD). { eapply (prep_input (ce_env ce) l (p_co p) (f id) (fun q => q + 1)); eauto. intros; lia. }
  destruct (Decompose_ok (ce_env ce) He l p D (viewSwk b id t m) (ev_k st) Hl (dsrc_coeff (ce_env ce) l p D Hnt HD) Hv (eo_k _ _ Hst)) as (new & kp & Ed & _ & Hs & Hk & _).
  exists p, t, new, kp. split; [exact Ep|]. split; [exact Et|]. split; [exact Ht|]. split; [exact Hs|]. split.
  { apply (erase_same pp); auto. rewrite (decompose_flags _ _ _ _ _ _ _ Ed). apply view_flags. }
  split; [now apply set_k_ok|]. split; [exact Ed|]. split; [exact Hv|]. intros L k. cbn [decompAll c_ct]. rewrite (ct_level (ce_env ce) l op Hc). cbn [bind]. unfold sptr, mptr. rewrite Ep. cbn [bind]. rewrite Et. cbn [bind].
  match goal with |- context [loadEntry b id t ?kk] => destruct (goes_loadEntry b id t m kk) as (n & H) end. exists n. rewrite Ed in H. exact H.
Qed.
Lemma decomp_goes b l op sc pool : (l < QCount pp)%nat -> ct_ok pp l op -> hoist_ready pp pool op -> forall L st m, NoDup L -> (forall id, In id L -> party op id) -> ev_ok pp st -> mem_ok m ->
  exists m' st', mem_ok m' /\ ev_ok pp st' /\ (forall id, In id L -> entry_dec b l op pool m' id) /\ (forall c, ~ (cell_pool c = b /\ In (cell_id c) L) -> m' c = m c) /\
    forall k : evst -> wres, exists n, goes m (decompAll ce b L (mkCk op sc) pool st k) n m' (k st').
Proof.
  intros Hl Hc Hr. induction L as [|id L IH]; intros st m Hnd HP Hst Hm.
  { exists m, st. split; [auto|]. split; [auto|]. split; [intros id []|]. split; [auto|]. intros k. exists 0%nat. apply goes_refl. }
  apply NoDup_cons_iff in Hnd as [Hni Hnd].
  destruct (component b l op sc pool id st m Hl Hc Hr (HP id (or_introl eq_refl)) Hst Hm) as (p & t & new & kp & Ep & Et & Ht & Hs & Her & Hst1 & Ed & Hv & HG).
  set (m1 := pokes m (swkCells b id new)). assert (Hm1 : mem_ok m1) by (apply pokes_ok; [exact Hm|]; intros c x Hx; exact (cells_ok pp b id new c x Hs Hx)).
  destruct (IH (set_k kp st) m1 Hnd) as (m' & st' & Hm' & Hst' & Hd & Hfr & HG2); auto. { intros x Hx. apply HP. now right. }
  exists m', st'. split; [auto|]. split; [auto|]. split; [|split].
  - intros x [<-|Hx]; [|now apply Hd]. exists p, t, (viewSwk b id t m), (ev_k st), kp. split; [auto|]. split; [auto|]. split; [auto|]. split; [apply Hst|]. rewrite Ed. do 2 f_equal.
    transitivity (viewSwk b id t m1); [symmetry; now apply view_stored|]. apply view_ext. intros c Hcc. symmetry. apply Hfr. destruct (cells_at _ _ _ _ Hcc) as [_ ->]. tauto.
  - intros c Hcc. rewrite Hfr. + apply pokes_other. intros X. destruct (cells_at _ _ _ _ X) as [X1 X2]. apply Hcc. split; [auto|left; auto]. + intros [X Y]. apply Hcc. cbn. auto.
  - intros k. destruct (HG L k) as (n1 & G1). destruct (goes_storeAll (swkCells b id new) m (decompAll ce b L (mkCk op sc) pool (set_k kp st) k)) as (n2 & G2). destruct (HG2 k) as (n3 & G3).
    exists (n3 + (n2 + n1))%nat. eapply goes_trans; [|exact G3]. eapply goes_trans; [exact G1|exact G2].
Qed.
Lemma loadPool_goes b pool m : forall L (k : hoisted -> wres), (forall id, In id L -> exists t, sget pool id = Some t) ->
  exists n h, goes m (loadPool b L pool k) n m (k h) /\ forall id t, In id L -> sget pool id = Some t -> sget h id = Some (viewSwk b id t m).
Proof.
  induction L as [|id L IH]; intros k HL. { exists 0%nat, []. split; [apply goes_refl|]. intros id t []. }
  destruct (HL id (or_introl eq_refl)) as (t & Et). cbn [loadPool]. unfold sptr, mptr. rewrite Et.
  match goal with |- context [loadEntry b id t ?kk] => destruct (goes_loadEntry b id t m kk) as (n1 & G1) end.
  destruct (IH (fun h => k ((id, viewSwk b id t m) :: h))) as (n2 & h & G2 & Hh). { intros x Hx. apply HL. now right. }
  exists (n2 + n1)%nat, ((id, viewSwk b id t m) :: h). split. { eapply goes_trans; [exact G1|exact G2]. }
  intros x t' Hx Ex. cbn. destruct (String.eqb_spec x id) as [->|Hne]; [congruence|]. destruct Hx as [|Hx]; [congruence|]. now apply Hh.
Qed.
Lemma hoisted_of b l op pool m h (L : list string) : (forall id, party op id -> In id L) -> (forall id, In id L -> entry_dec b l op pool m id) ->
  (forall id t, In id L -> sget pool id = Some t -> sget h id = Some (viewSwk b id t m)) -> hoisted_at (ce_env ce) l op h.
Proof.
  intros HL Hd Hh id Hid. destruct (Hd id (HL id Hid)) as (p & t & s0 & k & k' & E1 & E2 & E3 & E4 & E5). exists p, s0, (viewSwk b id t m), k, k'. split; [auto|]. split; [apply (Hh id t); auto|auto].
Qed.

Context (g : nat -> Z) (A U : nat -> zpoly) (s r : string -> zpoly) (Bs Be Dm : Z) (rs : rlkpool).
Lemma ids_of c (op : ciphertext) m : order_ok (cc_o c) -> exists ids, ctIDSet (cc_o c) op = Ok ids /\ NoDup (cc_o c m (mkeys ids)) /\ forall id, In id (cc_o c m (mkeys ids)) <-> party op id.
Proof. intros Ho. destruct (ctIDSet_ok (cc_o c) op Ho) as (ids & E & Q & K). exists ids. split; [exact E|]. exact (order_ids (cc_o c) ids op m Ho (proj1 Q) K). Qed.
(** a call alone *)
Lemma mul_ends l0 l1 n c st m : call_ok ce g A U s r Bs Be Dm rs l0 l1 n c -> ev_ok pp st -> mem_ok m ->
  exists k m' out st', alone k (m, mulProg ce c rs st) = (m', WDone (Ok (out, st'))) /\ product_of ce s Bs Be Dm l0 l1 n c out.
Proof.
  intros [HS Hsame Hh0 Hh1 Ho Hn] Hst Hm. pose proof HS as [M0 M1 L0 L1 _ _ _ _ _].
  destruct (ids_of c (c_ct (cc_op0 c)) 1%nat Ho) as (ids0 & E0 & N0 & K0). destruct (ids_of c (c_ct (cc_op1 c)) 2%nat Ho) as (ids1 & E1 & N1 & K1).
  unfold mulProg. rewrite E0. cbn [bind]. rewrite E1. cbn [bind]. set (X0 := cc_o c 1%nat (mkeys ids0)) in *. set (X1 := cc_o c 2%nat (mkeys ids1)) in *.
  destruct (cc_op0 c) as [x0 y0] eqn:P0. destruct (cc_op1 c) as [x1 y1] eqn:P1. cbn [c_ct c_scale] in *.
  assert (R0 : forall id, In id X0 -> exists t, sget (rs_h0 rs) id = Some t). { intros id Hid. destruct (Hh0 id (proj1 (K0 id) Hid)) as (t & Et & _). eauto. }
  assert (R1 : forall id, In id X1 -> exists t, sget (rs_h1 rs) id = Some t). { intros id Hid. destruct (Hh1 id (proj1 (K1 id) Hid)) as (t & Et & _). eauto. }
  destruct (decomp_goes false l0 x0 y0 (rs_h0 rs) L0 M0 Hh0 X0 st m N0 (fun id H => proj1 (K0 id) H) Hst Hm) as (m1 & st1 & Hm1 & Hst1 & Hd0 & _ & G0).
  match goal with |- context [decompAll ce false X0 _ _ _ ?kk] => destruct (G0 kk) as (n0 & G0') end. clear G0.
  destruct (cc_same c) eqn:Es.
  - specialize (Hsame eq_refl). injection Hsame as -> ->.
    assert (El : l1 = l0). { destruct (mget_ex _ seqb x0 _ (ck_0 _ _ _ M0)) as (p & Ep). destruct (ck_comp _ _ _ M0 _ _ Ep) as (_ & X & _). destruct (ck_comp _ _ _ M1 _ _ Ep) as (_ & Y & _). lia. } subst l1.
    match type of G0' with context [loadPool false X0 _ ?kk] => destruct (loadPool_goes false (rs_h0 rs) m1 X0 kk R0) as (n1 & h & G1 & Hh) end.
    assert (HH : hoisted_at (ce_env ce) l0 x0 h) by exact (hoisted_of false l0 x0 (rs_h0 rs) m1 h X0 (fun id H => proj2 (K0 id) H) Hd0 Hh).
    destruct (mul_hoisted_new ce He g A U s r Bs Be Dm x0 x0 y0 y0 l0 l0 (rs_keys rs) (Some h) (Some h) (cc_o c) st1 HS HH HH Ho Hst1) as [G _].
    destruct (G n Hn) as (out & st' & E & _ & HR). exists (n1 + n0)%nat, m1, out, st'. split.
    + rewrite alone_add. unfold goes in G0', G1. rewrite G0', G1, E. reflexivity.
    + unfold product_of. rewrite P0, P1. exact HR.
  - destruct (decomp_goes true l1 x1 y1 (rs_h1 rs) L1 M1 Hh1 X1 st1 m1 N1 (fun id H => proj1 (K1 id) H) Hst1 Hm1) as (m2 & st2 & Hm2 & Hst2 & Hd1 & Hfr & G1).
    match type of G0' with context [decompAll ce true X1 _ _ _ ?kk] => destruct (G1 kk) as (n1 & G1') end. clear G1.
    match type of G1' with context [loadPool false X0 _ ?kk] => destruct (loadPool_goes false (rs_h0 rs) m2 X0 kk R0) as (n2 & h0 & G2 & Hha) end.
    match type of G2 with context [loadPool true X1 _ ?kk] => destruct (loadPool_goes true (rs_h1 rs) m2 X1 (fun h1 => WDone (MulRelinHoistedNew ce (cc_o c) (mkCk x0 y0) (mkCk x1 y1) (Some h0) (Some h1) (rs_keys rs) st2)) R1) as (n3 & h1 & G3 & Hhb) end.
    assert (HA : hoisted_at (ce_env ce) l0 x0 h0).
    { apply (hoisted_of false l0 x0 (rs_h0 rs) m2 h0 X0 (fun id H => proj2 (K0 id) H)); [|exact Hha]. intros id Hid. destruct (Hd0 id Hid) as (p & t & s0 & k & k' & A1 & A2 & A3 & A4 & A5).
      exists p, t, s0, k, k'. split; [auto|]. split; [auto|]. split; [auto|]. split; [auto|]. rewrite A5. do 2 f_equal. apply view_ext. intros d Hdd. symmetry. apply Hfr. destruct (cells_at _ _ _ _ Hdd) as [-> _]. intros [? _]. discriminate. }
    assert (HB : hoisted_at (ce_env ce) l1 x1 h1) by exact (hoisted_of true l1 x1 (rs_h1 rs) m2 h1 X1 (fun id H => proj2 (K1 id) H) Hd1 Hhb).
    destruct (mul_hoisted_new ce He g A U s r Bs Be Dm x0 x1 y0 y1 l0 l1 (rs_keys rs) (Some h0) (Some h1) (cc_o c) st2 HS HA HB Ho Hst2) as [G _].
    destruct (G n Hn) as (out & st' & E & _ & HR). exists (n3 + (n2 + (n1 + n0)))%nat, m2, out, st'. split.
    + rewrite !alone_add. unfold goes in G0', G1', G2, G3. rewrite G0', G1', G2. etransitivity; [exact G3|]. now rewrite E.
    + unfold product_of. rewrite P0, P1. exact HR.
Qed.

(** ** footprints *)
Definition foot (c : ccall) (d : cell) : Prop :=
  (cell_pool d = false /\ party (c_ct (cc_op0 c)) (cell_id d)) \/ (cell_pool d = true /\ cc_same c = false /\ party (c_ct (cc_op1 c)) (cell_id d)).
Lemma cf_storeAll {X} (F R : cell -> Prop) l (k : wprog X) : (forall c, In c (map fst l) -> F c) -> confined F R k -> confined F R (storeAll l k).
Proof. induction l as [|[c v] l IH]; intros H Hk; cbn; [exact Hk|]. constructor; [apply H; now left|]. apply IH; auto. intros d Hd. apply H. now right. Qed.
Lemma cf_loadAll {X} (F R : cell -> Prop) : forall l got (k : memory -> wprog X), (forall c, In c l -> F c) -> (forall m, confined F R (k m)) -> confined F R (loadAll l got k).
Proof. induction l as [|c l IH]; intros got k H Hk; cbn; [apply Hk|]. constructor; [left; apply H; now left|]. intros v. apply IH; auto. intros d Hd. apply H. now right. Qed.
Lemma cf_loadEntry {X} (F R : cell -> Prop) b id t (k : swk -> wprog X) : (forall c, cell_pool c = b -> cell_id c = id -> F c) -> (forall e, confined F R (k e)) -> confined F R (loadEntry b id t k).
Proof. intros H Hk. apply cf_loadAll; [|auto]. intros c Hc. destruct (cells_at _ _ _ _ Hc). auto. Qed.
Lemma cf_storeEntry {X} (F R : cell -> Prop) b id e (k : wprog X) : (forall c, cell_pool c = b -> cell_id c = id -> F c) -> confined F R k -> confined F R (storeEntry b id e k).
Proof. intros H Hk. apply cf_storeAll; [|auto]. intros c Hc. destruct (cells_at _ _ _ _ Hc). auto. Qed.
Lemma cf_decompAll (F R : cell -> Prop) b op pool : forall L st (k : evst -> wres), (forall c, cell_pool c = b -> In (cell_id c) L -> F c) -> (forall st, confined F R (k st)) -> confined F R (decompAll ce b L op pool st k).
Proof.
  induction L as [|id L IH]; intros st k H Hk; cbn [decompAll]; [apply Hk|]. destruct (bind _ _) as [[[l a] t]|e]; [|constructor].
  apply cf_loadEntry. { intros c H1 H2. apply H; [auto|left; auto]. } intros old. destruct (Decompose _ _ _ _ _) as [[new kp]|e]; [|constructor].
  apply cf_storeEntry. { intros c H1 H2. apply H; [auto|left; auto]. } apply IH; [|auto]. intros c H1 H2. apply H; [auto|now right].
Qed.
Lemma cf_loadPool (F R : cell -> Prop) b pool : forall L (k : hoisted -> wres), (forall c, cell_pool c = b -> In (cell_id c) L -> F c) -> (forall h, confined F R (k h)) -> confined F R (loadPool b L pool k).
Proof.
  induction L as [|id L IH]; intros k H Hk; cbn [loadPool]; [apply Hk|]. destruct (sptr pool id) as [t|e]; [|constructor].
  apply cf_loadEntry. { intros c H1 H2. apply H; [auto|left; auto]. } intros e. apply IH; [|auto]. intros c H1 H2. apply H; [auto|now right].
Qed.
Lemma mul_confined c st : order_ok (cc_o c) -> confined (foot c) (fun _ => False) (mulProg ce c rs st).
Proof.
  intros Ho. destruct (ids_of c (c_ct (cc_op0 c)) 1%nat Ho) as (ids0 & E0 & N0 & K0). destruct (ids_of c (c_ct (cc_op1 c)) 2%nat Ho) as (ids1 & E1 & N1 & K1).
  unfold mulProg. rewrite E0. cbn [bind]. rewrite E1. cbn [bind].
  assert (F0 : forall d, cell_pool d = false -> In (cell_id d) (cc_o c 1%nat (mkeys ids0)) -> foot c d) by (intros d H1 H2; left; split; [auto|now apply K0]).
  apply cf_decompAll; [exact F0|]. intros st1. destruct (cc_same c) eqn:Es.
  - apply cf_loadPool; [exact F0|]. intros h. constructor.
  - assert (F1 : forall d, cell_pool d = true -> In (cell_id d) (cc_o c 2%nat (mkeys ids1)) -> foot c d) by (intros d H1 H2; right; split; [auto|split; [exact Es|now apply K1]]).
    apply cf_decompAll; [exact F1|]. intros st2. apply cf_loadPool; [exact F0|]. intros h0. apply cf_loadPool; [exact F1|]. intros h1. constructor.
Qed.
Lemma foot_shares c d x : foot c x -> foot d x -> shares c d.
Proof. intros [[P1 H1]|(P1 & S1 & H1)] [[P2 H2]|(P2 & S2 & H2)]; try congruence; exists (cell_id x); tauto. Qed.

Context (T : nat) (l0 l1 n : nat -> nat) (calls : nat -> ccall) (HC : forall i, (i < T)%nat -> call_ok ce g A U s r Bs Be Dm rs (l0 i) (l1 i) (n i) (calls i)).
Context (evs : nat -> evst) (Hev : forall i, (i < T)%nat -> ev_ok pp (evs i)) (m0 : memory) (Hm0 : mem_ok m0).
Notation progs := (goroutines ce T calls rs evs).
Lemma progs_lt i : (i < T)%nat -> progs i = mulProg ce (calls i) rs (evs i).
Proof. intros H. unfold goroutines. apply Nat.ltb_lt in H. now rewrite H. Qed.
Definition feet (i : nat) (c : cell) : Prop := (i < T)%nat /\ foot (calls i) c.
Lemma feet_confined i : confined (feet i) (fun _ => False) (progs i).
Proof.
  unfold goroutines. destruct (Nat.ltb_spec i T) as [H|H]; [|constructor]. pose proof (mul_confined (calls i) (evs i) (co_ord _ _ _ _ _ _ _ _ _ _ _ _ _ _ (HC i H))) as X.
  revert X. generalize (mulProg ce (calls i) rs (evs i)). intros p X. induction X; constructor; auto; unfold feet; tauto.
Qed.
Lemma words_correct : (forall i j, (i < T)%nat -> (j < T)%nat -> i <> j -> ~ shares (calls i) (calls j)) -> forall i, (i < T)%nat -> exists k, forall sched,
  let p := ww_t (wrun sched (mkWW m0 progs)) i in
  (forall e, p <> WDone (Panic e)) /\ (forall out st, p = WDone (Ok (out, st)) -> product_of ce s Bs Be Dm (l0 i) (l1 i) (n i) (calls i) out) /\
  ((k <= count_occ Nat.eq_dec sched i)%nat -> exists out st, p = WDone (Ok (out, st))).
Proof.
  intros HS i Hi. destruct (mul_ends (l0 i) (l1 i) (n i) (calls i) (evs i) m0 (HC i Hi) (Hev i Hi) Hm0) as (k & m' & out & st' & E & HR). exists k. intros sched p.
  assert (Ep : p = snd (alone (count_occ Nat.eq_dec sched i) (m0, mulProg ce (calls i) rs (evs i)))).
  { rewrite <- (progs_lt i Hi). apply (isolated feet (fun _ => False) progs m0) with (sched := sched) (i := i); [exact feet_confined| |tauto].
    intros a b c Hab [La Ha] [Lb Hb]. exact (HS a b La Lb Hab (foot_shares _ _ _ Ha Hb)). }
  assert (X : forall j a, snd (alone j (m0, mulProg ce (calls i) rs (evs i))) = WDone a -> a = Ok (out, st')).
  { intros j a Ej. destruct (le_ge_dec j k) as [Hle|Hge].
    - replace k with ((k - j) + j)%nat in E by lia. rewrite alone_add in E. destruct (alone j _) as [mj pj]. cbn in Ej. subst pj. rewrite alone_done in E. congruence.
    - replace j with ((j - k) + k)%nat in Ej by lia. rewrite alone_add, E, alone_done in Ej. cbn in Ej. congruence. }
  split; [|split].
  - intros e Ee. rewrite Ep in Ee. apply X in Ee. discriminate.
  - intros out' st Ee. rewrite Ep in Ee. apply X in Ee. injection Ee as -> ->. exact HR.
  - intros Hk. exists out, st'. rewrite Ep. replace (count_occ Nat.eq_dec sched i) with ((count_occ Nat.eq_dec sched i - k) + k)%nat by lia. now rewrite alone_add, E, alone_done.
Qed.

(** ** races *)
Lemma confined_run {X} (F : nat -> cell -> Prop) R (ps : nat -> wprog X) m : (forall i, confined (F i) R (ps i)) -> forall sched i, confined (F i) R (ww_t (wrun sched (mkWW m ps)) i).
Proof.
  intros H sched. induction sched as [|a l IH] using rev_ind; [exact H|]. intros i. unfold wrun. rewrite fold_left_app. cbn [fold_left]. unfold wstep. cbn [ww_t].
  destruct (Nat.eqb_spec i a) as [->|]; [|apply IH]. apply confined_access, IH.
Qed.
Lemma next_foot {X} (F : cell -> Prop) (p : wprog X) c a : confined F (fun _ => False) p -> next p = Some (c, a) -> F c.
Proof. intros H E. inversion H; subst; cbn in E; try discriminate; injection E as <- _; tauto. Qed.
Lemma repeat_run {X} : forall k i (w : wworld X), wrun (repeat i k) w = mkWW (fst (alone k (ww_mem w, ww_t w i))) (ww_t (wrun (repeat i k) w)) /\
  (forall j, ww_t (wrun (repeat i k) w) j = if Nat.eqb j i then snd (alone k (ww_mem w, ww_t w i)) else ww_t w j).
Proof.
  induction k as [|k IH]; intros i w. { cbn. split; [now destruct w|]. intros j. now destruct (Nat.eqb_spec j i) as [->|]. }
  cbn [repeat wrun fold_left]. fold (wrun (repeat i k) (wstep w i)). destruct (IH i (wstep w i)) as [E1 E2]. rewrite alone_l.
  assert (Es : (ww_mem (wstep w i), ww_t (wstep w i) i) = access (ww_mem w, ww_t w i)). { unfold wstep. cbn [ww_mem ww_t]. rewrite Nat.eqb_refl. now destruct (access _). }
  rewrite <- Es. split; [exact E1|]. intros j. rewrite E2. unfold wstep. cbn [ww_t]. now destruct (Nat.eqb j i).
Qed.
Lemma first_cell b id e : swk_ok pp e -> exists x l, swkCells b id e = ((b, id, 0%nat, false, 0%nat, 0%nat), x) :: l.
Proof.
  intros [Hlen HF]. pose proof (eo_pp _ He) as Hpp. assert (HB : (1 <= Beta pp (maxLevel pp))%nat). { apply (Beta_pos (ce_env ce) He). unfold maxLevel. destruct Hpp. lia. }
  destruct e as [|y e]; [cbn in Hlen; lia|]. inversion HF as [|? ? [[HQ Hs] _] _]; subst. destruct (qQ y) as [fl co] eqn:Ey. unfold plen in HQ. cbn [p_co] in *. destruct Hpp as [_ _ _ _ _ _ _ HQ1 _].
  destruct co as [|row co]; [cbn in HQ; lia|]. inversion Hs as [|? ? [Hr _] _]; subst. destruct row as [|x row]. { cbn in Hr. exfalso. pose proof (NTTProofs.deg_pos (pa_logN pp)). unfold pa_N in Hr. lia. }
  unfold swkCells, polyCells. cbn [mapi List.concat]. rewrite Ey. cbn. eauto.
Qed.
Lemma reach b l op sc pool : (l < QCount pp)%nat -> ct_ok pp l op -> hoist_ready pp pool op -> forall L st m id, NoDup L -> (forall x, In x L -> party op x) -> ev_ok pp st -> mem_ok m -> In id L ->
  forall k : evst -> wres, exists n m' v q, mem_ok m' /\ goes m (decompAll ce b L (mkCk op sc) pool st k) n m' (WStore (b, id, 0%nat, false, 0%nat, 0%nat) v q).
Proof.
  intros Hl Hc Hr. induction L as [|a L IH]; intros st m id Hnd HP Hst Hm Hid k; [destruct Hid|]. apply NoDup_cons_iff in Hnd as [Hni Hnd].
  destruct (component b l op sc pool a st m Hl Hc Hr (HP a (or_introl eq_refl)) Hst Hm) as (p & t & new & kp & Ep & Et & Ht & Hs & Her & Hst1 & Ed & Hv & HG). destruct (HG L k) as (n1 & G1).
  destruct (string_dec a id) as [->|Hne].
  - destruct (first_cell b id new Hs) as (x & rest & Ec). exists n1, m, x, (storeAll rest (decompAll ce b L (mkCk op sc) pool (set_k kp st) k)). split; [exact Hm|].
    unfold storeEntry in G1. rewrite Ec in G1. exact G1.
  - set (m1 := pokes m (swkCells b a new)). assert (Hm1 : mem_ok m1) by (apply pokes_ok; [exact Hm|]; intros c x Hx; exact (cells_ok pp b a new c x Hs Hx)).
    destruct (goes_storeAll (swkCells b a new) m (decompAll ce b L (mkCk op sc) pool (set_k kp st) k)) as (n2 & G2).
    destruct (IH (set_k kp st) m1 id Hnd) with (k := k) as (n3 & m' & v & q & Hm' & G3); auto. { intros x Hx. apply HP. now right. } { destruct Hid; [congruence|auto]. }
    exists (n3 + (n2 + n1))%nat, m', v, q. split; [exact Hm'|]. eapply goes_trans; [|exact G3]. eapply goes_trans; [exact G1|exact G2].
Qed.
Lemma reach_call i (b : bool) id m : (i < T)%nat -> mem_ok m -> (if b then cc_same (calls i) = false /\ party (c_ct (cc_op1 (calls i))) id else party (c_ct (cc_op0 (calls i))) id) ->
  exists k m' v q, mem_ok m' /\ alone k (m, progs i) = (m', WStore (b, id, 0%nat, false, 0%nat, 0%nat) v q).
Proof.
  intros Hi Hm Hb. rewrite (progs_lt i Hi). destruct (HC i Hi) as [HS Hsame Hh0 Hh1 Ho Hn]. pose proof HS as [M0 M1 L0 L1 _ _ _ _ _].
  destruct (ids_of (calls i) (c_ct (cc_op0 (calls i))) 1%nat Ho) as (ids0 & E0 & N0 & K0). destruct (ids_of (calls i) (c_ct (cc_op1 (calls i))) 2%nat Ho) as (ids1 & E1 & N1 & K1).
  unfold mulProg. rewrite E0. cbn [bind]. rewrite E1. cbn [bind]. destruct (cc_op0 (calls i)) as [x0 y0] eqn:P0. destruct (cc_op1 (calls i)) as [x1 y1] eqn:P1. cbn [c_ct c_scale] in *.
  destruct b.
  - destruct Hb as [Es Hb]. rewrite Es. destruct (decomp_goes false (l0 i) x0 y0 (rs_h0 rs) L0 M0 Hh0 _ (evs i) m N0 (fun id H => proj1 (K0 id) H) (Hev i Hi) Hm) as (m1 & st1 & Hm1 & Hst1 & _ & _ & G0).
    match goal with |- context [decompAll ce false _ _ _ _ ?kk] => destruct (G0 kk) as (n0 & G0') end.
    match type of G0' with context [decompAll ce true ?X _ _ st1 ?kk] => destruct (reach true (l1 i) x1 y1 (rs_h1 rs) L1 M1 Hh1 X st1 m1 id N1 (fun id H => proj1 (K1 id) H) Hst1 Hm1 (proj2 (K1 id) Hb) kk) as (k & m' & v & q & Hm' & G1) end.
    exists (k + n0)%nat, m', v, q. split; [exact Hm'|]. exact (goes_trans _ _ _ _ _ _ _ _ G0' G1).
  - match goal with |- context [decompAll ce false ?X _ _ _ ?kk] => destruct (reach false (l0 i) x0 y0 (rs_h0 rs) L0 M0 Hh0 X (evs i) m id N0 (fun id H => proj1 (K0 id) H) (Hev i Hi) Hm (proj2 (K0 id) Hb) kk) as (k & m' & v & q & Hm' & G1) end.
    exists k, m', v, q. auto.
Qed.
Lemma race_iff i j : (i < T)%nat -> (j < T)%nat -> i <> j -> (exists sched, let w := wrun sched (mkWW m0 progs) in racing (ww_t w i) (ww_t w j)) <-> shares (calls i) (calls j).
Proof.
  intros Ti Tj Hne. split.
  - intros (sched & c & a & b & E1 & E2 & _). pose proof (confined_run feet _ progs m0 feet_confined sched) as HX.
    exact (foot_shares _ _ c (proj2 (next_foot _ _ _ _ (HX i) E1)) (proj2 (next_foot _ _ _ _ (HX j) E2))).
  - intros (id & H). assert (HX : exists b : bool, (if b then cc_same (calls i) = false /\ party (c_ct (cc_op1 (calls i))) id else party (c_ct (cc_op0 (calls i))) id) /\ (if b then cc_same (calls j) = false /\ party (c_ct (cc_op1 (calls j))) id else party (c_ct (cc_op0 (calls j))) id)).
    { destruct H as [H|H]; [exists false|exists true]; tauto. }
    destruct HX as (b & Hi & Hj). destruct (reach_call i b id m0 Ti Hm0 Hi) as (ki & mi & vi & qi & Hmi & Gi). destruct (reach_call j b id mi Tj Hmi Hj) as (kj & mj & vj & qj & _ & Gj).
    exists (repeat i ki ++ repeat j kj). cbv zeta. unfold wrun. rewrite fold_left_app. fold (wrun (repeat i ki) (mkWW m0 progs)).
    destruct (repeat_run ki i (mkWW m0 progs)) as [A1 A2]. cbn [ww_mem ww_t] in A1, A2. rewrite Gi in A1, A2. cbn [fst snd] in A1, A2.
    set (w1 := wrun (repeat i ki) (mkWW m0 progs)) in *. fold (wrun (repeat j kj) w1). destruct (repeat_run kj j w1) as [_ B2].
    assert (Em : ww_mem w1 = mi) by (now rewrite A1). assert (Ej : ww_t w1 j = progs j). { rewrite A2. destruct (Nat.eqb_spec j i); [congruence|reflexivity]. }
    rewrite Em, Ej, Gj in B2. cbn [snd] in B2. exists (b, id, 0%nat, false, 0%nat, 0%nat), true, true. rewrite (B2 i), (B2 j), Nat.eqb_refl. destruct (Nat.eqb_spec i j); [congruence|]. rewrite A2, Nat.eqb_refl. cbn. auto.
Qed.
End P.
