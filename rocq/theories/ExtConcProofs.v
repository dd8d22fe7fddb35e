(** Proofs of C75. *)
From Coq Require Import String ZArith List Lia Bool Arith.
From Verif Require Import Go GoProofs Lattigo Arith BasisExt NTT RingOps Params HeapProofs Words SpecWords WordsProofs WordsThms DownNTT ExtConc SpecExt.
Import ListNotations.
Open Scope list_scope.
Local Open Scope nat_scope.

(** ** objects *)
Definition xwf (s : xstate) : Prop := (forall i x, nth_error (fst s) i = Some (Some x) -> xo_pool x < snd s) /\
  forall i j x y, nth_error (fst s) i = Some (Some x) -> nth_error (fst s) j = Some (Some y) -> xo_pool x = xo_pool y -> i = j.
Lemma x_app_inv {A} (l : list A) x i y : nth_error (l ++ [x]) i = Some y -> nth_error l i = Some y \/ i = List.length l /\ y = x.
Proof.
  intros H. destruct (Nat.lt_ge_cases i (List.length l)) as [Hi|Hi]. { left. now rewrite nth_error_app1 in H. }
  right. rewrite nth_error_app2 in H by lia. destruct (i - List.length l)%nat eqn:E; cbn in H; [injection H as <-; split; [lia|reflexivity]|destruct n; discriminate].
Qed.
Lemma x_new vs n b : xwf (vs, n) -> xwf (vs ++ [Some (mkXo b n)], S n).
Proof.
  intros [H1 H2]. cbn [fst snd] in *. split; cbn [fst snd].
  - intros i x E. apply x_app_inv in E as [E|[_ E]]; [apply H1 in E; lia|injection E as ->; cbn; lia].
  - intros i j x y E F G. apply x_app_inv in E as [E|[-> E]]; apply x_app_inv in F as [F|[-> F]]; [eauto| | |reflexivity].
    + injection F as ->. apply H1 in E. cbn in G. lia. + injection E as ->. apply H1 in F. cbn in G. lia.
Qed.
Lemma x_nil vs n : xwf (vs, n) -> xwf (vs ++ [None], n).
Proof.
  intros [H1 H2]. cbn [fst snd] in *. split; cbn [fst snd].
  - intros i x E. apply x_app_inv in E as [E|[_ E]]; [eauto|discriminate].
  - intros i j x y E F G. apply x_app_inv in E as [E|[-> E]]; [|discriminate]. apply x_app_inv in F as [F|[-> F]]; [eauto|discriminate].
Qed.
Lemma x_step s i s' : xwf s -> stepX s i = Ok s' -> xwf s'.
Proof.
  destruct s as [vs n]. intros W H. destruct i; cbn in H; [injection H as <-; now apply x_new|injection H as <-; now apply x_nil|].
  apply bind_ok in H as (v & _ & H). destruct v; injection H as <-; [now apply x_new|now apply x_nil].
Qed.
Lemma x_run I : forall s s', xwf s -> foldM stepX I s = Ok s' -> xwf s'.
Proof. induction I as [|i I IH]; intros s s' W H; cbn in H; [injection H as <-; exact W|]. apply bind_ok in H as (s1 & H1 & H2). exact (IH s1 s' (x_step _ _ _ W H1) H2). Qed.
Lemma x_wf I s : runX I = Ok s -> xwf s.
Proof. apply x_run. split; cbn; intros; destruct i; discriminate. Qed.
Lemma objects_thm I vs n : runX I = Ok (vs, n) ->
  (forall i j x y, nth_error vs i = Some (Some x) -> nth_error vs j = Some (Some y) -> i <> j -> xo_pool x <> xo_pool y) /\
  (forall k v, nth_error vs k = Some v -> exists vs' n', stepX (vs, n) (XCopy k) = Ok (vs', n') /\ firstn (List.length vs) vs' = vs /\ List.length vs' = S (List.length vs) /\
     (v = None -> nth_error vs' (List.length vs) = Some None) /\
     (forall x, v = Some x -> exists y, nth_error vs' (List.length vs) = Some (Some y) /\ xo_tab y = xo_tab x /\ forall j z, nth_error vs j = Some (Some z) -> xo_pool y <> xo_pool z)).
Proof.
  intros H. pose proof (x_wf _ _ H) as [W1 W2]. cbn [fst snd] in *. split; [intros i j x y E F Hne G; apply Hne; eauto|].
  intros k v E. cbn [stepX]. unfold idx. rewrite E. cbn [bind]. destruct v as [x|]; eexists _, _; (split; [reflexivity|]);
    (split; [rewrite firstn_app, Nat.sub_diag, firstn_all, firstn_O, app_nil_r; reflexivity|]); (split; [rewrite app_length; cbn; lia|]); rewrite nth_error_app2, Nat.sub_diag by lia.
  - split; [discriminate|]. intros x' Ex. injection Ex as <-. eexists. split; [reflexivity|]. split; [reflexivity|]. cbn. intros j z F. apply W1 in F. lia.
  - split; [reflexivity|discriminate].
Qed.

(** ** the words of a scratch polynomial *)
Lemma xc_in n P up c x : In (c, x) (xcells n P up) <-> exists j k row, c = (false, EmptyString, n, P, j, k) /\ nth_error up j = Some row /\ nth_error row k = Some x.
Proof. unfold xcells. rewrite poly_cells. cbn [p_co]. reflexivity. Qed.
Lemma xc_fun n P up a x y : In (a, x) (xcells n P up) -> In (a, y) (xcells n P up) -> x = y.
Proof. rewrite !xc_in. intros (j & k & row & -> & E1 & E2) (j' & k' & row' & E & F1 & F2). injection E as <- <-. replace row' with row in * by congruence. congruence. Qed.
Lemma eight_in l e : In e (byEight l) <-> In e l.
Proof.
  unfold byEight. rewrite in_concat. split.
  - intros (L & H1 & H2). apply in_map_iff in H1 as (b & <- & _). now apply filter_In in H2.
  - intros H. exists (filter (fun e' => Nat.eqb (cell_k (fst e') / 8) (cell_k (fst e) / 8)) l). split; [|apply filter_In; split; [exact H|apply Nat.eqb_refl]].
    apply in_map_iff. exists (cell_k (fst e) / 8). split; [reflexivity|]. apply in_seq. split; [lia|]. cbn [Nat.add].
    assert (X : cell_k (fst e) <= list_max (map (fun e => cell_k (fst e)) l)).
    { pose proof (proj1 (list_max_le (map (fun e => cell_k (fst e)) l) _) (le_n _)) as F. rewrite Forall_forall in F. apply F. apply in_map_iff. eauto. }
    pose proof (Nat.div_le_upper_bound (cell_k (fst e)) 8 (cell_k (fst e))). lia.
Qed.
Lemma xview_ext n P up m m' : (forall c, In c (map fst (xcells n P up)) -> m c = m' c) -> xview n P up m = xview n P up m'.
Proof.
  intros H. unfold xview. f_equal. apply view_poly_ext. cbn [p_co]. intros j k row x E1 E2. apply H. apply in_map_iff. exists ((false, EmptyString, n, P, j, k), x). split; [reflexivity|]. apply xc_in. eauto 6.
Qed.
Lemma xview_self n P up m : (forall c x, In (c, x) (xcells n P up) -> m c = x) -> xview n P up m = up.
Proof.
  intros H. unfold xview, viewPoly. cbn [p_co]. transitivity (mapi (fun _ (r : list Z) => r) 0 up); [|apply mapi_id]. apply mapi_ext. intros j row E1. cbn [Nat.add].
  transitivity (mapi (fun _ (x : Z) => x) 0 row); [|apply mapi_id]. apply mapi_ext. intros k x E2. cbn [Nat.add]. apply H. apply xc_in. eauto 6.
Qed.
(** storing and loading back, undisturbed *)
Lemma goes_pool {A} l n P up m (k : limbs -> wprog A) : (forall e, In e l <-> In e (xcells n P up)) -> exists t m', goes m (storeAll l (loadPool n P up k)) t m' (k up).
Proof.
  intros Hl. destruct (goes_storeAll l m (loadPool n P up k)) as (t & G1). destruct (goes_loadAll (map fst (xcells n P up)) (pokes m l) (fun _ => 0%Z) (fun m0 => k (xview n P up m0))) as (t' & G2).
  assert (X : xview n P up (gots (pokes m l) (map fst (xcells n P up)) (fun _ => 0%Z)) = up).
  { rewrite (xview_ext _ _ _ _ (pokes m l)); [|intros c Hc; apply gots_in; now left]. apply xview_self. intros c x Hx. apply pokes_in; [|now apply Hl]. intros a u v Hu Hv. apply Hl in Hu. apply Hl in Hv. eapply xc_fun; eauto. }
  rewrite X in G2. exists (t' + t), (pokes m l). eapply goes_trans; [exact G1|exact G2].
Qed.
Lemma mapi_nth {X Y} (f : nat -> X -> Y) : forall l i s, nth_error (mapi f s l) i = option_map (f (s + i)) (nth_error l i).
Proof. induction l as [|a l IH]; intros [|i] s; cbn; auto; [now rewrite Nat.add_0_r|]. rewrite IH. now rewrite Nat.add_succ_r. Qed.
Lemma finish_ok lzi lzn rQ rP b lQ lP p1Q p1P p2Q y up : InvNTTLazyLvl lzi rP lP p1P p1P = Ok y -> ModUpPtoQ b lP lQ (p_co y) = Ok up ->
  downFinish rQ b lQ lP p1Q y p2Q (nttLimbs lzn rQ up) = callVal b (CDownNTT lzi lzn rQ rP lQ lP p1Q p1P p2Q).
Proof.
  intros E1 E2. unfold callVal, ModDownQPtoQNTT, downFinish. rewrite E1. cbn [bind]. rewrite E2. cbn [bind]. destruct (idx (modDownPtoQ b) lP) as [row|]; cbn [bind]; [|reflexivity].
  match goal with |- bind (mapM ?f _) _ = bind (bind (mapM ?g _) _) _ => assert (X : forall i, f i = g i) end.
  { intros i. unfold idx at 1 6. unfold nttLimbs, idx. rewrite mapi_nth. cbn [Nat.add]. destruct (nth_error (r_mods rQ) i) as [q|]; cbn [bind]; [|reflexivity]. destruct (nth_error (p_co p1Q) i); cbn [bind]; [|reflexivity].
    destruct (nth_error up i); cbn [bind option_map]; [|reflexivity]. destruct (nth_error row i); cbn [bind]; [|reflexivity]. destruct (nth_error (r_psi rQ) i); reflexivity. }
  rewrite (mapM_ext_in _ _ _ (fun i _ => X i)). match goal with |- bind ?a _ = _ => destruct a as [out|] end; cbn [bind]; [|reflexivity]. destruct (write lQ out p2Q); reflexivity.
Qed.
(** a call alone returns its value *)
Lemma goes_call x c m : exists t m', goes m (callProg x c) t m' (WDone (callVal (xo_tab x) c)).
Proof.
  destruct c; cbn [callProg].
  - unfold orPanic, callVal, ModDownQPtoQ. destruct (ModUpPtoQ (xo_tab x) levelP levelQ p1P) as [up|e]; [|exists 0, m; reflexivity]. cbn [bind].
    match goal with |- context [loadPool _ _ _ ?k] => destruct (goes_pool (byEight (xcells (xo_pool x) false up)) (xo_pool x) false up m k (eight_in _)) as (t & m' & G) end.
    exists t, m'. unfold storePool. cbn beta in G. destruct (idx (modDownPtoQ (xo_tab x)) levelP) as [row|]; exact G.
  - unfold orPanic, callVal, ModDownQPtoP. destruct (ModUpQtoP (xo_tab x) levelQ levelP p1Q) as [up|e]; [|exists 0, m; reflexivity]. cbn [bind].
    match goal with |- context [loadPool _ _ _ ?k] => destruct (goes_pool (byEight (xcells (xo_pool x) true up)) (xo_pool x) true up m k (eight_in _)) as (t & m' & G) end.
    exists t, m'. unfold storePool. cbn beta in G. destruct (idx (modDownQtoP (xo_tab x)) levelP) as [row|]; exact G.
  - unfold orPanic at 1. destruct (InvNTTLazyLvl lzi rP levelP p1P p1P) as [y|e] eqn:E1; [|exists 0, m; unfold callVal, ModDownQPtoQNTT; rewrite E1; reflexivity].
    unfold orPanic. destruct (ModUpPtoQ (xo_tab x) levelP levelQ (p_co y)) as [up|e] eqn:E2; [|exists 0, m; unfold callVal, ModDownQPtoQNTT; rewrite E1; cbn [bind]; rewrite E2; reflexivity].
    rewrite <- (finish_ok lzi lzn rQ rP (xo_tab x) levelQ levelP p1Q p1P p2Q y up E1 E2).
    set (kk := fun up1 : limbs => _). destruct (goes_pool (byEight (xcells (xo_pool x) false up)) (xo_pool x) false up m kk (eight_in _)) as (t & m1 & G1). unfold kk in G1 at 2. cbv zeta in G1.
    destruct (goes_pool (xcells (xo_pool x) false (nttLimbs lzn rQ up)) (xo_pool x) false (nttLimbs lzn rQ up) m1 (fun up3 => WDone (downFinish rQ (xo_tab x) levelQ levelP p1Q y p2Q up3)) (fun e => iff_refl _)) as (t2 & m2 & G2).
    exists (t2 + t), m2. eapply goes_trans; [exact G1|exact G2].
Qed.
(** ** footprints *)
Definition xfoot (n : nat) (P : bool) (c : cell) : Prop := let '(_, _, i, Q, _, _) := c in i = n /\ Q = P.
Lemma cf_xload {A} n P up (k : limbs -> wprog A) : (forall u, confined (xfoot n P) (fun _ => False) (k u)) -> confined (xfoot n P) (fun _ => False) (loadPool n P up k).
Proof. intros H. apply cf_loadAll; [|intros; apply H]. intros c Hc. apply in_map_iff in Hc as ([c' v] & <- & Hc). apply xc_in in Hc as (j & kk & row & -> & _). now split. Qed.
Lemma cf_xstore {A} l n P up (k : wprog A) : (forall e, In e l <-> In e (xcells n P up)) -> confined (xfoot n P) (fun _ => False) k -> confined (xfoot n P) (fun _ => False) (storeAll l k).
Proof. intros Hl H. apply cf_storeAll; auto. intros c Hc. apply in_map_iff in Hc as ([c' v] & <- & Hc). apply Hl, xc_in in Hc as (j & kk & row & -> & _). now split. Qed.
Lemma call_confined x c : confined (xfoot (xo_pool x) (inP c)) (fun _ => False) (callProg x c).
Proof.
  destruct c; cbn [callProg inP]; unfold orPanic, storePool, overwritePool.
  - destruct (ModUpPtoQ (xo_tab x) levelP levelQ p1P); [|constructor]. eapply cf_xstore; [apply eight_in|]. apply cf_xload. intros; constructor.
  - destruct (ModUpQtoP (xo_tab x) levelQ levelP p1Q); [|constructor]. eapply cf_xstore; [apply eight_in|]. apply cf_xload. intros; constructor.
  - destruct (InvNTTLazyLvl lzi rP levelP p1P p1P) as [y|]; [|constructor]. destruct (ModUpPtoQ (xo_tab x) levelP levelQ (p_co y)); [|constructor]. eapply cf_xstore; [apply eight_in|]. apply cf_xload. intros u. cbv zeta.
    eapply cf_xstore; [intros e; apply iff_refl|]. apply cf_xload. intros; constructor.
Qed.
Definition xfeet (T : nat) (x : nat -> xobj) (c : nat -> xcall) (i : nat) (d : cell) : Prop := i < T /\ xfoot (xo_pool (x i)) (inP (c i)) d.
Lemma confined_mono {A} (F F' R : cell -> Prop) (p : wprog A) : (forall c, F c -> F' c) -> confined F R p -> confined F' R p.
Proof. intros H C. induction C; constructor; auto. destruct H0; auto. Qed.
Lemma xgor_confined T x c i : confined (xfeet T x c i) (fun _ => False) (xgoroutines T x c i).
Proof. unfold xgoroutines. destruct (Nat.ltb_spec i T); [|constructor]. eapply confined_mono; [|apply call_confined]. intros d Hd. now split. Qed.
Section Sep.
Context (T : nat) (x : nat -> xobj) (c : nat -> xcall) (m0 : memory).
Hypothesis HD : forall i j, i < T -> j < T -> i <> j -> xo_pool (x i) <> xo_pool (x j) \/ inP (c i) <> inP (c j).
Lemma feet_disj i j d : i <> j -> xfeet T x c i d -> ~ xfeet T x c j d.
Proof. intros Hne [Hi Fi] [Hj Fj]. destruct d as (((((b & s) & n) & p) & r) & k). cbn in *. destruct Fi, Fj. destruct (HD i j) as [X|X]; auto; apply X; congruence. Qed.
Lemma separate_thm i : i < T ->
  (exists k, forall sched, let p := ww_t (wrun sched (mkWW m0 (xgoroutines T x c))) i in
     (forall r, p = WDone r -> r = callVal (xo_tab (x i)) (c i)) /\ (k <= count_occ Nat.eq_dec sched i -> p = WDone (callVal (xo_tab (x i)) (c i)))) /\
  forall sched j, i <> j -> let w := wrun sched (mkWW m0 (xgoroutines T x c)) in ~ racing (ww_t w i) (ww_t w j).
Proof.
  intros Hi. split.
  - destruct (goes_call (x i) (c i) m0) as (t & m' & G). exists t. intros sched p.
    destruct (isolated (xfeet T x c) (fun _ => False) (xgoroutines T x c) m0 (xgor_confined T x c) feet_disj ltac:(tauto) sched i) as (E & _). subst p. rewrite E. unfold xgoroutines. replace (i <? T) with true by (symmetry; now apply Nat.ltb_lt).
    unfold goes in G. assert (X : forall k, t <= k -> alone k (m0, callProg (x i) (c i)) = (m', WDone (callVal (xo_tab (x i)) (c i)))). { intros k Hk. replace k with ((k - t) + t) by lia. rewrite alone_add, G. apply alone_done. }
    split; [|intros Hk; now rewrite (X _ Hk)]. intros r Hr. set (k := count_occ Nat.eq_dec sched i) in *. destruct (Nat.le_gt_cases t k) as [Hk|Hk]; [rewrite (X _ Hk) in Hr; cbn in Hr; congruence|].
    pose proof (X t (le_n _)) as Y. replace t with ((t - k) + k) in Y at 1 by lia. rewrite alone_add in Y. destruct (alone k (m0, callProg (x i) (c i))) as [m1 q]. cbn in Hr. subst q. rewrite alone_done in Y. congruence.
  - intros sched j Hne w. exact (no_race (xfeet T x c) (fun _ => False) (xgoroutines T x c) m0 (xgor_confined T x c) feet_disj ltac:(tauto) sched i j Hne).
Qed.
End Sep.
(** ** one extender for two goroutines *)
Lemma eight_head c v l : exists l', cell_k c = 0 -> byEight ((c, v) :: l) = (c, v) :: l'.
Proof.
  destruct (Nat.eq_dec (cell_k c) 0) as [E|E]; [|exists []; contradiction]. eexists. intros _. unfold byEight. cbn [map seq List.concat filter fst]. rewrite E. cbn [Nat.div Nat.divmod fst Nat.eqb app]. reflexivity.
Qed.
Lemma eight_next {A} c v l (k : wprog A) : cell_k c = 0 -> next (storeAll (byEight ((c, v) :: l)) k) = Some (c, true).
Proof. intros E. destruct (eight_head c v l) as (l' & H). rewrite (H E). reflexivity. Qed.
Lemma call_first x c up r0 v up' : extended (xo_tab x) c = Ok up -> up = (v :: r0) :: up' -> next (callProg x c) = Some ((false, EmptyString, xo_pool x, inP c, 0, 0), true).
Proof.
  intros E ->. assert (X : forall n P A (k : wprog A), next (storePool n P ((v :: r0) :: up') k) = Some ((false, EmptyString, n, P, 0, 0), true)).
  { intros n P A k. exact (eight_next (false, EmptyString, n, P, 0, 0) v _ k eq_refl). }
  destruct c; cbn [extended callProg inP] in *; unfold orPanic.
  - rewrite E. apply X. - rewrite E. apply X. - apply bind_ok in E as (y & E1 & E2). rewrite E1, E2. apply X.
Qed.
Lemma shared_race T x c m0 i j : i < T -> j < T -> i <> j -> xo_pool (x i) = xo_pool (x j) -> inP (c i) = inP (c j) ->
  (exists v r up, extended (xo_tab (x i)) (c i) = Ok ((v :: r) :: up)) -> (exists v r up, extended (xo_tab (x j)) (c j) = Ok ((v :: r) :: up)) ->
  let w := wrun [] (mkWW m0 (xgoroutines T x c)) in racing (ww_t w i) (ww_t w j).
Proof.
  intros Hi Hj Hne HP HB (v & r & up & Ei) (v' & r' & up' & Ej). cbn. unfold xgoroutines. replace (i <? T) with true by (symmetry; now apply Nat.ltb_lt). replace (j <? T) with true by (symmetry; now apply Nat.ltb_lt).
  exists (false, EmptyString, xo_pool (x i), inP (c i), 0, 0), true, true. split; [eapply call_first; eauto|]. split; [|now left]. rewrite HP, HB. eapply call_first; eauto.
Qed.
Lemma race_iff_thm T x c m0 i j : i < T -> j < T -> i <> j -> (forall k, k < T -> exists v r up, extended (xo_tab (x k)) (c k) = Ok ((v :: r) :: up)) ->
  (exists sched, let w := wrun sched (mkWW m0 (xgoroutines T x c)) in racing (ww_t w i) (ww_t w j)) <-> xo_pool (x i) = xo_pool (x j) /\ inP (c i) = inP (c j).
Proof.
  intros Hi Hj Hne HE. split.
  - intros (sched & (d & a & b & E1 & E2 & _)). pose proof (confined_run (xfeet T x c) (fun _ => False) (xgoroutines T x c) m0 (xgor_confined T x c) sched) as CR.
    pose proof (next_foot _ _ _ _ (CR i) E1) as [_ F1]. pose proof (next_foot _ _ _ _ (CR j) E2) as [_ F2]. destruct d as (((((d1 & d2) & d3) & d4) & d5) & d6). cbn in F1, F2. destruct F1, F2. split; congruence.
  - intros [HP HB]. exists []. apply shared_race; auto.
Qed.
