(** Programs over shared words: isolation of programs with separate footprints, and the loads and stores of whole entries. *)
From Coq Require Import String ZArith List Lia Bool Arith.
From Verif Require Import Go RingOps Maps Params Elements KeySwitch KeySets F64 EncDec Evaluator Conc Words SpecWords.
Import ListNotations.

Lemma poke_same m c v : poke m c v c = v. Proof. unfold poke. destruct (cell_dec c c); congruence. Qed.
Lemma poke_other m c v d : c <> d -> poke m c v d = m d. Proof. unfold poke. destruct (cell_dec c d); congruence. Qed.

Section Iso.
Context {A : Type}.
Implicit Types (p q : wprog A) (m : memory).
Lemma alone_S n (s : memory * wprog A) : alone (S n) s = access (alone n s). Proof. reflexivity. Qed.
Lemma alone_l n (s : memory * wprog A) : alone (S n) s = alone n (access s).
Proof. unfold alone. induction n as [|n IH]; [reflexivity|]. cbn [Nat.iter nat_rect] in *. now rewrite IH. Qed.
Lemma alone_add n k (s : memory * wprog A) : alone (n + k) s = alone n (alone k s).
Proof. induction n as [|n IH]; [reflexivity|]. cbn [Nat.add]. now rewrite !alone_S, IH. Qed.
Lemma alone_done n m a : alone n (m, @WDone A a) = (m, WDone a).
Proof. induction n; [reflexivity|]. rewrite alone_S, IHn. reflexivity. Qed.
Lemma confined_access F R m p : confined F R p -> confined F R (snd (access (m, p))).
Proof. intros H. inversion H; subst; cbn; auto. Qed.
Lemma access_frame F R m p c : confined F R p -> ~ F c -> fst (access (m, p)) c = m c.
Proof. intros H Hc. inversion H; subst; cbn; auto. apply poke_other. intros ->. contradiction. Qed.
(** an access sees only the cells it may load *)
Lemma access_agree F R m m' p : confined F R p -> (forall c, F c \/ R c -> m c = m' c) ->
  snd (access (m, p)) = snd (access (m', p)) /\ forall c, F c \/ R c -> fst (access (m, p)) c = fst (access (m', p)) c.
Proof.
  intros H E. inversion H; subst; cbn.
  - auto.
  - split; [now rewrite E|auto].
  - split; [reflexivity|]. intros d Hd. unfold poke. destruct (cell_dec c d); auto.
Qed.

Context (F : nat -> cell -> Prop) (R : cell -> Prop) (progs : nat -> wprog A) (m0 : memory).
Context (HC : forall i, confined (F i) R (progs i)) (HD : forall i j c, i <> j -> F i c -> ~ F j c) (HR : forall i c, R c -> ~ F i c).
Definition Iinv (sched : list nat) (w : wworld A) : Prop :=
  (forall i, confined (F i) R (ww_t w i)) /\
  (forall i, let s := alone (count_occ Nat.eq_dec sched i) (m0, progs i) in ww_t w i = snd s /\ forall c, F i c \/ R c -> ww_mem w c = fst s c) /\
  (forall c, (forall i, ~ F i c) -> ww_mem w c = m0 c).
Lemma iso_step sched w i : Iinv sched w -> Iinv (sched ++ [i]) (wstep w i).
Proof.
  intros (H1 & H2 & H3). unfold wstep. split; [|split]; cbn [ww_t ww_mem].
  - intros j. destruct (Nat.eqb_spec j i) as [->|]; [|apply H1]. apply confined_access, H1.
  - intros j. rewrite count_occ_app. cbn [count_occ]. destruct (Nat.eq_dec i j) as [->|Hne].
    + rewrite Nat.eqb_refl, Nat.add_1_r, alone_S. destruct (H2 j) as [E1 E2]. cbv zeta in *. destruct (alone (count_occ Nat.eq_dec sched j) (m0, progs j)) as [m p] eqn:E. cbn [fst snd] in *. subst p.
      apply (access_agree (F j) R); [apply H1|exact E2].
    + rewrite Nat.add_0_r. destruct (H2 j) as [E1 E2]. cbv zeta in *. destruct (Nat.eqb_spec j i); [congruence|]. split; [exact E1|]. intros c Hc. rewrite <- (E2 c Hc).
      apply (access_frame (F i) R); [apply H1|]. destruct Hc as [Hc|Hc]; [|now apply HR]. intros Hi. exact (HD i j c Hne Hi Hc).
  - intros c Hc. rewrite <- (H3 c Hc). apply (access_frame (F i) R); [apply H1|apply Hc].
Qed.
Lemma iso_run : forall sched, Iinv sched (wrun sched (mkWW m0 progs)).
Proof.
  intros sched. induction sched as [|i l IH] using rev_ind.
  - split; [exact HC|]. split; cbn; auto.
  - unfold wrun. rewrite fold_left_app. cbn [fold_left]. now apply iso_step.
Qed.
Lemma isolated sched i : let w := wrun sched (mkWW m0 progs) in let s := alone (count_occ Nat.eq_dec sched i) (m0, progs i) in
  ww_t w i = snd s /\ (forall c, F i c -> ww_mem w c = fst s c) /\ forall c, (forall j, ~ F j c) -> ww_mem w c = m0 c.
Proof. cbv zeta. destruct (iso_run sched) as (_ & H2 & H3). destruct (H2 i) as [E1 E2]. split; [exact E1|]. split; [intros c Hc; apply E2; now left|exact H3]. Qed.
Lemma no_race sched i j : i <> j -> let w := wrun sched (mkWW m0 progs) in ~ racing (ww_t w i) (ww_t w j).
Proof.
  intros Hne w (c & a & b & E1 & E2 & Hab). destruct (iso_run sched) as (H & _). fold w in H. pose proof (H i) as Hi. pose proof (H j) as Hj.
  assert (Li : F i c \/ R c) by (inversion Hi; subst; match goal with X : _ = ww_t w i |- _ => rewrite <- X in E1 end; cbn in E1; try discriminate; injection E1 as <- _; auto).
  assert (Lj : F j c \/ R c) by (inversion Hj; subst; match goal with X : _ = ww_t w j |- _ => rewrite <- X in E2 end; cbn in E2; try discriminate; injection E2 as <- _; auto).
  assert (Si : a = true -> F i c). { intros ->. inversion Hi; subst; match goal with X : _ = ww_t w i |- _ => rewrite <- X in E1 end; cbn in E1; try discriminate. injection E1 as <-. auto. }
  assert (Sj : b = true -> F j c). { intros ->. inversion Hj; subst; match goal with X : _ = ww_t w j |- _ => rewrite <- X in E2 end; cbn in E2; try discriminate. injection E2 as <-. auto. }
  destruct Hab as [Ha|Hb].
  - specialize (Si Ha). destruct Lj as [Lj|Lj]; [exact (HD i j c Hne Si Lj)|exact (HR i c Lj Si)].
  - specialize (Sj Hb). destruct Li as [Li|Li]; [exact (HD i j c Hne Li Sj)|exact (HR j c Li Sj)].
Qed.
End Iso.

(** ** whole executions: p, started in m, stops after n accesses with result a and memory m' *)
Definition ends {A} (m : memory) (p : wprog A) (n : nat) (m' : memory) (a : A) : Prop := alone n (m, p) = (m', WDone a).
(** p, started in m, becomes q after n accesses *)
Definition goes {A} (m : memory) (p : wprog A) (n : nat) (m' : memory) (q : wprog A) : Prop := alone n (m, p) = (m', q).
Lemma goes_refl {A} m (p : wprog A) : goes m p 0 m p. Proof. reflexivity. Qed.
Lemma goes_trans {A} m (p : wprog A) n m1 q k m2 r : goes m p n m1 q -> goes m1 q k m2 r -> goes m p (k + n) m2 r.
Proof. unfold goes. intros H1 H2. now rewrite alone_add, H1. Qed.
Lemma goes_store {A} m c v (k : wprog A) : goes m (WStore c v k) 1 (poke m c v) k. Proof. reflexivity. Qed.
Lemma goes_load {A} m c (k : Z -> wprog A) : goes m (WLoad c k) 1 m (k (m c)). Proof. reflexivity. Qed.

Fixpoint pokes (m : memory) (l : list (cell * Z)) : memory := match l with [] => m | (c, v) :: l => pokes (poke m c v) l end.
Lemma goes_storeAll {A} : forall l m (k : wprog A), exists n, goes m (storeAll l k) n (pokes m l) k.
Proof. induction l as [|[c v] l IH]; intros m k; [exists 0%nat; apply goes_refl|]. destruct (IH (poke m c v) k) as (n & H). exists (n + 1)%nat. exact (goes_trans _ _ 1 _ _ _ _ _ (goes_store m c v (storeAll l k)) H). Qed.
Fixpoint gots (m : memory) (l : list cell) (got : memory) : memory := match l with [] => got | c :: l => gots m l (poke got c (m c)) end.
Lemma goes_loadAll {A} : forall l m got (k : memory -> wprog A), exists n, goes m (loadAll l got k) n m (k (gots m l got)).
Proof.
  induction l as [|c l IH]; intros m got k; [exists 0%nat; apply goes_refl|]. destruct (IH m (poke got c (m c)) k) as (n & H). exists (n + 1)%nat.
  exact (goes_trans _ _ 1 _ _ _ _ _ (goes_load m c (fun v => loadAll l (poke got c v) k)) H).
Qed.
Lemma gots_in m : forall l got c, In c l \/ got c = m c -> gots m l got c = m c.
Proof.
  induction l as [|d l IH]; intros got c H; cbn. { now destruct H as [[]|]. }
  apply IH. destruct (cell_dec d c) as [<-|Hne]; [right; apply poke_same|]. destruct H as [[|H]|H]; [congruence|now left|right]. now rewrite poke_other.
Qed.
Lemma pokes_other : forall l m c, ~ In c (map fst l) -> pokes m l c = m c.
Proof. induction l as [|[d v] l IH]; intros m c H; [reflexivity|]. cbn in *. rewrite IH by tauto. apply poke_other. tauto. Qed.
(** the pairs of l do not contradict each other *)
Lemma pokes_in : forall l m c v, (forall a x y, In (a, x) l -> In (a, y) l -> x = y) -> In (c, v) l -> pokes m l c = v.
Proof.
  induction l as [|[d w] l IH]; intros m c v HF H; [destruct H|]. cbn [pokes]. destruct (in_dec cell_dec c (map fst l)) as [Hi|Hn].
  - apply in_map_iff in Hi as ([c' v'] & E & Hi). cbn in E. subst c'. rewrite (HF c v v'); [|exact H|now right]. apply IH; [|exact Hi]. intros a x y Hx Hy. apply (HF a); now right.
  - rewrite pokes_other by exact Hn. destruct H as [E|H]; [injection E as -> ->; apply poke_same|]. elim Hn. apply in_map_iff. exists (c, v). auto.
Qed.

(** ** entries *)
Lemma mapi_ext {X Y} (f g : nat -> X -> Y) : forall l i, (forall k x, nth_error l k = Some x -> f (i + k)%nat x = g (i + k)%nat x) -> mapi f i l = mapi g i l.
Proof.
  induction l as [|a l IH]; intros i H; [reflexivity|]. cbn. f_equal. { specialize (H O a eq_refl). now rewrite Nat.add_0_r in H. }
  apply IH. intros k x E. specialize (H (S k) x E). now rewrite Nat.add_succ_comm.
Qed.
Lemma mapi_map {X Y Z'} (f : nat -> Y -> Z') (g : X -> Y) : forall l i, mapi f i (map g l) = mapi (fun i x => f i (g x)) i l.
Proof. induction l as [|a l IH]; intros i; [reflexivity|]. cbn. now rewrite IH. Qed.
Lemma mapi_id {X} : forall (l : list X) i, mapi (fun _ x => x) i l = l.
Proof. induction l as [|a l IH]; intros i; [reflexivity|]. cbn. now rewrite IH. Qed.
Lemma mapi_length {X Y} (f : nat -> X -> Y) : forall l i, length (mapi f i l) = length l.
Proof. induction l; intros; cbn; auto. Qed.
Lemma mapi_In {X Y} (f : nat -> X -> Y) y : forall l i, In y (mapi f i l) <-> exists k x, nth_error l k = Some x /\ y = f (i + k)%nat x.
Proof.
  induction l as [|a l IH]; intros i; cbn.
  - split; [intros []|]. intros (k & x & E & _). destruct k; discriminate.
  - rewrite IH. split.
    + intros [<-|(k & x & E & ->)]; [exists O, a; rewrite Nat.add_0_r; auto|]. exists (S k), x. rewrite <- Nat.add_succ_comm. auto.
    + intros ([|k] & x & E & ->); cbn in E; [injection E as <-; left; now rewrite Nat.add_0_r|]. right. exists k, x. rewrite Nat.add_succ_comm. auto.
Qed.
Lemma poly_cells b id i P p c x : In (c, x) (polyCells b id i P p) <-> exists j k row, c = (b, id, i, P, j, k) /\ nth_error (p_co p) j = Some row /\ nth_error row k = Some x.
Proof.
  unfold polyCells. rewrite in_concat. split.
  - intros (l & H1 & H2). apply mapi_In in H1 as (j & row & E1 & ->). apply mapi_In in H2 as (k & y & E2 & E). injection E as -> ->. eauto 6.
  - intros (j & k & row & -> & E1 & E2). eexists. split; [apply mapi_In; exists j, row; split; [exact E1|reflexivity]|]. apply mapi_In. exists k, x. auto.
Qed.
Lemma swk_cells b id s c x : In (c, x) (swkCells b id s) <-> exists i P j k e row, c = (b, id, i, P, j, k) /\ nth_error s i = Some e /\ nth_error (p_co (if P then qP e else qQ e)) j = Some row /\ nth_error row k = Some x.
Proof.
  unfold swkCells. rewrite in_concat. split.
  - intros (l & H1 & H2). apply mapi_In in H1 as (i & e & E1 & ->). rewrite in_app_iff, !poly_cells in H2. destruct H2 as [(j & k & row & -> & E2 & E3)|(j & k & row & -> & E2 & E3)]; [exists i, false, j, k, e, row|exists i, true, j, k, e, row]; auto.
  - intros (i & P & j & k & e & row & -> & E1 & E2 & E3). eexists. split; [apply mapi_In; exists i, e; split; [exact E1|reflexivity]|]. rewrite in_app_iff, !poly_cells. destruct P; [right|left]; eauto 8.
Qed.
Lemma cells_fun b id s a x y : In (a, x) (swkCells b id s) -> In (a, y) (swkCells b id s) -> x = y.
Proof.
  rewrite !swk_cells. intros (i & P & j & k & e & row & -> & E1 & E2 & E3) (i' & P' & j' & k' & e' & row' & E & F1 & F2 & F3). injection E as <- <- <- <-.
  replace e' with e in * by congruence. replace row' with row in * by congruence. congruence.
Qed.
Lemma view_poly_ext b id i P p m m' : (forall j k row x, nth_error (p_co p) j = Some row -> nth_error row k = Some x -> m (b, id, i, P, j, k) = m' (b, id, i, P, j, k)) -> viewPoly b id i P p m = viewPoly b id i P p m'.
Proof. intros H. unfold viewPoly. f_equal. apply mapi_ext. intros j row E1. apply mapi_ext. intros k x E2. cbn. exact (H j k row x E1 E2). Qed.
Lemma view_ext b id t m m' : (forall c, In c (map fst (swkCells b id t)) -> m c = m' c) -> viewSwk b id t m = viewSwk b id t m'.
Proof.
  intros H. unfold viewSwk. apply mapi_ext. intros i e E. cbn [Nat.add].
  assert (X : forall (P : bool) j k row x, nth_error (p_co (if P then qP e else qQ e)) j = Some row -> nth_error row k = Some x -> m (b, id, i, P, j, k) = m' (b, id, i, P, j, k)).
  { intros P j k row x E1 E2. apply H, in_map_iff. exists ((b, id, i, P, j, k), x). split; [reflexivity|]. apply swk_cells. exists i, P, j, k, e, row. auto. }
  f_equal; apply view_poly_ext; [exact (X false)|exact (X true)].
Qed.
Lemma view_self b id s m : (forall c x, In (c, x) (swkCells b id s) -> m c = x) -> viewSwk b id s m = s.
Proof.
  intros H. unfold viewSwk. transitivity (mapi (fun _ (x : qp) => x) 0 s); [|apply mapi_id]. apply mapi_ext. intros i e E. cbn [Nat.add].
  assert (X : forall P : bool, viewPoly b id i P (if P then qP e else qQ e) m = (if P then qP e else qQ e)).
  { intros P. unfold viewPoly. transitivity (mkPoly (p_ntt (if P then qP e else qQ e)) (p_co (if P then qP e else qQ e))); [|now destruct (if P then qP e else qQ e)]. f_equal.
    transitivity (mapi (fun _ (x : list Z) => x) 0 (p_co (if P then qP e else qQ e))); [|apply mapi_id]. apply mapi_ext. intros j row E1. transitivity (mapi (fun _ (x : Z) => x) 0 row); [|apply mapi_id]. apply mapi_ext. intros k x E2. cbn.
    apply H, swk_cells. exists i, P, j, k, e, row. auto. }
  destruct e as [eq ep]. f_equal; [exact (X false)|exact (X true)].
Qed.
(** form of an entry *)
Definition eraseP (p : poly) : poly := mkPoly (p_ntt p) (map (map (fun _ => 0%Z)) (p_co p)).
Definition erase (s : swk) : swk := map (fun x => mkQP (eraseP (qQ x)) (eraseP (qP x))) s.
Lemma view_erase b id t m : viewSwk b id (erase t) m = viewSwk b id t m.
Proof.
  unfold viewSwk, erase. rewrite mapi_map. apply mapi_ext. intros i e _. unfold viewPoly, eraseP. cbn [qQ qP p_ntt p_co]. rewrite !mapi_map.
  f_equal; f_equal; apply mapi_ext; intros j row _; now rewrite mapi_map.
Qed.
Lemma view_stored b id s t m : erase s = erase t -> viewSwk b id t (pokes m (swkCells b id s)) = s.
Proof.
  intros E. rewrite <- view_erase, <- E, view_erase. apply view_self. intros c x H. apply pokes_in; [apply cells_fun|exact H].
Qed.
Lemma goes_loadEntry {A} b id t m (k : swk -> wprog A) : exists n, goes m (loadEntry b id t k) n m (k (viewSwk b id t m)).
Proof.
  unfold loadEntry. destruct (goes_loadAll (map fst (swkCells b id t)) m (fun _ => 0%Z) (fun m => k (viewSwk b id t m))) as (n & H). exists n.
  rewrite (view_ext b id t m (gots m (map fst (swkCells b id t)) (fun _ => 0%Z))); [exact H|]. intros c Hc. symmetry. apply gots_in. now left.
Qed.
