(** The eight-word loops compute the lane-by-lane model and write nothing outside their output arrays. *)
From Coq Require Import ZArith Lia Bool String List Permutation.
From Verif Require Import Go GoProofs Lattigo F64 BasisExt NTT RingOps Maps MapsProofs Params KeySwitch EncDec Utils Evaluator SpecMem Unsafe.
Import ListNotations.
Local Open Scope Z_scope.

Lemma store_same m a v : store m a v a = v.
Proof. unfold store. now rewrite Z.eqb_refl. Qed.
Lemma store_other m a v b : b <> a -> store m a v b = m b.
Proof. intros H. unfold store. destruct (Z.eqb_spec b a); [contradiction|reflexivity]. Qed.

(** eight stores from address a on *)
Definition wrote (m m' : memory) (a : Z) (g : nat -> Z) : Prop :=
  (forall l, (l < 8)%nat -> m' (lane a l) = g l) /\ (forall b, ~ (a <= b < a + 8) -> m' b = m b).
Lemma stores8 (f : memory -> nat -> Z) (g : nat -> Z) m a :
  (forall l m', (l < 8)%nat -> (forall b, ~ (a <= b < a + Z.of_nat l) -> m' b = m b) -> f m' l = g l) ->
  wrote m (fold_left (fun m l => store m (lane a l) (f m l)) lanes m) a g.
Proof.
  intros H. unfold lanes.
  assert (G : forall n, (n <= 8)%nat -> let m' := fold_left (fun m l => store m (lane a l) (f m l)) (seq 0 n) m in
    (forall l, (l < n)%nat -> m' (lane a l) = g l) /\ (forall b, ~ (a <= b < a + Z.of_nat n) -> m' b = m b)).
  { induction n as [|n IH]; intros Hn; cbv zeta.
    - split; [lia|reflexivity].
    - destruct IH as [I1 I2]; [lia|]. cbv zeta in I1, I2. rewrite seq_S, fold_left_app. cbn [fold_left plus]. split.
      + intros l Hl. destruct (Nat.eq_dec l n) as [->|Hne].
        * rewrite store_same. apply H; [lia|exact I2].
        * rewrite store_other by (unfold lane; lia). apply I1. lia.
      + intros b Hb. rewrite store_other by (unfold lane; lia). apply I2. lia. }
  exact (G 8%nat (le_n _)).
Qed.
Lemma stores8M (body : memory -> nat -> res memory) (g : nat -> Z) m a :
  (forall m l, (l < 8)%nat -> body m l = Ok (store m (lane a l) (g l))) ->
  exists m', foldM body lanes m = Ok m' /\ wrote m m' a g.
Proof.
  intros H. exists (fold_left (fun m l => store m (lane a l) (g l)) lanes m). split.
  - unfold lanes. assert (G : forall L, (forall l, In l L -> (l < 8)%nat) -> forall m, foldM body L m = Ok (fold_left (fun m l => store m (lane a l) (g l)) L m)).
    { induction L as [|l L IH]; intros HL m1; [reflexivity|]. cbn [foldM fold_left]. rewrite H by (apply HL; now left). cbn [bind]. apply IH. intros; apply HL; now right. }
    apply G. intros l Hl. apply in_seq in Hl. lia.
  - apply (stores8 (fun _ l => g l)). reflexivity.
Qed.

(** arrays by index *)
Definition disj (p : list warray) : Prop := forall i j s t, nth_error p i = Some s -> nth_error p j = Some t -> i <> j -> apart s t.
Lemma apart_sym s t : apart s t -> apart t s.
Proof. unfold apart. tauto. Qed.
Lemma all_apart_disj p : all_apart p -> disj p.
Proof.
  induction 1 as [|s p Hs Hp IH]; intros i j s' t' Hi Hj Hne; [destruct i; discriminate|].
  rewrite Forall_forall in Hs. destruct i as [|i], j as [|j]; cbn in Hi, Hj.
  - lia.
  - injection Hi as <-. apply Hs. now apply nth_error_In in Hj.
  - injection Hj as <-. apply apart_sym, Hs. now apply nth_error_In in Hi.
  - apply (IH i j); auto.
Qed.
Lemma disj_firstn n p : disj p -> disj (firstn n p).
Proof.
  intros H i j s t Hi Hj. assert (G : forall k u, nth_error (firstn n p) k = Some u -> nth_error p k = Some u).
  { intros k u Hk. rewrite <- (firstn_skipn n p). rewrite nth_error_app1; [exact Hk|]. apply nth_error_Some. congruence. }
  apply H; auto.
Qed.
Lemma idx_some {A} (l : list A) i a : nth_error l i = Some a -> idx l i = Ok a.
Proof. unfold idx. now intros ->. Qed.
Lemma idx_inv {A} (l : list A) i a : idx l i = Ok a -> nth_error l i = Some a.
Proof. unfold idx. destruct (nth_error l i); congruence. Qed.
Lemma addr_ok s x : (x < a_len s)%nat -> addr s x = Ok (a_base s + Z.of_nat x).
Proof. intros H. unfold addr. now rewrite (proj2 (Nat.ltb_lt _ _) H). Qed.
Lemma put_ok {A} (t : list A) i v : (i < length t)%nat -> put t i v = Ok (firstn i t ++ v :: skipn (i + 1) t).
Proof. intros H. unfold put. now rewrite (proj2 (Nat.ltb_lt _ _) H). Qed.
Lemma put_len {A} (t : list A) i v : (i < length t)%nat -> length (firstn i t ++ v :: skipn (i + 1) t) = length t.
Proof. intros H. rewrite app_length, firstn_length. cbn [length]. rewrite skipn_length. lia. Qed.
Lemma put_prefix {A} (t : list A) i v : (i < length t)%nat -> firstn (i + 1) (firstn i t ++ v :: skipn (i + 1) t) = firstn i t ++ [v].
Proof.
  intros H. rewrite firstn_app, firstn_length. replace (Nat.min i (length t)) with i by lia. rewrite firstn_firstn. replace (Nat.min (i + 1) i) with i by lia.
  replace (i + 1 - i)%nat with 1%nat by lia. reflexivity.
Qed.
Lemma put_nth {A} (t : list A) i v d : (i < length t)%nat -> nth i (firstn i t ++ v :: skipn (i + 1) t) d = v.
Proof. intros H. rewrite app_nth2; rewrite firstn_length; [|lia]. now replace (i - Nat.min i (length t))%nat with 0%nat by lia. Qed.

(** the y arrays *)
Definition shape8 (ys : list (list Z)) : Prop := length ys = 8%nat /\ forall l, (l < 8)%nat -> length (nth l ys []) = 32%nat.
Lemma shape8_y0 : shape8 y0.
Proof. split; [reflexivity|]. intros l Hl. do 8 (destruct l as [|l]; [reflexivity|]). lia. Qed.

Lemma foldM_seq_step {St} (f : St -> nat -> res St) k s r i : foldM f (seq 0 k) s = Ok r -> (i < k)%nat ->
  exists s1 s2, foldM f (seq 0 i) s = Ok s1 /\ f s1 i = Ok s2 /\ foldM f (seq 0 (i + 1)) s = Ok s2.
Proof.
  intros E Hi. replace k with (S i + (k - i - 1))%nat in E by lia. rewrite seq_app, foldM_app in E.
  replace (i + 1)%nat with (S i) by lia. destruct (foldM f (seq 0 (S i)) s) as [s2|] eqn:E2; [|discriminate].
  pose proof E2 as E3. rewrite seq_S, foldM_app in E3. destruct (foldM f (seq 0 i) s) as [s1|] eqn:E1; [|discriminate]. cbn [bind foldM plus] in E3.
  exists s1, s2. split; [reflexivity|]. split; [|reflexivity]. destruct (f s1 i); cbn in E3; congruence.
Qed.

(** multSum *)
Lemma multSumM_ok m a v ys k pj vtab tab (r : nat -> Z) : shape8 ys -> length v = 8%nat -> (k <= 32)%nat ->
  (forall l, (l < 8)%nat -> multSum k (firstn k (nth l ys [])) (nth l v 0) pj vtab tab = Ok (r l)) ->
  exists m', multSumM m a v ys k pj vtab tab = Ok m' /\ wrote m m' a r.
Proof.
  intros [Hy1 Hy2] Hv Hk H. unfold multSumM.
  assert (Hacc : exists rs, foldM (fun rs i => mapM (fun l => let* y := idx ys l in let* r := idx rs l in acc_step y tab r i) lanes) (seq 0 k) (repeat (0, 0) 8) = Ok rs /\
    (length rs = 8%nat /\ forall l, (l < 8)%nat -> foldM (acc_step (firstn k (nth l ys [])) tab) (seq 0 k) (0, 0) = Ok (nth l rs (0, 0)))).
  { apply (foldM_seq_inv _ (fun i rs => length rs = 8%nat /\ forall l, (l < 8)%nat -> foldM (acc_step (firstn k (nth l ys [])) tab) (seq 0 i) (0, 0) = Ok (nth l rs (0, 0)))).
    - intros i rs Hi [HL HI].
      destruct (mapM_seq_spec (fun l => let* y := idx ys l in let* r := idx rs l in acc_step y tab r i)
        (fun l b => foldM (acc_step (firstn k (nth l ys [])) tab) (seq 0 (i + 1)) (0, 0) = Ok b) 8 0) as (bs & E & L & R).
      { intros l Hl. rewrite (idx_nth ys l []) by lia. cbn [bind]. rewrite (idx_nth rs l (0, 0)) by lia. cbn [bind].
        assert (Hl8 : (l < 8)%nat) by lia. pose proof (H l Hl8) as HM. unfold multSum in HM. destruct (foldM (acc_step (firstn k (nth l ys [])) tab) (seq 0 k) (0, 0)) as [st|] eqn:EF; [|discriminate].
        destruct (foldM_seq_step _ _ _ _ i EF Hi) as (s1 & s2 & E1 & E2 & E3). rewrite HI in E1 by auto. injection E1 as E1. exists s2. split; [|exact E3].
        rewrite <- E2, E1. unfold acc_step. rewrite (idx_nth (nth l ys []) i 0) by (rewrite Hy2; lia). rewrite (idx_nth (firstn k (nth l ys [])) i 0) by (rewrite firstn_length, Hy2; lia).
        cbn [bind]. assert (EN : nth i (firstn k (nth l ys [])) 0 = nth i (nth l ys []) 0).
        { rewrite <- (firstn_skipn k (nth l ys [])) at 2. rewrite app_nth1; [reflexivity|]. rewrite firstn_length, Hy2; lia. }
        now rewrite EN. }
      exists bs. split; [exact E|]. split; [exact L|]. intros l Hl. now apply (R (0, 0) l).
    - split; [reflexivity|]. intros l Hl. cbn [seq foldM]. do 8 (destruct l as [|l]; [reflexivity|]). lia. }
  destruct Hacc as (rs & E & HL & HR). rewrite E. cbn [bind]. apply stores8M. intros m1 l Hl.
  rewrite (idx_nth rs l (0, 0)) by lia. cbn [bind]. rewrite (idx_nth v l 0) by lia. cbn [bind]. pose proof (H l Hl) as HM. unfold multSum in HM. rewrite (HR l Hl) in HM. cbn [bind] in HM.
  destruct (idxZ vtab (nth l v 0)) as [vt|]; cbn [bind] in *; [|discriminate]. congruence.
Qed.
Definition win (s : warray) (x : nat) (a : Z) : Prop := a_base s + Z.of_nat x <= a < a_base s + Z.of_nat x + 8.
Lemma multSumsM_ok N x p2 u0 v ys k P pr (r : nat -> nat -> Z) : shape8 ys -> length v = 8%nat -> (k <= 32)%nat -> (x + 8 <= N)%nat -> disj p2 ->
  forall js, NoDup js ->
  (forall j, In j js -> exists s, nth_error p2 j = Some s /\ a_len s = N) ->
  (forall j, In j js -> exists pj vt tb, idx P j = Ok pj /\ idx (vtimesqmodp pr) (u0 + j) = Ok vt /\ idx (qoverqimodp pr) (u0 + j) = Ok tb /\
     forall l, (l < 8)%nat -> multSum k (firstn k (nth l ys [])) (nth l v 0) pj vt tb = Ok (r j l)) ->
  forall m, exists m', multSumsM m x p2 js u0 v ys k P pr = Ok m' /\
    (forall j s l, In j js -> nth_error p2 j = Some s -> (l < 8)%nat -> m' (a_base s + Z.of_nat (x + l)) = r j l) /\
    (forall a, (forall j s, In j js -> nth_error p2 j = Some s -> ~ win s x a) -> m' a = m a).
Proof.
  intros Hys Hv Hk Hx Hd. induction js as [|j js IH]; intros HN HS HM m.
  - exists m. split; [reflexivity|]. split; [intros ? ? ? []|reflexivity].
  - inversion HN as [|? ? Hnot HN']; subst. destruct (HS j (or_introl eq_refl)) as (s & Es & HsN). destruct (HM j (or_introl eq_refl)) as (pj & vt & tb & E1 & E2 & E3 & E4).
    destruct (multSumM_ok m (a_base s + Z.of_nat x) v ys k pj vt tb (r j) Hys Hv Hk E4) as (m1 & Em & W1 & W2).
    destruct (IH HN') with (m := m1) as (m' & Em' & I1 & I2); [intros; apply HS; now right|intros; apply HM; now right|].
    exists m'. split; [|split].
    + unfold multSumsM in *. cbn [foldM]. rewrite (idx_some _ _ _ Es). cbn [bind]. rewrite addr_ok by lia. cbn [bind]. rewrite E1. cbn [bind]. rewrite E2. cbn [bind]. rewrite E3. cbn [bind]. rewrite Em. exact Em'.
    + intros j' s' l [<-|Hin] Es' Hl; [|now apply I1]. assert (s' = s) by congruence. subst s'. rewrite I2.
      * specialize (W1 l Hl). unfold lane in W1. rewrite <- W1. f_equal. lia.
      * intros j' s' Hin Es'' Hw. destruct (HS j' (or_intror Hin)) as (s2 & Es2 & HL2). assert (s2 = s') by congruence. subst s2.
        assert (Hne : j <> j') by (intros ->; contradiction). pose proof (Hd j j' s s' Es Es'' Hne) as HA. unfold apart, win in *. lia.
    + intros a Ha. rewrite I2; [|intros; now apply (Ha j0); [right|]]. apply W2. intros Hw. apply (Ha j s (or_introl eq_refl) Es). exact Hw.
Qed.

(** reconstructRNS *)
Definition col_in (m : memory) (p : list warray) (c : nat -> list Z) (N x i : nat) : Prop :=
  exists s, nth_error p i = Some s /\ a_len s = N /\ forall l, (l < 8)%nat -> nth_error (c l) i = Some (m (a_base s + Z.of_nat (x + l))).
Lemma reconM_ok N m0 off k x p cp ys0 Q Qb (c : nat -> list Z) (yl : nat -> list Z) (vl : nat -> Z) : shape8 ys0 -> (x + 8 <= N)%nat ->
  (forall l, (l < 8)%nat -> recon off k (c l) Q Qb = Ok (yl l, vl l)) ->
  (forall i, (i < k)%nat -> col_in m0 p c N x (off + i)) ->
  (match cp with None => True | Some d => forall i, (i < k)%nat -> exists t, nth_error d (off + i) = Some t /\ a_len t = N /\
     forall i' s, (i' < k)%nat -> nth_error p (off + i') = Some s -> apart s t end) ->
  exists m' ys' v', reconM m0 off k x p cp ys0 Q Qb = Ok (m', ys', v') /\ shape8 ys' /\ length v' = 8%nat /\
    (forall l, (l < 8)%nat -> firstn k (nth l ys' []) = yl l /\ nth l v' 0 = vl l) /\
    (match cp with None => m' = m0 | Some d => forall a, (forall i t, (i < k)%nat -> nth_error d (off + i) = Some t -> ~ win t x a) -> m' a = m0 a end) /\
    (forall i s l, (i < k)%nat -> nth_error p (off + i) = Some s -> (l < 8)%nat -> m' (a_base s + Z.of_nat (x + l)) = m0 (a_base s + Z.of_nat (x + l))) /\
    (k <= 32)%nat.
Proof.
  intros Hys Hx HR Hcol Hcp. unfold reconM.
  assert (HF : forall l, (l < 8)%nat -> exists st, foldM (recon_step off (c l) Q Qb) (seq 0 k) ([], f0) = Ok st /\ fst st = yl l /\ u64_of_f (snd st) = vl l).
  { intros l Hl. specialize (HR l Hl). unfold recon in HR. destruct (foldM _ (seq 0 k) ([], f0)) as [st|]; [|discriminate]. cbn [bind] in HR. exists st. split; [reflexivity|]. split; congruence. }
  assert (Hlen : forall i, (i <= k)%nat -> (i <= 32)%nat).
  { intros [|i] Hi; [lia|]. destruct (HF 0%nat ltac:(lia)) as (st & E & _). destruct (foldM_seq_step _ _ _ _ i E ltac:(lia)) as (s1 & s2 & _ & E2 & _). unfold recon_step in E2.
    destruct (idx Qb i); cbn [bind] in E2; [|discriminate]. destruct (idx Q (off + i)); cbn [bind] in E2; [|discriminate]. destruct (idx (c 0%nat) (off + i)); cbn [bind] in E2; [|discriminate].
    destruct (Nat.leb_spec 32 i); [discriminate|lia]. }
  set (I := fun (i : nat) (st : memory * list (list Z) * list f64) => let '(m, ys, vi) := st in shape8 ys /\ length vi = 8%nat /\
     (forall l, (l < 8)%nat -> foldM (recon_step off (c l) Q Qb) (seq 0 i) ([], f0) = Ok (firstn i (nth l ys []), nth l vi f0)) /\
     (match cp with None => m = m0 | Some d => forall a, (forall i' t, (i' < i)%nat -> nth_error d (off + i') = Some t -> ~ win t x a) -> m a = m0 a end) /\
     (forall i' s l, (i' < k)%nat -> nth_error p (off + i') = Some s -> (l < 8)%nat -> m (a_base s + Z.of_nat (x + l)) = m0 (a_base s + Z.of_nat (x + l)))).
  match goal with |- exists m' ys' v', bind (foldM ?f _ _) _ = _ /\ _ => set (body := f) end.
  destruct (foldM_seq_inv body I k (m0, ys0, repeat f0 8)) as ([[m' ys'] vi'] & E & HI).
  { intros i [[m ys] vi] Hi (S1 & S2 & S3 & S4 & S5). unfold body.
    assert (Hst : forall l, (l < 8)%nat -> exists qq qi px, idx Qb i = Ok qq /\ idx Q (off + i) = Ok qi /\ idx (c l) (off + i) = Ok px /\
      foldM (recon_step off (c l) Q Qb) (seq 0 (i + 1)) ([], f0) = Ok (firstn i (nth l ys []) ++ [MRed px qq qi (MRedParams qi)], fadd (nth l vi f0) (fdiv (f_of_Z (MRed px qq qi (MRedParams qi))) (f_of_Z qi)))).
    { intros l Hl. destruct (HF l Hl) as (st & E & _). destruct (foldM_seq_step _ _ _ _ i E Hi) as (s1 & s2 & E1 & E2 & E3). rewrite (S3 l Hl) in E1. injection E1 as <-. unfold recon_step in E2 at 1.
      destruct (idx Qb i) as [qq|]; cbn [bind] in E2; [|discriminate]. destruct (idx Q (off + i)) as [qi|]; cbn [bind] in E2; [|discriminate]. destruct (idx (c l) (off + i)) as [px|]; cbn [bind] in E2; [|discriminate].
      exists qq, qi, px. split; [reflexivity|]. split; [reflexivity|]. split; [reflexivity|]. rewrite E3. destruct (Nat.leb_spec 32 i); [discriminate|]. cbn [fst snd] in E2. congruence. }
    destruct (Hst 0%nat ltac:(lia)) as (qq & qi & px0 & Eqq & Eqi & _ & _). rewrite Eqq, Eqi. cbn [bind]. destruct (Hcol i Hi) as (s & Es & HsN & Hcs). rewrite (idx_some _ _ _ Es). cbn [bind]. rewrite addr_ok by lia. cbn [bind].
    set (a := a_base s + Z.of_nat x).
    assert (Hm1 : exists m1, (match cp with None => Ok m | Some d => let* t := idx d (off + i) in let* py := addr t x in Ok (fold_left (fun m' l => store m' (lane py l) (m (lane a l))) lanes m) end) = Ok m1 /\
      (match cp with None => m1 = m0 | Some d => forall a, (forall i' t, (i' < i + 1)%nat -> nth_error d (off + i') = Some t -> ~ win t x a) -> m1 a = m0 a end) /\
      (forall i' s l, (i' < k)%nat -> nth_error p (off + i') = Some s -> (l < 8)%nat -> m1 (a_base s + Z.of_nat (x + l)) = m0 (a_base s + Z.of_nat (x + l)))).
    { destruct cp as [d|].
      - destruct (Hcp i Hi) as (t & Et & HtN & Hap). rewrite (idx_some _ _ _ Et). cbn [bind]. rewrite addr_ok by lia. cbn [bind]. eexists. split; [reflexivity|].
        destruct (stores8 (fun _ l => m (lane a l)) (fun l => m (lane a l)) m (a_base t + Z.of_nat x)) as [W1 W2]; [reflexivity|]. split.
        + intros b Hb. rewrite W2; [apply S4; intros i' t' Hi'; apply Hb; lia|]. apply (Hb i t); [lia|exact Et].
        + intros i' s' l Hi' Es' Hl. rewrite W2; [now apply (S5 i')|]. destruct (Hcol i' Hi') as (s2 & Es2 & HL2 & _). assert (s2 = s') by congruence. subst s2.
          pose proof (Hap i' s' Hi' Es') as HA. unfold apart in HA. lia.
      - exists m. split; [reflexivity|]. split; [exact S4|exact S5]. }
    destruct Hm1 as (m1 & E1 & M1 & M2). fold a. rewrite E1. cbn [bind].
    destruct S1 as [Hl8 Hl32].
    destruct (mapM_seq_spec (fun l => let* y := idx ys l in put y i (MRed (m1 (lane a l)) qq qi (MRedParams qi)))
      (fun l b => b = firstn i (nth l ys []) ++ MRed (m1 (lane a l)) qq qi (MRedParams qi) :: skipn (i + 1) (nth l ys [])) 8 0) as (ys1 & E2 & L1 & R1).
    { intros l Hl. rewrite (idx_nth ys l []) by lia. cbn [bind]. pose proof (Hlen (i + 1)%nat ltac:(lia)). rewrite put_ok by (rewrite Hl32; lia). eauto. }
    unfold lanes at 1. rewrite E2. cbn [bind].
    assert (R1' : forall l, (l < 8)%nat -> nth l ys1 [] = firstn i (nth l ys []) ++ MRed (m1 (lane a l)) qq qi (MRedParams qi) :: skipn (i + 1) (nth l ys [])) by (intros l Hl; apply (R1 [] l Hl)). clear R1.
    assert (Hi32 : (i < 32)%nat) by (pose proof (Hlen (i + 1)%nat ltac:(lia)); lia).
    destruct (mapM_seq_spec (fun l => let* y := idx ys1 l in let* w := idx y i in let* v := idx vi l in Ok (fadd v (fdiv (f_of_Z w) (f_of_Z qi))))
      (fun l b => b = fadd (nth l vi f0) (fdiv (f_of_Z (MRed (m1 (lane a l)) qq qi (MRedParams qi))) (f_of_Z qi))) 8 0) as (vi1 & E3 & L2 & R2).
    { intros l Hl. assert (Hl' : (l < 8)%nat) by lia. rewrite (idx_nth ys1 l []) by lia. cbn [bind]. rewrite R1' by auto.
      rewrite (idx_nth _ i 0) by (rewrite put_len; rewrite Hl32; auto). cbn [bind]. rewrite put_nth by (rewrite Hl32; auto). rewrite (idx_nth vi l f0) by lia. cbn [bind]. eauto. }
    unfold lanes at 1. rewrite E3. cbn [bind]. eexists. split; [reflexivity|]. split; [|split; [exact L2|split; [|split; [exact M1|exact M2]]]].
    - split; [exact L1|]. intros l Hl. rewrite R1' by auto. rewrite put_len by (rewrite Hl32; auto). now apply Hl32.
    - intros l Hl. destruct (Hst l Hl) as (qq' & qi' & px & Eqq' & Eqi' & Epx & EF). assert (qq' = qq) by congruence. assert (qi' = qi) by congruence. subst qq' qi'. rewrite EF.
      assert (Epx' : px = m1 (lane a l)).
      { apply idx_inv in Epx. rewrite Hcs in Epx by auto. injection Epx as <-. unfold lane, a. rewrite <- (M2 i s l Hi Es Hl). f_equal. lia. }
      rewrite R1' by auto. rewrite put_prefix by (rewrite Hl32; auto). subst px. f_equal. f_equal. symmetry. apply (R2 f0 l Hl). }
  { split; [auto|]. split; [reflexivity|]. split; [|split].
    - intros l Hl. cbn [seq foldM firstn]. do 8 (destruct l as [|l]; [reflexivity|]). lia.
    - destruct cp; reflexivity.
    - reflexivity. }
  destruct HI as (S1 & S2 & S3 & S4 & S5). rewrite E. cbn [bind]. eexists _, _, _. split; [reflexivity|]. split; [exact S1|]. split; [now rewrite map_length|]. split.
  - intros l Hl. destruct (HF l Hl) as (st & EF & F1 & F2). rewrite (S3 l Hl) in EF. injection EF as <-. cbn [fst snd] in F1, F2. split; [exact F1|]. rewrite (nth_indep _ 0 (u64_of_f f0)) by (rewrite map_length; lia). rewrite map_nth. exact F2.
  - split; [exact S4|]. split; [exact S5|]. now apply Hlen.
Qed.

Lemma foldM_map {A B S} (f : S -> B -> res S) (g : A -> B) l s : foldM f (map g l) s = foldM (fun s a => f s (g a)) l s.
Proof. revert s. induction l as [|a l IH]; intros s; cbn; [reflexivity|]. destruct (f s (g a)); cbn; auto. Qed.
Lemma mapM_seq_inv {B} (f : nat -> res B) n : forall a bs d, mapM f (seq a n) = Ok bs -> length bs = n /\ forall i, (i < n)%nat -> f (a + i)%nat = Ok (nth i bs d).
Proof.
  induction n as [|n IH]; intros a bs d E; cbn in E; [injection E as <-; split; [reflexivity|lia]|].
  destruct (f a) as [b|] eqn:Eb; [|discriminate]. cbn [bind] in E. destruct (mapM f (seq (S a) n)) as [bs'|] eqn:E'; [|discriminate]. injection E as <-.
  destruct (IH (S a) bs' d E') as [L H]. split; [cbn; lia|]. intros [|i] Hi; [now rewrite Nat.add_0_r|]. rewrite Nat.add_succ_r, <- Nat.add_succ_l. apply H. lia.
Qed.
Lemma steps8_eq a n : steps8 a (a + 8 * n) = map (fun t => (a + 8 * t)%nat) (seq 0 n).
Proof. unfold steps8. f_equal. f_equal. replace (a + 8 * n - a + 7)%nat with (7 + n * 8)%nat by lia. rewrite Nat.div_add by lia. reflexivity. Qed.
Lemma holds_nth m ss p i s : holds_limbs m ss p -> nth_error ss i = Some s -> holds m s (nth i p []).
Proof.
  intros H. revert i. induction H as [|s' l ss p H1 H2 IH]; intros i E; [destruct i; discriminate|]. destruct i as [|i]; cbn in *; [injection E as <-; exact H1|now apply IH].
Qed.
Lemma holds_len m ss p : holds_limbs m ss p -> length ss = length p.
Proof. induction 1; cbn; congruence. Qed.
Lemma column_nth p x i : (i < length p)%nat -> nth_error (column p x) i = Some (nth x (nth i p []) 0).
Proof. intros H. unfold column. rewrite nth_error_map. now rewrite (nth_error_nth' p [] H). Qed.
Lemma column_col_in m N p v x0 i : holds_limbs m p v -> Forall (fun s => a_len s = N) p -> (i < length p)%nat -> (x0 + 8 <= N)%nat -> col_in m p (fun l => column v (x0 + l)) N x0 i.
Proof.
  intros Hh HN Hi Hx. destruct (nth_error p i) as [s|] eqn:Es; [|apply nth_error_None in Es; lia]. exists s. split; [exact Es|]. rewrite Forall_forall in HN. assert (Hs : a_len s = N) by (apply HN; now apply nth_error_In in Es). split; [exact Hs|].
  intros l Hl. rewrite column_nth by (rewrite <- (holds_len m p v Hh); exact Hi). f_equal. destruct (holds_nth m p v i s Hh Es) as [HL Hw]. symmetry. apply Hw. lia.
Qed.
Lemma limbs_of_holds m p2 N (cols : list (list Z)) : length cols = N -> (forall j s, nth_error p2 j = Some s -> a_len s = N) ->
  (forall j s x, nth_error p2 j = Some s -> (x < N)%nat -> m (a_base s + Z.of_nat x) = nth j (nth x cols []) 0) -> holds_limbs m p2 (limbs_of (length p2) cols).
Proof.
  intros HL HN H. unfold limbs_of. assert (G : forall ss a, (forall i s, nth_error ss i = Some s -> nth_error p2 (a + i) = Some s) -> Forall2 (holds m) ss (map (fun j => map (fun c => nth j c 0) cols) (seq a (length ss)))).
  { induction ss as [|s ss IH]; intros a Ha; cbn [length seq map]; constructor.
    - pose proof (Ha 0%nat s eq_refl) as Es. rewrite Nat.add_0_r in Es. split; [etransitivity; [exact (HN a s Es)|]; symmetry; rewrite map_length; exact HL|]. intros i Hi. rewrite map_length in Hi. rewrite (H a s i Es) by lia.
      rewrite (nth_indep (map (fun c => nth a c 0) cols) 0 (nth a [] 0)) by (rewrite map_length; lia). now rewrite (map_nth (fun c => nth a c 0)).
    - apply IH. intros i s' Hi. rewrite Nat.add_succ_l, <- Nat.add_succ_r. now apply Ha. }
  apply G. auto.
Qed.
Lemma sized_nth N ss i s : sized N ss -> nth_error ss i = Some s -> a_len s = N.
Proof. intros H E. unfold sized in H. rewrite Forall_forall in H. apply H. now apply nth_error_In in E. Qed.

Lemma modUpExactM_ok n p1 p2 v1 v2 Q P pr m0 : p1 <> [] -> sized (8 * n) p1 -> sized (8 * n) p2 -> disj p2 -> lists_apart p1 p2 -> holds_limbs m0 p1 v1 ->
  modUpExact v1 (length p2) Q P pr = Ok v2 ->
  exists m', modUpExactM m0 p1 p2 Q P pr = Ok m' /\ holds_limbs m' p2 v2 /\ same_outside p2 m0 m'.
Proof.
  intros Hne H1 H2 Hd Hap Hh E. unfold modUpExact in E. destruct (mapM _ (seq 0 (ncoef v1))) as [cols|] eqn:Ec; [|discriminate]. cbn [bind] in E. injection E as <-.
  unfold modUpExactM. destruct p1 as [|s0 p1']; [congruence|]. set (p1 := s0 :: p1') in *. change (idx p1 0) with (Ok s0). cbn [bind].
  assert (Hs0 : a_len s0 = (8 * n)%nat) by (apply (sized_nth _ p1 0); auto).
  assert (HN : ncoef v1 = (8 * n)%nat). { destruct (holds_nth m0 p1 v1 0 s0 Hh eq_refl) as [HL _]. unfold ncoef. rewrite <- HL. exact Hs0. }
  rewrite HN in Ec. destruct (mapM_seq_inv _ _ _ _ [] Ec) as [Lc Hc]. cbn [plus] in Hc. rewrite Hs0. change (8 * n)%nat with (0 + 8 * n)%nat at 1; rewrite steps8_eq, foldM_map. pose proof (holds_len _ _ _ Hh) as Hlen.
  set (I := fun (b : nat) (st : memory * list (list Z)) => let '(m, ys) := st in shape8 ys /\
     (forall j s x, nth_error p2 j = Some s -> (x < 8 * b)%nat -> m (a_base s + Z.of_nat x) = nth j (nth x cols []) 0) /\
     (forall a, (forall j s, nth_error p2 j = Some s -> ~ (a_base s <= a < a_base s + Z.of_nat (8 * b))) -> m a = m0 a)).
  match goal with |- exists m', bind (foldM ?f _ _) _ = _ /\ _ => set (body := f) end.
  destruct (foldM_seq_inv body I n (m0, y0)) as ([m' ys'] & E & HI).
  { intros b [m ys] Hb (I1 & I2 & I3). unfold body. cbn [plus].
    assert (Hh' : holds_limbs m p1 v1).
    { clear - Hh I3 H1 H2 Hap Hb. revert H1 Hap. induction Hh as [|s l ss p [HL Hw] Hh IH]; intros H1 Hap; constructor.
      - split; [exact HL|]. intros i Hi. rewrite <- Hw by auto. apply I3. intros j t Et Hin. assert (Ha : apart s t) by (apply Hap; [now left|now apply nth_error_In in Et]). inversion H1; subst. pose proof (sized_nth _ _ _ _ H2 Et). unfold apart in Ha. lia.
      - apply IH; [now inversion H1|]. intros s' t' Hs' Ht'. apply Hap; [now right|auto]. }
    assert (Hx : (8 * b + 8 <= 8 * n)%nat) by lia.
    assert (HC : forall l, (l < 8)%nat -> exists yv, recon 0 (length p1) (column v1 (8 * b + l)) Q (qoverqiinvqi pr) = Ok yv /\
       mapM (fun j => let* pj := idx P j in let* vt := idx (vtimesqmodp pr) j in let* tb := idx (qoverqimodp pr) j in multSum (length p1) (fst yv) (snd yv) pj vt tb) (seq 0 (length p2)) = Ok (nth (8 * b + l) cols [])).
    { intros l Hl. specialize (Hc (8 * b + l)%nat ltac:(lia)). unfold modUpExact_coef in Hc. assert (HL1 : length (column v1 (8 * b + l)) = length p1) by (unfold column; rewrite map_length; now symmetry). rewrite HL1 in Hc.
      destruct (recon 0 (length p1) _ Q _) as [[yy vv]|]; [|discriminate]. cbn [bind] in Hc. exists (yy, vv). split; [reflexivity|exact Hc]. }
    set (g := fun l => match recon 0 (length p1) (column v1 (8 * b + l)) Q (qoverqiinvqi pr) with Ok yv => yv | _ => ([], 0) end).
    assert (Hg : forall l, (l < 8)%nat -> recon 0 (length p1) (column v1 (8 * b + l)) Q (qoverqiinvqi pr) = Ok (fst (g l), snd (g l))).
    { intros l Hl. destruct (HC l Hl) as (yv & E1 & _). unfold g. rewrite E1. now destruct yv. }
    destruct (reconM_ok (8 * n) m 0 (length p1) (8 * b) p1 None ys Q (qoverqiinvqi pr) (fun l => column v1 (8 * b + l)) (fun l => fst (g l)) (fun l => snd (g l))) as (m1 & ys1 & v & E1 & S1 & S2 & S3 & S4 & _ & Hk); auto.
    { intros i Hi. now apply column_col_in. }
    subst m1. rewrite E1. cbn [bind].
    destruct (multSumsM_ok (8 * n) (8 * b) p2 0 v ys1 (length p1) P pr (fun j l => nth j (nth (8 * b + l) cols []) 0) S1 S2 Hk Hx Hd (seq 0 (length p2)) (seq_NoDup _ _)) with (m := m) as (m2 & E2 & M1 & M2).
    { intros j Hj. apply in_seq in Hj. destruct (nth_error p2 j) as [s|] eqn:Es; [|apply nth_error_None in Es; lia]. exists s. split; [reflexivity|]. now apply (sized_nth _ p2 j). }
    { intros j Hj. apply in_seq in Hj. destruct (HC 0%nat ltac:(lia)) as (yv0 & _ & F0). destruct (mapM_seq_inv _ _ _ _ 0 F0) as [_ G0]. specialize (G0 j ltac:(lia)). cbn [plus] in G0.
      destruct (idx P j) as [pj|] eqn:T1; cbn [bind] in G0; [|discriminate]. destruct (idx (vtimesqmodp pr) j) as [vt|] eqn:T2; cbn [bind] in G0; [|discriminate]. destruct (idx (qoverqimodp pr) j) as [tb|] eqn:T3; cbn [bind] in G0; [|discriminate]. clear G0.
      exists pj, vt, tb. cbn [plus]. do 3 (split; [first [reflexivity|assumption]|]). intros l Hl. destruct (HC l Hl) as (yv & E3 & F). destruct (mapM_seq_inv _ _ _ _ 0 F) as [_ G]. specialize (G j ltac:(lia)). cbn [plus] in G.
      destruct (S3 l Hl) as [-> ->]. unfold g. rewrite E3.
      rewrite T1, T2, T3 in G. exact G. }
    rewrite E2. cbn [bind]. eexists. split; [reflexivity|]. split; [exact S1|]. split.
    - intros j s x Es Hx'. destruct (Nat.lt_ge_cases x (8 * b)) as [Hlt|Hge].
      + rewrite M2; [now apply I2|]. intros j' s' Hj' Es' Hw. unfold win in Hw. destruct (Nat.eq_dec j j') as [->|Hnj]; [assert (s' = s) by congruence; subst s'; lia|].
        pose proof (Hd j j' s s' Es Es' Hnj) as HA. pose proof (sized_nth _ _ _ _ H2 Es). pose proof (sized_nth _ _ _ _ H2 Es'). unfold apart in HA. lia.
      + replace x with (8 * b + (x - 8 * b))%nat by lia. apply (M1 j s (x - 8 * b)%nat); [|exact Es|lia]. apply in_seq. split; [lia|]. cbn. apply nth_error_Some. congruence.
    - intros a Ha. rewrite M2; [apply I3; intros j s Es Hin; apply (Ha j s Es); lia|]. intros j s _ Es Hw. apply (Ha j s Es). unfold win in Hw. lia. }
  { split; [exact shape8_y0|]. split; [intros; lia|reflexivity]. }
  destruct HI as (_ & I2 & I3). rewrite E. cbn [bind]. exists m'. split; [reflexivity|]. split.
  - apply limbs_of_holds with (N := (8 * n)%nat); [exact Lc|intros; now apply (sized_nth _ p2 j)|exact I2].
  - intros a Ha. apply I3. intros j s Es Hin. apply (Ha s); [now apply nth_error_In in Es|]. unfold within. pose proof (sized_nth _ _ _ _ H2 Es). lia.
Qed.

(** loops whose blocks write eight words of one array *)
Lemma blocks_ok (body : memory -> nat -> res memory) (F : memory -> nat -> nat -> Z) (G : nat -> Z) (zb : Z) a n m0 :
  (forall m t, (t < n)%nat -> body m (a + 8 * t)%nat = Ok (fold_left (fun m l => store m (lane (zb + Z.of_nat (a + 8 * t)) l) (F m (a + 8 * t)%nat l)) lanes m)) ->
  (forall m t l, (t < n)%nat -> (l < 8)%nat -> (forall b, ~ (zb + Z.of_nat a <= b < zb + Z.of_nat (a + 8 * t + l)) -> m b = m0 b) -> F m (a + 8 * t)%nat l = G (a + 8 * t + l)%nat) ->
  exists m', foldM body (steps8 a (a + 8 * n)) m0 = Ok m' /\ (forall x, (a <= x < a + 8 * n)%nat -> m' (zb + Z.of_nat x) = G x) /\
    (forall b, ~ (zb + Z.of_nat a <= b < zb + Z.of_nat (a + 8 * n)) -> m' b = m0 b).
Proof.
  intros HB HF. rewrite steps8_eq, foldM_map.
  apply (foldM_seq_inv _ (fun t m => (forall x, (a <= x < a + 8 * t)%nat -> m (zb + Z.of_nat x) = G x) /\ (forall b, ~ (zb + Z.of_nat a <= b < zb + Z.of_nat (a + 8 * t)) -> m b = m0 b))).
  - intros t m Ht [I1 I2]. rewrite HB by auto. eexists. split; [reflexivity|].
    destruct (stores8 (fun m l => F m (a + 8 * t)%nat l) (fun l => G (a + 8 * t + l)%nat) m (zb + Z.of_nat (a + 8 * t))) as [W1 W2].
    { intros l m' Hl Hm'. apply HF; auto. intros b Hb. rewrite Hm' by lia. apply I2. lia. }
    split.
    + intros x Hx. destruct (Nat.lt_ge_cases x (a + 8 * t)) as [Hlt|Hge]; [rewrite W2 by lia; apply I1; lia|].
      replace x with (a + 8 * t + (x - (a + 8 * t)))%nat at 2 by lia. rewrite <- W1 by lia. f_equal. unfold lane. lia.
    + intros b Hb. rewrite W2 by lia. apply I2. lia.
  - split; [intros; lia|reflexivity].
Qed.
Lemma nth_map_comb {A B C} (f : A * B -> C) (xs : list A) (ys : list B) i da db dc : (i < length xs)%nat -> (i < length ys)%nat -> nth i (map f (combine xs ys)) dc = f (nth i xs da, nth i ys db).
Proof.
  revert ys i. induction xs as [|x xs IH]; intros [|y ys] i H1 H2; cbn in *; try lia. destruct i; [reflexivity|]. apply IH; lia.
Qed.
Lemma moddownLimbM_ok n q inv xs ys zs vx vy m0 : a_len xs = (8 * n)%nat -> a_len ys = (8 * n)%nat -> a_len zs = (8 * n)%nat -> (xs = zs \/ apart xs zs) -> apart ys zs -> holds m0 xs vx -> holds m0 ys vy ->
  exists m', foldM (fun m j => let* x := addr xs j in let* y := addr ys j in let* z := addr zs j in
      Ok (fold_left (fun m l => store m (lane z l) (moddown_word (m (lane x l)) (m (lane y l)) q inv)) lanes m)) (steps8 0 (8 * n)) m0 = Ok m' /\
    holds m' zs (map (fun '(x, y) => moddown_word x y q inv) (combine vx vy)) /\ same_outside [zs] m0 m'.
Proof.
  intros Hx Hy Hz Hxz Hyz [Lx Wx] [Ly Wy].
  destruct (blocks_ok (fun m j => let* x := addr xs j in let* y := addr ys j in let* z := addr zs j in
      Ok (fold_left (fun m l => store m (lane z l) (moddown_word (m (lane x l)) (m (lane y l)) q inv)) lanes m))
    (fun m j l => moddown_word (m (lane (a_base xs + Z.of_nat j) l)) (m (lane (a_base ys + Z.of_nat j) l)) q inv)
    (fun i => moddown_word (nth i vx 0) (nth i vy 0) q inv) (a_base zs) 0 n m0) as (m' & E & M1 & M2).
  - intros m t Ht. rewrite !addr_ok by lia. reflexivity.
  - intros m t l Ht Hl Hm. assert (Hi : (0 + 8 * t + l < 8 * n)%nat) by lia. f_equal.
    + rewrite <- Wx by lia. rewrite Hm; [unfold lane; f_equal; lia|]. unfold lane. destruct Hxz as [->|Ha]; [lia|]. unfold apart in Ha. lia.
    + rewrite <- Wy by lia. rewrite Hm; [unfold lane; f_equal; lia|]. unfold lane. unfold apart in Hyz. lia.
  - exists m'. cbn [plus] in E. split; [exact E|]. split.
    + split; [rewrite map_length, combine_length; lia|]. rewrite map_length, combine_length. intros i Hi. rewrite (nth_map_comb _ vx vy i 0 0 0) by lia. apply M1. lia.
    + intros b Hb. apply M2. intros Hin. apply (Hb zs (or_introl eq_refl)). unfold within. lia.
Qed.
(** an output array is the operand's array of the same limb or apart from it; distinct limbs are apart *)
Lemma holds_frame m m' s l ts : holds m s l -> (forall t, In t ts -> apart s t) -> same_outside ts m m' -> holds m' s l.
Proof.
  intros [HL H] Ha Hs. split; [exact HL|]. intros i Hi. rewrite <- H by auto. apply Hs. intros t Ht Hw. specialize (Ha t Ht). unfold apart, within in *. lia.
Qed.
Lemma nth_error_lt {A} (l : list A) i : (i < length l)%nat -> exists a, nth_error l i = Some a.
Proof. intros H. destruct (nth_error l i) eqn:E; [eauto|]. apply nth_error_None in E. lia. Qed.
Lemma moddownLimbsM_ok n lvl mods row p1 pool p2 v1 up out m0 : sized (8 * n) p1 -> sized (8 * n) pool -> sized (8 * n) p2 -> (lvl < length p1)%nat -> (lvl < length pool)%nat -> (lvl < length p2)%nat ->
  disj p2 -> in_place_or_apart p1 p2 -> lists_apart pool p2 ->
  (forall i s, (i <= lvl)%nat -> nth_error p1 i = Some s -> holds m0 s (nth i v1 [])) -> (forall i s, (i <= lvl)%nat -> nth_error pool i = Some s -> holds m0 s (nth i up [])) ->
  moddown_limbs lvl mods row v1 up = Ok out ->
  exists m', moddownLimbsM m0 (8 * n) lvl mods row p1 pool p2 = Ok m' /\ holds_limbs m' (firstn (lvl + 1) p2) out /\ same_outside (firstn (lvl + 1) p2) m0 m'.
Proof.
  intros S1 Sp S2 L1 Lp L2 Hd Hio Hap H1 Hp E. unfold moddown_limbs in E. destruct (mapM_seq_inv _ _ _ _ [] E) as [Lo Ho]. cbn [plus] in Ho. unfold moddownLimbsM.
  match goal with |- exists m', foldM ?f _ _ = _ /\ _ => set (body := f) end.
  destruct (foldM_seq_inv body (fun k m => (forall i t, (i < k)%nat -> nth_error p2 i = Some t -> holds m t (nth i out [])) /\ same_outside (firstn k p2) m0 m) (lvl + 1) m0) as (m' & E' & I1 & I2).
  { intros i m Hi [I1 I2]. specialize (Ho i Hi). unfold body. destruct (idx mods i) as [q|]; cbn [bind] in *; [|discriminate]. destruct (idx row i) as [inv|]; cbn [bind] in *; [|discriminate].
    destruct (idx v1 i) as [vx|] eqn:Evx; cbn [bind] in *; [|discriminate]. destruct (idx up i) as [vy|] eqn:Evy; cbn [bind] in *; [|discriminate]. injection Ho as Ho.
    destruct (nth_error_lt p1 i ltac:(lia)) as [xs Ex]. destruct (nth_error_lt p2 i ltac:(lia)) as [zs Ez]. destruct (nth_error_lt pool i ltac:(lia)) as [ys Ey].
    rewrite (idx_some _ _ _ Ex), (idx_some _ _ _ Ez), (idx_some _ _ _ Ey). cbn [bind].
    assert (Nvx : nth i v1 [] = vx) by (apply idx_inv in Evx; now apply nth_error_nth). assert (Nvy : nth i up [] = vy) by (apply idx_inv in Evy; now apply nth_error_nth).
    assert (Hfr : forall t, In t (firstn i p2) -> exists j, (j < i)%nat /\ nth_error p2 j = Some t).
    { intros t Ht. apply In_nth_error in Ht as [j Hj]. assert (Hji : (j < i)%nat) by (assert (j < length (firstn i p2))%nat by (apply nth_error_Some; congruence); rewrite firstn_length in *; lia). exists j. split; [exact Hji|].
      rewrite <- (firstn_skipn i p2), nth_error_app1; [exact Hj|]. apply nth_error_Some. congruence. }
    destruct (moddownLimbM_ok n q inv xs ys zs vx vy m) as (m1 & E1 & W1 & W2).
    - now apply (sized_nth _ p1 i).
    - now apply (sized_nth _ pool i).
    - now apply (sized_nth _ p2 i).
    - destruct (Hio i i xs zs Ex Ez) as [[_ ->]|Ha]; auto.
    - apply Hap; [now apply nth_error_In in Ey|now apply nth_error_In in Ez].
    - apply (holds_frame m0 m xs vx (firstn i p2)); [rewrite <- Nvx; apply (H1 i); [lia|exact Ex]| |exact I2]. intros t Ht. destruct (Hfr t Ht) as (j & Hj & Et). destruct (Hio i j xs t Ex Et) as [[? _]|Ha]; [lia|exact Ha].
    - apply (holds_frame m0 m ys vy (firstn i p2)); [rewrite <- Nvy; apply (Hp i); [lia|exact Ey]| |exact I2]. intros t Ht. destruct (Hfr t Ht) as (j & Hj & Et). apply Hap; [now apply nth_error_In in Ey|now apply nth_error_In in Et].
    - exists m1. split; [exact E1|]. split.
      + intros i' t Hi' Et. destruct (Nat.eq_dec i' i) as [->|Hne]; [assert (t = zs) by congruence; subst t; rewrite <- Ho; exact W1|].
        apply (holds_frame m m1 t _ [zs]); [apply I1; [lia|exact Et]| |exact W2]. intros t' [<-|[]]. apply (Hd i' i); auto.
      + intros b Hb. rewrite W2; [apply I2|].
        * intros s Hs. apply Hb. replace (i + 1)%nat with (S i) by lia. destruct (Hfr s Hs) as (j & Hj & Et). apply (nth_error_In _ j). rewrite <- Et.
          rewrite <- (firstn_skipn (S i) p2) at 2. symmetry. apply nth_error_app1. rewrite firstn_length. lia.
        * intros s [<-|[]]. apply Hb. apply (nth_error_In _ i). rewrite <- Ez. rewrite <- (firstn_skipn (i + 1) p2) at 2. symmetry. apply nth_error_app1. rewrite firstn_length. lia. }
  { split; [intros; lia|]. now intros b Hb. }
  exists m'. split; [exact E'|]. split; [|exact I2].
  clear - I1 Lo L2. rewrite <- (firstn_all out), Lo. assert (G : forall k, (k <= lvl + 1)%nat -> holds_limbs m' (firstn k p2) (firstn k out)).
  { induction k as [|k IH]; intros Hk; [constructor|]. destruct (nth_error_lt p2 k ltac:(lia)) as [t Et].
    assert (F1 : firstn (S k) p2 = firstn k p2 ++ [t]). { clear - Et. revert p2 Et. induction k as [|k IH]; intros [|s p] Et; cbn in *; try discriminate; [injection Et as ->; reflexivity|]. f_equal. now apply IH. }
    assert (F2 : firstn (S k) out = firstn k out ++ [nth k out []]).
    { destruct (nth_error_lt out k ltac:(lia)) as [o Eo]. rewrite (nth_error_nth _ _ [] Eo). clear - Eo. revert out Eo. induction k as [|k IH]; intros [|s p] Eo; cbn in *; try discriminate; [injection Eo as ->; reflexivity|]. f_equal. now apply IH. }
    rewrite F1, F2. apply Forall2_app; [apply IH; lia|]. constructor; [|constructor]. apply I1; [lia|exact Et]. }
  apply G. lia.
Qed.

Lemma slice_ok {A} n (l : list A) : (n <= length l)%nat -> slice n l = Ok (firstn n l).
Proof. intros H. unfold slice. now rewrite (proj2 (Nat.leb_le _ _) H). Qed.
Lemma slice_inv {A} n (l r : list A) : slice n l = Ok r -> (n <= length l)%nat /\ r = firstn n l.
Proof. unfold slice. destruct (Nat.leb_spec n (length l)); [|discriminate]. intros [= <-]. auto. Qed.
Lemma holds_firstn m n ss p : holds_limbs m ss p -> holds_limbs m (firstn n ss) (firstn n p).
Proof. intros H. revert n. induction H; intros [|n]; cbn; constructor; auto. apply IHForall2. Qed.
Lemma sized_firstn n N ss : sized N ss -> sized N (firstn n ss).
Proof. intros H. revert n. induction H; intros [|n]; cbn; constructor; auto. apply IHForall. Qed.
Lemma In_firstn {A} n (l : list A) a : In a (firstn n l) -> In a l.
Proof. intros H. rewrite <- (firstn_skipn n l). apply in_or_app. now left. Qed.
Lemma apart_firstn n k ss ts : lists_apart ss ts -> lists_apart (firstn n ss) (firstn k ts).
Proof. intros H s t Hs Ht. apply H; eapply In_firstn; eauto. Qed.
Lemma apart_firstn_r k ss ts : lists_apart ss ts -> lists_apart ss (firstn k ts).
Proof. intros H s t Hs Ht. apply H; [auto|eapply In_firstn; eauto]. Qed.
Lemma same_mono ss ts m m' : (forall s, In s ss -> In s ts) -> same_outside ss m m' -> same_outside ts m m'.
Proof. intros H Hs a Ha. apply Hs. auto. Qed.
Lemma same_trans ss m1 m2 m3 : same_outside ss m1 m2 -> same_outside ss m2 m3 -> same_outside ss m1 m3.
Proof. intros H1 H2 a Ha. rewrite H2, H1 by auto. reflexivity. Qed.
Lemma holds_limbs_frame m m' ss p ts : holds_limbs m ss p -> lists_apart ss ts -> same_outside ts m m' -> holds_limbs m' ss p.
Proof.
  intros H Ha Hs. induction H as [|s l ss p H1 H2 IH]; constructor.
  - apply (holds_frame m m' s l ts); auto. intros t Ht. apply Ha; [now left|auto].
  - apply IH. intros s' t' Hs' Ht'. apply Ha; [now right|auto].
Qed.

Section Top.
Context (b : extender) (n : nat).
Lemma modup_gen (l1 l2 : nat) (prs : list modupParams) (Q P : list Z) m p1 p2 v1 out : sized (8 * n) p1 -> sized (8 * n) p2 -> (l2 < length p2)%nat -> disj p2 -> lists_apart p1 p2 -> holds_limbs m p1 v1 ->
  (let* p1 := slice (l1 + 1) v1 in let* pr := idx prs l1 in modUpExact p1 (l2 + 1) Q P pr) = Ok out ->
  exists m', (let* p1 := slice (l1 + 1) p1 in let* p2 := slice (l2 + 1) p2 in let* pr := idx prs l1 in modUpExactM m p1 p2 Q P pr) = Ok m' /\
    holds_limbs m' (firstn (l2 + 1) p2) out /\ same_outside (firstn (l2 + 1) p2) m m'.
Proof.
  intros S1 S2 L2 Hd Ha Hh E. destruct (slice (l1 + 1) v1) as [w1|] eqn:Es; [|discriminate]. apply slice_inv in Es as [Hl ->]. cbn [bind] in E. pose proof (holds_len _ _ _ Hh) as HL.
  rewrite !slice_ok by lia. cbn [bind]. destruct (idx prs l1) as [pr|]; cbn [bind] in *; [|discriminate]. apply (modUpExactM_ok n _ _ (firstn (l1 + 1) v1)).
  - destruct p1; [cbn in HL; lia|]. replace (l1 + 1)%nat with (S l1) by lia. discriminate.
  - now apply sized_firstn.
  - now apply sized_firstn.
  - now apply disj_firstn.
  - now apply apart_firstn.
  - now apply holds_firstn.
  - rewrite firstn_length. replace (Nat.min (l2 + 1) (length p2)) with (l2 + 1)%nat by lia. exact E.
Qed.
Lemma ModUpQtoPM_ok levelQ levelP m polQ polP vQ out : sized (8 * n) polQ -> sized (8 * n) polP -> (levelP < length polP)%nat -> all_apart polP -> lists_apart polQ polP -> holds_limbs m polQ vQ ->
  ModUpQtoP b levelQ levelP vQ = Ok out ->
  exists m', ModUpQtoPM b levelQ levelP m polQ polP = Ok m' /\ holds_limbs m' (firstn (levelP + 1) polP) out /\ same_outside (firstn (levelP + 1) polP) m m'.
Proof. intros S1 S2 L Hd Ha Hh E. now apply (modup_gen levelQ levelP (paramsQtoP b) (ext_Q b) (ext_P b) m polQ polP vQ out); auto using all_apart_disj. Qed.
Lemma ModUpPtoQM_ok levelP levelQ m polP polQ vP out : sized (8 * n) polP -> sized (8 * n) polQ -> (levelQ < length polQ)%nat -> all_apart polQ -> lists_apart polP polQ -> holds_limbs m polP vP ->
  ModUpPtoQ b levelP levelQ vP = Ok out ->
  exists m', ModUpPtoQM b levelP levelQ m polP polQ = Ok m' /\ holds_limbs m' (firstn (levelQ + 1) polQ) out /\ same_outside (firstn (levelQ + 1) polQ) m m'.
Proof. intros S1 S2 L Hd Ha Hh E. now apply (modup_gen levelP levelQ (paramsPtoQ b) (ext_P b) (ext_Q b) m polP polQ vP out); auto using all_apart_disj. Qed.

Lemma moddown_gen lvl mods row m pool p1 p2 v1 up out m1 : sized (8 * n) p1 -> sized (8 * n) pool -> sized (8 * n) p2 -> (lvl < length pool)%nat -> (lvl < length p2)%nat ->
  all_apart p2 -> in_place_or_apart p1 p2 -> lists_apart pool p2 -> lists_apart p1 pool -> holds_limbs m p1 v1 ->
  holds_limbs m1 (firstn (lvl + 1) pool) up -> same_outside (firstn (lvl + 1) pool) m m1 ->
  moddown_limbs lvl mods row v1 up = Ok out ->
  exists m', moddownLimbsM m1 (8 * n) lvl mods row p1 pool p2 = Ok m' /\ holds_limbs m' (firstn (lvl + 1) p2) out /\ same_outside (firstn (lvl + 1) p2 ++ firstn (lvl + 1) pool) m m'.
Proof.
  intros S1 Sp S2 Lp L2 Hd Hio Ha1 Ha2 Hh Hu Hs E. assert (Hh1 : holds_limbs m1 p1 v1) by (apply (holds_limbs_frame m m1 p1 v1 (firstn (lvl + 1) pool)); auto using apart_firstn_r).
  assert (L1 : (lvl < length p1)%nat).
  { unfold moddown_limbs in E. destruct (mapM_seq_inv _ _ _ _ [] E) as [_ Ho]. specialize (Ho lvl ltac:(lia)). cbn [plus] in Ho. destruct (idx mods lvl); cbn [bind] in Ho; [|discriminate]. destruct (idx row lvl); cbn [bind] in Ho; [|discriminate].
    destruct (idx v1 lvl) eqn:Ev; cbn [bind] in Ho; [|discriminate]. apply idx_inv in Ev. rewrite (holds_len _ _ _ Hh). apply nth_error_Some. congruence. }
  destruct (moddownLimbsM_ok n lvl mods row p1 pool p2 v1 up out m1) as (m' & E' & R1 & R2); auto using all_apart_disj.
  - intros i s Hi Es. apply (holds_nth m1 p1); auto.
  - intros i s Hi Es. apply (holds_nth m1 (firstn (lvl + 1) pool)); auto. rewrite <- Es. rewrite <- (firstn_skipn (lvl + 1) pool) at 2. symmetry. apply nth_error_app1. rewrite firstn_length. lia.
  - exists m'. split; [exact E'|]. split; [exact R1|]. apply (same_trans _ m m1 m'); [apply (same_mono (firstn (lvl + 1) pool)); [intros; apply in_or_app; now right|auto]|]. apply (same_mono (firstn (lvl + 1) p2)); [intros; apply in_or_app; now left|auto].
Qed.
Lemma ModDownQPtoQM_ok levelQ levelP m pool p1Q p1P p2Q vQ vP out :
  sized (8 * n) pool -> sized (8 * n) p1Q -> sized (8 * n) p1P -> sized (8 * n) p2Q -> (levelQ < length pool)%nat -> (levelQ < length p2Q)%nat ->
  all_apart pool -> all_apart p2Q -> lists_apart p1P pool -> lists_apart p1Q pool -> lists_apart pool p2Q -> in_place_or_apart p1Q p2Q ->
  holds_limbs m p1Q vQ -> holds_limbs m p1P vP -> ModDownQPtoQ b levelQ levelP vQ vP = Ok out ->
  exists m', ModDownQPtoQM b (8 * n) levelQ levelP m pool p1Q p1P p2Q = Ok m' /\ holds_limbs m' (firstn (levelQ + 1) p2Q) out /\ same_outside (firstn (levelQ + 1) p2Q ++ firstn (levelQ + 1) pool) m m'.
Proof.
  intros Sp S1 SP S2 Lp L2 Hp H2 Ha1 Ha2 Ha3 Hio HQ HP E. unfold ModDownQPtoQ in E. destruct (ModUpPtoQ b levelP levelQ vP) as [up|] eqn:Eu; [|discriminate]. cbn [bind] in E.
  destruct (ModUpPtoQM_ok levelP levelQ m p1P pool vP up) as (m1 & E1 & R1 & R2); auto. unfold ModDownQPtoQM. rewrite E1. cbn [bind]. destruct (idx (modDownPtoQ b) levelP) as [row|]; cbn [bind] in *; [|discriminate].
  now apply (moddown_gen levelQ (ext_Q b) row m pool p1Q p2Q vQ up out m1).
Qed.
Lemma ModDownQPtoPM_ok levelQ levelP m pool p1Q p1P p2P vQ vP out :
  sized (8 * n) pool -> sized (8 * n) p1Q -> sized (8 * n) p1P -> sized (8 * n) p2P -> (levelP < length pool)%nat -> (levelP < length p2P)%nat ->
  all_apart pool -> all_apart p2P -> lists_apart p1Q pool -> lists_apart p1P pool -> lists_apart pool p2P -> in_place_or_apart p1P p2P ->
  holds_limbs m p1Q vQ -> holds_limbs m p1P vP -> ModDownQPtoP b levelQ levelP vQ vP = Ok out ->
  exists m', ModDownQPtoPM b (8 * n) levelQ levelP m pool p1Q p1P p2P = Ok m' /\ holds_limbs m' (firstn (levelP + 1) p2P) out /\ same_outside (firstn (levelP + 1) p2P ++ firstn (levelP + 1) pool) m m'.
Proof.
  intros Sp S1 SP S2 Lp L2 Hp H2 Ha1 Ha2 Ha3 Hio HQ HP E. unfold ModDownQPtoP in E. destruct (ModUpQtoP b levelQ levelP vQ) as [up|] eqn:Eu; [|discriminate]. cbn [bind] in E.
  destruct (ModUpQtoPM_ok levelQ levelP m p1Q pool vQ up) as (m1 & E1 & R1 & R2); auto. unfold ModDownQPtoPM. rewrite E1. cbn [bind]. destruct (idx (modDownQtoP b) levelP) as [row|]; cbn [bind] in *; [|discriminate].
  now apply (moddown_gen levelP (ext_P b) row m pool p1P p2P vP up out m1).
Qed.
End Top.

(** DecomposeAndSplit *)
Lemma firstn_nth_error {A} n (l : list A) i : (i < n)%nat -> nth_error (firstn n l) i = nth_error l i.
Proof.
  revert l i. induction n as [|n IH]; intros l i H; [lia|]. destruct l as [|a l]; [reflexivity|]. destruct i as [|i]; cbn; [reflexivity|]. apply IH. lia.
Qed.
Lemma copyM_ok N m d s l : a_len d = N -> a_len s = N -> apart s d -> holds m s l -> holds (copyM m d s) d l /\ same_outside [d] m (copyM m d s).
Proof.
  intros Hd Hs Ha [HL H]. split.
  - split; [lia|]. intros i Hi. unfold copyM. destruct (Z.leb_spec (a_base d) (a_base d + Z.of_nat i)); [|lia]. destruct (Z.ltb_spec (a_base d + Z.of_nat i) (a_base d + Z.of_nat (Nat.min (a_len d) (a_len s)))); [|lia]. cbn [andb].
    rewrite <- H by auto. f_equal. lia.
  - intros a Hout. unfold copyM. destruct (Z.leb_spec (a_base d) a); [|reflexivity]. destruct (Z.ltb_spec a (a_base d + Z.of_nat (Nat.min (a_len d) (a_len s)))); [|reflexivity].
    exfalso. apply (Hout d (or_introl eq_refl)). unfold within. lia.
Qed.
Lemma copyAllM_ok N m0 ds k srcs start s l : sized N ds -> (k <= length ds)%nat -> disj ds -> nth_error srcs start = Some s -> a_len s = N -> (forall t, In t ds -> apart s t) -> holds m0 s l ->
  exists m', copyAllM m0 ds k srcs start = Ok m' /\ holds_limbs m' (firstn k ds) (repeat l k) /\ same_outside (firstn k ds) m0 m'.
Proof.
  intros Sd Lk Hd Es Hs Ha Hh. unfold copyAllM. induction k as [|k IH].
  - exists m0. split; [reflexivity|]. split; [constructor|]. now intros a _.
  - destruct IH as (m1 & E1 & R1 & R2); [lia|]. rewrite seq_S, foldM_app, E1. cbn [bind foldM plus]. destruct (nth_error_lt ds k ltac:(lia)) as [d Ed]. rewrite (idx_some _ _ _ Ed), (idx_some _ _ _ Es). cbn [bind].
    assert (Hh1 : holds m1 s l). { apply (holds_frame m0 m1 s l (firstn k ds)); auto. intros t Ht. apply Ha. eapply In_firstn; eauto. }
    assert (Hdd : In d ds) by now apply nth_error_In in Ed.
    destruct (copyM_ok N m1 d s l) as [C1 C2]; auto; [now apply (sized_nth _ ds k)|].
    eexists. split; [reflexivity|]. assert (F1 : firstn (S k) ds = firstn k ds ++ [d]).
    { clear - Ed. revert ds Ed. induction k as [|k IH]; intros [|x p] Ed; cbn in *; try discriminate; [injection Ed as ->; reflexivity|]. f_equal. now apply IH. }
    rewrite F1. replace (repeat l (S k)) with (repeat l k ++ [l]) by (symmetry; apply repeat_cons). split.
    + apply Forall2_app; [|constructor; [exact C1|constructor]]. apply (holds_limbs_frame m1 _ _ _ [d]); auto. intros a b Hin [<-|[]]. apply In_nth_error in Hin as [j Hj].
      assert (Hjk : (j < k)%nat) by (assert (j < length (firstn k ds))%nat by (apply nth_error_Some; congruence); rewrite firstn_length in *; lia). rewrite firstn_nth_error in Hj by auto. apply (Hd j k); auto; lia.
    + intros a Hout. rewrite C2; [apply R2; intros x Hx; apply Hout, in_or_app; now left|]. intros x [<-|[]]. apply Hout, in_or_app. right. now left.
Qed.
Lemma mult_bounds (p : list warray) n j s : sized n p -> nth_error p j = Some s -> (j < length p)%nat.
Proof. intros _ H. apply nth_error_Some. congruence. Qed.

Lemma DecomposeAndSplitM_ok d n levelQ levelP alpha beta gamma m0 p0Q p1Q p1P v0 outQ outP :
  sized (8 * n) p0Q -> sized (8 * n) p1Q -> sized (8 * n) p1P -> (levelQ < length p0Q)%nat -> (levelQ < length p1Q)%nat -> (levelP < length p1P)%nat -> (beta * alpha <= levelQ)%nat ->
  all_apart (p1Q ++ p1P) -> lists_apart p0Q (p1Q ++ p1P) -> holds_limbs m0 p0Q v0 ->
  DecomposeAndSplit d levelQ levelP alpha beta gamma v0 = Ok (outQ, outP) ->
  exists m', DecomposeAndSplitM d levelQ levelP alpha beta gamma m0 p0Q p1Q p1P = Ok m' /\ holds_limbs m' (firstn (levelQ + 1) p1Q) outQ /\ holds_limbs m' (firstn (levelP + 1) p1P) outP /\
    same_outside (firstn (levelQ + 1) p1Q ++ firstn (levelP + 1) p1P) m0 m'.
Proof.
  intros S0 SQ SP L0 LQ LP Hst Hall Hap Hh E. unfold DecomposeAndSplit in E. unfold DecomposeAndSplitM. destruct (Nat.eqb_spec alpha 0) as [|Ha0]; [discriminate|].
  set (start := (beta * alpha)%nat) in *. set (dl := decompLvl (Z.of_nat levelQ) (Z.of_nat alpha) (Z.of_nat beta)) in *.
  assert (Hall' : disj (p1Q ++ p1P)) by now apply all_apart_disj.
  assert (HdQ : disj p1Q). { intros i j s t Hi Hj. apply Hall'; rewrite nth_error_app1; auto; apply nth_error_Some; congruence. }
  assert (HdP : disj p1P). { intros i j s t Hi Hj Hne. apply (Hall' (length p1Q + i)%nat (length p1Q + j)%nat); [rewrite nth_error_app2 by lia; now rewrite Nat.add_comm, Nat.add_sub..|lia]. }
  assert (HQP : lists_apart p1Q p1P).
  { intros s t Hs Ht. apply In_nth_error in Hs as [i Hi]. apply In_nth_error in Ht as [j Hj]. assert (Hil : (i < length p1Q)%nat) by (apply nth_error_Some; congruence).
    apply (Hall' i (length p1Q + j)%nat); [now rewrite nth_error_app1|rewrite nth_error_app2 by lia; now rewrite Nat.add_comm, Nat.add_sub|lia]. }
  assert (H0Q : lists_apart p0Q p1Q) by (intros s t Hs Ht; apply Hap; [auto|apply in_or_app; now left]). assert (H0P : lists_apart p0Q p1P) by (intros s t Hs Ht; apply Hap; [auto|apply in_or_app; now right]).
  pose proof (holds_len _ _ _ Hh) as HL0.
  destruct (dl =? -1) eqn:Edl.
  - destruct (idx v0 start) as [l|] eqn:El; [|discriminate]. cbn [bind] in E. injection E as <- <-. apply idx_inv in El. destruct (nth_error_lt p0Q start ltac:(lia)) as [s Es].
    assert (Hs : a_len s = (8 * n)%nat) by now apply (sized_nth _ p0Q start). assert (Hsl : holds m0 s l) by (rewrite <- (nth_error_nth _ _ [] El); now apply (holds_nth m0 p0Q)). assert (Hin : In s p0Q) by now apply nth_error_In in Es.
    destruct (copyAllM_ok (8 * n) m0 p1Q (levelQ + 1) p0Q start s l) as (m1 & E1 & R1 & R2); auto; [lia|].
    assert (Hsl1 : holds m1 s l). { apply (holds_frame m0 m1 s l (firstn (levelQ + 1) p1Q)); auto. intros t Ht. apply H0Q; [auto|eapply In_firstn; eauto]. }
    destruct (copyAllM_ok (8 * n) m1 p1P (levelP + 1) p0Q start s l) as (m2 & E2 & R3 & R4); auto; [lia|].
    rewrite E1. cbn [bind]. exists m2. split; [exact E2|]. split; [|split; [exact R3|]].
    + apply (holds_limbs_frame m1 m2 _ _ (firstn (levelP + 1) p1P)); auto. now apply apart_firstn.
    + apply (same_trans _ m0 m1 m2); [apply (same_mono (firstn (levelQ + 1) p1Q)); [intros; apply in_or_app; now left|auto]|apply (same_mono (firstn (levelP + 1) p1P)); [intros; apply in_or_app; now right|auto]].
  - destruct (idxZ (dec_params d) _) as [t1|]; cbn [bind] in *; [|discriminate]. destruct (idx t1 beta) as [t2|]; cbn [bind] in *; [|discriminate]. destruct (idxZ t2 dl) as [pr|] eqn:Epr; cbn [bind] in *; [|discriminate].
    assert (Hdl : 0 <= dl). { unfold idxZ in Epr. destruct (Z.ltb_spec dl 0); [discriminate|lia]. }
    set (k := Z.to_nat (dl + 2)) in *.
    assert (Hk : (start + k <= levelQ + 1)%nat).
    { unfold k, dl, decompLvl in *. destruct (Z.of_nat levelQ >? Z.of_nat alpha * (Z.of_nat beta + 1) - 1) eqn:Eg.
      - apply Z.gtb_lt in Eg. unfold start. nia.
      - assert (Hle : Z.of_nat levelQ <= Z.of_nat alpha * (Z.of_nat beta + 1) - 1) by (rewrite Z.gtb_ltb in Eg; apply Z.ltb_ge in Eg; lia).
        assert (Hmod : Z.of_nat levelQ mod Z.of_nat alpha = Z.of_nat levelQ - Z.of_nat start).
        { symmetry. apply (Z.mod_unique_pos _ _ (Z.of_nat beta)); unfold start in *; nia. }
        rewrite Hmod. lia. }
    destruct (mapM _ (seq 0 (ncoef v0))) as [cols|] eqn:Ec; [|discriminate]. cbn [bind] in E. injection E as <- <-.
    destruct (nth_error_lt p0Q 0 ltac:(lia)) as [s0 Es0]. rewrite (idx_some _ _ _ Es0). cbn [bind]. assert (Hs0 : a_len s0 = (8 * n)%nat) by now apply (sized_nth _ p0Q 0).
    assert (HN : ncoef v0 = (8 * n)%nat). { destruct (holds_nth m0 p0Q v0 0 s0 Hh Es0) as [HL _]. unfold ncoef. rewrite <- HL. exact Hs0. }
    rewrite HN in Ec. destruct (mapM_seq_inv _ _ _ _ ([], []) Ec) as [Lc Hc]. cbn [plus] in Hc. rewrite Hs0. change (8 * n)%nat with (0 + 8 * n)%nat at 1. rewrite steps8_eq, foldM_map.
    set (pQ := firstn (levelQ + 1) p1Q). set (pP := firstn (levelP + 1) p1P).
    assert (HpQ : forall j s, nth_error pQ j = Some s <-> (j < levelQ + 1)%nat /\ nth_error p1Q j = Some s).
    { intros j s. unfold pQ. destruct (Nat.lt_ge_cases j (levelQ + 1)) as [Hlt|Hge]; [rewrite firstn_nth_error by auto; tauto|]. split; [|lia]. intros H. assert (j < length (firstn (levelQ + 1) p1Q))%nat by (apply nth_error_Some; congruence). rewrite firstn_length in *. lia. }
    assert (HpP : forall j s, nth_error pP j = Some s <-> (j < levelP + 1)%nat /\ nth_error p1P j = Some s).
    { intros j s. unfold pP. destruct (Nat.lt_ge_cases j (levelP + 1)) as [Hlt|Hge]; [rewrite firstn_nth_error by auto; tauto|]. split; [|lia]. intros H. assert (j < length (firstn (levelP + 1) p1P))%nat by (apply nth_error_Some; congruence). rewrite firstn_length in *. lia. }
    set (I := fun (b : nat) (st : memory * list (list Z)) => let '(m, ys) := st in shape8 ys /\
      (forall j s x, nth_error pQ j = Some s -> (x < 8 * b)%nat -> m (a_base s + Z.of_nat x) = nth j (fst (nth x cols ([], []))) 0) /\
      (forall j s x, nth_error pP j = Some s -> (x < 8 * b)%nat -> m (a_base s + Z.of_nat x) = nth j (snd (nth x cols ([], []))) 0) /\
      (forall a, (forall s, In s (pQ ++ pP) -> ~ (a_base s <= a < a_base s + Z.of_nat (8 * b))) -> m a = m0 a)).
    match goal with |- exists m', bind (foldM ?f _ _) _ = _ /\ _ => set (body := f) end.
    destruct (foldM_seq_inv body I n (m0, y0)) as ([m' ys'] & E & HI).
    { intros b [m ys] Hb (I1 & I2 & I2' & I3). unfold body. cbn [plus]. assert (Hx : (8 * b + 8 <= 8 * n)%nat) by lia.
      assert (Hh' : holds_limbs m p0Q v0).
      { assert (Hsame : same_outside (pQ ++ pP) m0 m).
        { intros a Ha. apply I3. intros s Hs Hin. apply (Ha s Hs). unfold within. assert (a_len s = (8 * n)%nat); [|lia]. apply in_app_or in Hs as [Hs|Hs]; apply In_nth_error in Hs as [j Hj]; [apply HpQ in Hj as [_ Hj]; now apply (sized_nth _ p1Q j)|apply HpP in Hj as [_ Hj]; now apply (sized_nth _ p1P j)]. }
        apply (holds_limbs_frame m0 m p0Q v0 (pQ ++ pP)); auto. intros s t Hs Ht. apply Hap; [auto|]. apply in_app_or in Ht as [Ht|Ht]; apply in_or_app; [left|right]; eapply In_firstn; eauto. }
      assert (HC : forall l, (l < 8)%nat -> exists yv, recon start k (column v0 (8 * b + l)) (dec_Q d) (qoverqiinvqi pr) = Ok yv /\
         mapM (fun j => let* q := idx (dec_Q d) j in let* vt := idx (vtimesqmodp pr) j in let* tb := idx (qoverqimodp pr) j in multSum k (fst yv) (snd yv) q vt tb) (seq 0 (levelQ + 1)) = Ok (fst (nth (8 * b + l) cols ([], []))) /\
         mapM (fun j => let* p := idx (dec_P d) j in let* vt := idx (vtimesqmodp pr) (length (dec_Q d) + j) in let* tb := idx (qoverqimodp pr) (length (dec_Q d) + j) in multSum k (fst yv) (snd yv) p vt tb) (seq 0 (levelP + 1)) = Ok (snd (nth (8 * b + l) cols ([], [])))).
      { intros l Hl. specialize (Hc (8 * b + l)%nat ltac:(lia)). destruct (recon start k _ _ _) as [[yy vv]|]; [|discriminate]. cbn [bind] in Hc. exists (yy, vv). split; [reflexivity|]. cbn [fst snd].
        destruct (mapM _ (seq 0 (levelQ + 1))) as [cq|]; [|discriminate]. cbn [bind] in Hc. destruct (mapM _ (seq 0 (levelP + 1))) as [cp|]; [|discriminate]. cbn [bind] in Hc. assert (Hcc : nth (8 * b + l) cols ([], []) = (cq, cp)) by congruence. rewrite Hcc. now split. }
      set (g := fun l => match recon start k (column v0 (8 * b + l)) (dec_Q d) (qoverqiinvqi pr) with Ok yv => yv | _ => ([], 0) end).
      assert (Hg : forall l, (l < 8)%nat -> recon start k (column v0 (8 * b + l)) (dec_Q d) (qoverqiinvqi pr) = Ok (fst (g l), snd (g l))).
      { intros l Hl. destruct (HC l Hl) as (yv & E1 & _). unfold g. rewrite E1. now destruct yv. }
      destruct (reconM_ok (8 * n) m start k (8 * b) p0Q (Some p1Q) ys (dec_Q d) (qoverqiinvqi pr) (fun l => column v0 (8 * b + l)) (fun l => fst (g l)) (fun l => snd (g l))) as (m1 & ys1 & v & E1 & Y1 & Y2 & Y3 & Y4 & _ & Hk32); auto.
      { intros i Hi. apply column_col_in; auto. lia. }
      { intros i Hi. destruct (nth_error_lt p1Q (start + i) ltac:(lia)) as [t Et]. exists t. split; [exact Et|]. split; [now apply (sized_nth _ p1Q (start + i))|]. intros i' s Hi' Es. apply H0Q; [now apply nth_error_In in Es|now apply nth_error_In in Et]. }
      rewrite E1. cbn [bind].
      assert (TQ : forall j, (j < levelQ + 1)%nat -> exists pj vt tb, idx (dec_Q d) j = Ok pj /\ idx (vtimesqmodp pr) (0 + j) = Ok vt /\ idx (qoverqimodp pr) (0 + j) = Ok tb /\
        forall l, (l < 8)%nat -> multSum k (firstn k (nth l ys1 [])) (nth l v 0) pj vt tb = Ok (nth j (fst (nth (8 * b + l) cols ([], []))) 0)).
      { intros j Hj. destruct (HC 0%nat ltac:(lia)) as (yv0 & _ & F0 & _). destruct (mapM_seq_inv _ _ _ _ 0 F0) as [_ G0]. specialize (G0 j ltac:(lia)). cbn [plus] in *.
        destruct (idx (dec_Q d) j) as [pj|] eqn:T1; cbn [bind] in G0; [|discriminate]. destruct (idx (vtimesqmodp pr) j) as [vt|] eqn:T2; cbn [bind] in G0; [|discriminate]. destruct (idx (qoverqimodp pr) j) as [tb|] eqn:T3; cbn [bind] in G0; [|discriminate]. clear G0.
        exists pj, vt, tb. do 3 (split; [first [reflexivity|assumption]|]). intros l Hl. destruct (HC l Hl) as (yv & E3 & F & _). destruct (mapM_seq_inv _ _ _ _ 0 F) as [_ G]. specialize (G j ltac:(lia)). cbn [plus] in G.
        destruct (Y3 l Hl) as [-> ->]. unfold g. rewrite E3. rewrite T1, T2, T3 in G. exact G. }
      assert (TP : forall j, (j < levelP + 1)%nat -> exists pj vt tb, idx (dec_P d) j = Ok pj /\ idx (vtimesqmodp pr) (length (dec_Q d) + j) = Ok vt /\ idx (qoverqimodp pr) (length (dec_Q d) + j) = Ok tb /\
        forall l, (l < 8)%nat -> multSum k (firstn k (nth l ys1 [])) (nth l v 0) pj vt tb = Ok (nth j (snd (nth (8 * b + l) cols ([], []))) 0)).
      { intros j Hj. destruct (HC 0%nat ltac:(lia)) as (yv0 & _ & _ & F0). destruct (mapM_seq_inv _ _ _ _ 0 F0) as [_ G0]. specialize (G0 j ltac:(lia)). cbn [plus] in *.
        destruct (idx (dec_P d) j) as [pj|] eqn:T1; cbn [bind] in G0; [|discriminate]. destruct (idx (vtimesqmodp pr) (length (dec_Q d) + j)) as [vt|] eqn:T2; cbn [bind] in G0; [|discriminate]. destruct (idx (qoverqimodp pr) (length (dec_Q d) + j)) as [tb|] eqn:T3; cbn [bind] in G0; [|discriminate]. clear G0.
        exists pj, vt, tb. do 3 (split; [first [reflexivity|assumption]|]). intros l Hl. destruct (HC l Hl) as (yv & E3 & _ & F). destruct (mapM_seq_inv _ _ _ _ 0 F) as [_ G]. specialize (G j ltac:(lia)). cbn [plus] in G.
        destruct (Y3 l Hl) as [-> ->]. unfold g. rewrite E3. rewrite T1, T2, T3 in G. exact G. }
      assert (AQ : forall j, (j < levelQ + 1)%nat -> exists s, nth_error p1Q j = Some s /\ a_len s = (8 * n)%nat).
      { intros j Hj. destruct (nth_error_lt p1Q j ltac:(lia)) as [s Es]. exists s. split; [exact Es|now apply (sized_nth _ p1Q j)]. }
      assert (AP : forall j, (j < levelP + 1)%nat -> exists s, nth_error p1P j = Some s /\ a_len s = (8 * n)%nat).
      { intros j Hj. destruct (nth_error_lt p1P j ltac:(lia)) as [s Es]. exists s. split; [exact Es|now apply (sized_nth _ p1P j)]. }
      destruct (multSumsM_ok (8 * n) (8 * b) p1Q 0 v ys1 k (dec_Q d) pr (fun j l => nth j (fst (nth (8 * b + l) cols ([], []))) 0) Y1 Y2 Hk32 Hx HdQ (seq 0 start) (seq_NoDup _ _)) with (m := m1) as (m2 & E2 & M1 & M2).
      { intros j Hj. apply in_seq in Hj. apply AQ. lia. }
      { intros j Hj. apply in_seq in Hj. apply TQ. lia. }
      rewrite E2. cbn [bind].
      destruct (multSumsM_ok (8 * n) (8 * b) p1Q 0 v ys1 k (dec_Q d) pr (fun j l => nth j (fst (nth (8 * b + l) cols ([], []))) 0) Y1 Y2 Hk32 Hx HdQ (seq start (levelQ + 1 - start)) (seq_NoDup _ _)) with (m := m2) as (m3 & E3 & M3 & M4).
      { intros j Hj. apply in_seq in Hj. apply AQ. lia. }
      { intros j Hj. apply in_seq in Hj. apply TQ. lia. }
      rewrite E3. cbn [bind].
      destruct (multSumsM_ok (8 * n) (8 * b) p1P (length (dec_Q d)) v ys1 k (dec_P d) pr (fun j l => nth j (snd (nth (8 * b + l) cols ([], []))) 0) Y1 Y2 Hk32 Hx HdP (seq 0 (levelP + 1)) (seq_NoDup _ _)) with (m := m3) as (m4 & E4 & M5 & M6).
      { intros j Hj. apply in_seq in Hj. apply AP. lia. }
      { intros j Hj. apply in_seq in Hj. apply TP. lia. }
      rewrite E4. cbn [bind].
      (* what one block changes *)
      assert (FR : forall a, (forall s, In s (pQ ++ pP) -> ~ win s (8 * b) a) -> m4 a = m a).
      { intros a Ha. assert (FQ : forall j s, (j < levelQ + 1)%nat -> nth_error p1Q j = Some s -> ~ win s (8 * b) a).
        { intros j s Hj Es. apply Ha, in_or_app. left. apply (nth_error_In _ j). now apply HpQ. }
        rewrite M6; [rewrite M4; [rewrite M2; [apply Y4|]|]|].
        - intros i t Hi Et. apply (FQ (start + i)%nat); [lia|exact Et].
        - intros j s Hj Es. apply in_seq in Hj. apply (FQ j); [lia|exact Es].
        - intros j s Hj Es. apply in_seq in Hj. apply (FQ j); [lia|exact Es].
        - intros j s Hj Es. apply in_seq in Hj. apply Ha, in_or_app. right. apply (nth_error_In _ j). apply HpP. split; [lia|exact Es]. }
      assert (WQ : forall j s l, nth_error pQ j = Some s -> (l < 8)%nat -> m4 (a_base s + Z.of_nat (8 * b + l)) = nth j (fst (nth (8 * b + l) cols ([], []))) 0).
      { intros j s l Es Hl. apply HpQ in Es as [Hj Es]. pose proof (sized_nth _ _ _ _ SQ Es) as HsN.
        rewrite M6. 2:{ intros j' s' Hj' Es' Hw. pose proof (sized_nth _ _ _ _ SP Es'). assert (Hsp : apart s s') by (apply HQP; [now apply nth_error_In in Es|now apply nth_error_In in Es']). unfold apart, win in *. lia. }
        destruct (Nat.lt_ge_cases j start) as [Hlt|Hge].
        - rewrite M4. 2:{ intros j' s' Hj' Es' Hw. apply in_seq in Hj'. pose proof (sized_nth _ _ _ _ SQ Es'). pose proof (HdQ j j' s s' Es Es' ltac:(lia)) as Hsp. unfold apart, win in *. lia. }
          apply M1; auto. apply in_seq. lia.
        - apply M3; auto. apply in_seq. lia. }
      assert (WP : forall j s l, nth_error pP j = Some s -> (l < 8)%nat -> m4 (a_base s + Z.of_nat (8 * b + l)) = nth j (snd (nth (8 * b + l) cols ([], []))) 0).
      { intros j s l Es Hl. apply HpP in Es as [Hj Es]. apply M5; auto. apply in_seq. lia. }
      assert (OLD : forall j s x (p : list warray), (p = pQ \/ p = pP) -> nth_error p j = Some s -> (x < 8 * b)%nat -> m4 (a_base s + Z.of_nat x) = m (a_base s + Z.of_nat x)).
      { intros j s x p Hp Es Hlt. apply FR. intros s' Hs' Hw. unfold win in Hw.
        assert (HsN : a_len s = (8 * n)%nat /\ In s (p1Q ++ p1P)). { destruct Hp as [-> | ->]; [apply HpQ in Es as [_ Es]|apply HpP in Es as [_ Es]]; (split; [eapply sized_nth; [|exact Es]; assumption|apply nth_error_In in Es; apply in_or_app; auto]). }
        assert (Hs'N : a_len s' = (8 * n)%nat /\ In s' (p1Q ++ p1P)). { apply in_app_or in Hs' as [Hs'|Hs']; apply In_nth_error in Hs' as [j' Es']; [apply HpQ in Es' as [_ Es']|apply HpP in Es' as [_ Es']]; (split; [eapply sized_nth; [|exact Es']; assumption|apply nth_error_In in Es'; apply in_or_app; auto]). }
        destruct HsN as [HsN Hin]. destruct Hs'N as [Hs'N Hin']. apply In_nth_error in Hin as [i Hi]. apply In_nth_error in Hin' as [i' Hi'].
        destruct (Nat.eq_dec i i') as [->|Hne]; [assert (s' = s) by congruence; subst s'; lia|]. pose proof (Hall' i i' s s' Hi Hi' Hne) as Hsp. unfold apart in Hsp. lia. }
      eexists. split; [reflexivity|]. split; [exact Y1|]. split; [|split].
      - intros j s x Es Hx'. destruct (Nat.lt_ge_cases x (8 * b)) as [Hlt|Hge]; [rewrite (OLD j s x pQ) by auto; now apply I2|]. replace x with (8 * b + (x - 8 * b))%nat by lia. apply WQ; [exact Es|lia].
      - intros j s x Es Hx'. destruct (Nat.lt_ge_cases x (8 * b)) as [Hlt|Hge]; [rewrite (OLD j s x pP) by auto; now apply I2'|]. replace x with (8 * b + (x - 8 * b))%nat by lia. apply WP; [exact Es|lia].
      - intros a Ha. rewrite FR; [apply I3; intros s Hs Hin; apply (Ha s Hs); lia|]. intros s Hs Hw. apply (Ha s Hs). unfold win in Hw. lia. }
    { split; [exact shape8_y0|]. split; [intros; lia|]. split; [intros; lia|reflexivity]. }
    destruct HI as (_ & I2 & I2' & I3). rewrite E. cbn [bind]. exists m'. split; [reflexivity|].
    assert (LpQ : length pQ = (levelQ + 1)%nat) by (unfold pQ; rewrite firstn_length; lia). assert (LpP : length pP = (levelP + 1)%nat) by (unfold pP; rewrite firstn_length; lia).
    split; [|split].
    + rewrite <- LpQ. apply limbs_of_holds with (N := (8 * n)%nat); [now rewrite map_length| |].
      * intros j s Es. apply HpQ in Es as [_ Es]. now apply (sized_nth _ p1Q j).
      * intros j s x Es Hx. rewrite (I2 j s x Es Hx). f_equal. symmetry. apply (map_nth fst cols ([], [])).
    + rewrite <- LpP. apply limbs_of_holds with (N := (8 * n)%nat); [now rewrite map_length| |].
      * intros j s Es. apply HpP in Es as [_ Es]. now apply (sized_nth _ p1P j).
      * intros j s x Es Hx. rewrite (I2' j s x Es Hx). f_equal. symmetry. apply (map_nth snd cols ([], [])).
    + intros a Ha. apply I3. intros s Hs Hin. apply (Ha s Hs). unfold within. assert (a_len s = (8 * n)%nat); [|lia]. apply in_app_or in Hs as [Hs|Hs]; apply In_nth_error in Hs as [j Hj]; [apply HpQ in Hj as [_ Hj]; now apply (sized_nth _ p1Q j)|apply HpP in Hj as [_ Hj]; now apply (sized_nth _ p1P j)].
Qed.
