(** ModDown and the extender tables. *)
From Coq Require Import ZArith Znumtheory List Lia Setoid Morphisms Permutation.
From Verif Require Import Go GoProofs Lattigo LattigoProofs Arith Fermat F64 BasisExt BasisExtProofs.
From Verif Require Export Repr.
Import ListNotations.
Local Open Scope Z_scope.

Lemma good_moduli_sym Q P : good_moduli Q P -> good_moduli P Q.
Proof.
  intros []. split; auto.
  apply Permutation_NoDup with (Q ++ P); auto. apply Permutation_app_comm.
Qed.
Lemma NoDup_app_l {A} (l1 l2 : list A) : NoDup (l1 ++ l2) -> NoDup l1.
Proof. induction l1; cbn; intros H; constructor; inversion H; subst; auto. intros Hi; apply H2, in_or_app; auto. Qed.
Lemma NoDup_firstn {A} n (l : list A) : NoDup l -> NoDup (firstn n l).
Proof. intros H. rewrite <- (firstn_skipn n l) in H. now apply NoDup_app_l in H. Qed.
Lemma NoDup_app_disj {A} (l1 l2 : list A) x : NoDup (l1 ++ l2) -> In x l1 -> ~ In x l2.
Proof.
  induction l1 as [|a l1 IH]; cbn; intros H Hi H2; [easy|]. inversion H as [|? ? Ha Hl]; subst.
  destruct Hi as [->|Hi].
  - apply Ha, in_or_app; auto.
  - now apply IH.
Qed.
Lemma NoDup_skipn {A} n (l : list A) : NoDup l -> NoDup (skipn n l).
Proof.
  revert l. induction n; intros [|a l] H; cbn; auto. apply IHn. now inversion H.
Qed.

(** * genModDownParams *)
Lemma genModDown_cell_spec p q prev Pprev :
  mod61 q -> prime q -> 0 <= p < W -> ~ (q | p) ->
  match prev with
  | None => Pprev = 1
  | Some pr => 0 <= pr < q /\ cong q (pr * Pprev) W
  end ->
  0 <= genModDown_cell p q prev < q /\ cong q (genModDown_cell p q prev * (Pprev * p)) W.
Proof.
  intros Hq Hpr Hp Hnd Hprev. pose proof (mod61_ok q Hq) as Hok. pose proof (okmod_W q Hok).
  unfold genModDown_cell.
  assert (Hodd : q <> 2). { destruct Hq as [Ho _]. intros E; rewrite E in Ho; discriminate. }
  assert (E2 : wsub q 2 = q - 2). { unfold wsub. apply wrap_small. destruct Hq; lia. }
  rewrite E2. assert (Hq2 : 0 < q - 2) by (destruct Hq; lia).
  rewrite ModExp_spec by auto.
  set (inv := p ^ (q - 2) mod q).
  assert (Rinv : 0 <= inv < q) by (apply Z.mod_pos_bound; lia).
  assert (Cinv : cong q (inv * p) 1).
  { unfold inv. rewrite cong_mod by lia.
    rewrite Z.mul_comm, <- Z.pow_succ_r by lia. replace (Z.succ (q - 2)) with (q - 1) by lia.
    apply fermat_Z; auto; lia. }
  destruct (MForm_spec inv q Hok ltac:(lia)) as [R1 C1].
  set (m := MForm inv q (BRedParams q)) in *.
  destruct prev as [pr|].
  - destruct Hprev as [Rp Cp].
    destruct (MRed_spec m pr q Hok) as [R2 C2]; try lia; [nia|].
    split; [exact R2|]. apply cong_mul_cancel with W; [now apply okmod_coprime|].
    replace (W * (MRed m pr q (MRedParams q) * (Pprev * p)))
      with ((MRed m pr q (MRedParams q) * W) * (Pprev * p)) by ring.
    rewrite C2, C1.
    replace (inv * W * pr * (Pprev * p)) with ((inv * p) * W * (pr * Pprev)) by ring.
    rewrite Cinv, Cp. apply cong_eq. ring.
  - subst Pprev. split; [exact R1|]. rewrite C1.
    replace (inv * W * (1 * p)) with (inv * p * W) by ring. rewrite Cinv. apply cong_eq; ring.
Qed.

Definition moddown_ok (Q P : list Z) (rows : list (list Z)) : Prop :=
  length rows = length P /\
  forall j i, (j < length P)%nat -> (i < length Q)%nat ->
    length (nth j rows []) = length Q /\
    0 <= nth i (nth j rows []) 0 < nth i Q 0 /\
    cong (nth i Q 0) (nth i (nth j rows []) 0 * prodZ (firstn (S j) P)) W.

Lemma genModDown_rows_spec Q P : forall prev Pprev,
  Forall mod61 Q -> Forall prime Q -> Forall (fun p => 0 <= p < W) P ->
  (forall p q, In p P -> In q Q -> ~ (q | p)) ->
  match prev with
  | None => Pprev = 1
  | Some r => length r = length Q /\ forall i, (i < length Q)%nat ->
       0 <= nth i r 0 < nth i Q 0 /\ cong (nth i Q 0) (nth i r 0 * Pprev) W
  end ->
  length (genModDown_rows Q P prev) = length P /\
  forall j i, (j < length P)%nat -> (i < length Q)%nat ->
    length (nth j (genModDown_rows Q P prev) []) = length Q /\
    0 <= nth i (nth j (genModDown_rows Q P prev) []) 0 < nth i Q 0 /\
    cong (nth i Q 0) (nth i (nth j (genModDown_rows Q P prev) []) 0 * (Pprev * prodZ (firstn (S j) P))) W.
Proof.
  induction P as [|p P IH]; intros prev Pprev HQ HpQ HP Hnd Hprev; cbn [genModDown_rows].
  - split; auto. cbn; intros; lia.
  - set (row := map _ _).
    assert (Hrow : length row = length Q /\ forall i, (i < length Q)%nat ->
       0 <= nth i row 0 < nth i Q 0 /\ cong (nth i Q 0) (nth i row 0 * (Pprev * p)) W).
    { split. { unfold row. rewrite map_length, combine_length, seq_length. lia. }
      intros i Hi. unfold row. rewrite (nth_map_combine _ Q i 0 0) by auto.
      apply genModDown_cell_spec.
      - now apply Forall_nth_Z.
      - now apply Forall_nth_Z.
      - now inversion HP.
      - apply Hnd; [left; auto|now apply nth_In].
      - destruct prev as [r|]; auto. apply Hprev; auto. }
    destruct (IH (Some row) (Pprev * p)) as [Hl Hc]; auto.
    + now inversion HP.
    + intros; apply Hnd; auto. now right.
    + split; [cbn; now rewrite Hl|].
      intros [|j] i Hj Hi; cbn [nth].
      * destruct Hrow as [H1 H2]. split; auto. destruct (H2 i Hi) as [R C]. split; auto.
        cbn [firstn prodZ]. rewrite Z.mul_1_r. exact C.
      * cbn in Hj. destruct (Hc j i ltac:(lia) Hi) as (H1 & H2 & H3). repeat split; try apply H2; auto.
        change (firstn (S (S j)) (p :: P)) with (p :: firstn (S j) P). cbn [prodZ].
        rewrite (Z.mul_assoc Pprev p). exact H3.
Qed.

Lemma prime_ne_ndiv p q : prime p -> prime q -> p <> q -> ~ (q | p).
Proof. intros Hp Hq Hn Hd. apply Hn. symmetry. now apply prime_div_prime. Qed.

Lemma good_ndiv Q P p q : good_moduli Q P -> In p P -> In q Q -> ~ (q | p).
Proof.
  intros [G1 G2 G3 G4 G5] Hp Hq. apply prime_ne_ndiv.
  - rewrite Forall_forall in G4; auto.
  - rewrite Forall_forall in G3; auto.
  - intros ->. eapply NoDup_app_disj; eauto.
Qed.

Theorem genModDownParams_ok Q P : good_moduli Q P -> moddown_ok Q P (genModDownParams Q P).
Proof.
  intros G. destruct (genModDown_rows_spec Q P None 1) as [H1 H2]; try apply G; auto.
  - eapply Forall_impl; [|apply (gm_P _ _ G)]. intros q Hq. pose proof (mod61_W q Hq). destruct Hq; lia.
  - intros; now apply (good_ndiv Q P).
  - split; auto. intros j i Hj Hi. specialize (H2 j i Hj Hi). now rewrite Z.mul_1_l in H2.
Qed.

(** * the extender *)
Record ext_ok (Q P : list Z) (b : extender) : Prop := {
  eo_Q : ext_Q b = Q; eo_P : ext_P b = P;
  eo_QtoP_len : length (paramsQtoP b) = length Q;
  eo_PtoQ_len : length (paramsPtoQ b) = length P;
  eo_QtoP : forall i pr, nth_error (paramsQtoP b) i = Some pr -> tables_ok (firstn (i + 1) Q) P pr;
  eo_PtoQ : forall i pr, nth_error (paramsPtoQ b) i = Some pr -> tables_ok (firstn (i + 1) P) Q pr;
  eo_mdPtoQ : moddown_ok Q P (modDownPtoQ b);
  eo_mdQtoP : moddown_ok P Q (modDownQtoP b) }.

Lemma nth_error_map_seq {B} (f : nat -> B) n i b : nth_error (map f (seq 0 n)) i = Some b -> (i < n)%nat /\ b = f i.
Proof.
  intros H. assert (Hi : (i < n)%nat).
  { assert (nth_error (map f (seq 0 n)) i <> None) by congruence.
    apply nth_error_Some in H0. now rewrite map_length, seq_length in H0. }
  split; auto. apply nth_error_nth with (d := f 0%nat) in H. rewrite nth_map_seq in H; auto.
Qed.

Theorem NewFastBasisExtender_ok Q P : good_moduli Q P -> ext_ok Q P (NewFastBasisExtender Q P).
Proof.
  intros G. pose proof (good_moduli_sym _ _ G) as G'. unfold NewFastBasisExtender.
  split; cbn [ext_Q ext_P paramsQtoP paramsPtoQ modDownPtoQ modDownQtoP]; auto.
  - now rewrite map_length, seq_length.
  - now rewrite map_length, seq_length.
  - intros i pr H. apply nth_error_map_seq in H as [Hi ->].
    apply basisextenderparameters_ok; try apply Forall_firstn; try apply G.
    apply NoDup_firstn. eapply NoDup_app_l. apply G.
  - intros i pr H. apply nth_error_map_seq in H as [Hi ->].
    apply basisextenderparameters_ok; try apply Forall_firstn; try apply G'.
    apply NoDup_firstn. eapply NoDup_app_l. apply G'.
  - now apply genModDownParams_ok.
  - now apply genModDownParams_ok.
Qed.

Lemma idx_inv {A} (l : list A) i : (i < length l)%nat -> exists a, idx l i = Ok a /\ nth_error l i = Some a.
Proof.
  intros H. unfold idx. destruct (nth_error l i) eqn:E; eauto. apply nth_error_None in E. lia.
Qed.
Lemma slice_ok {A} n (l : list A) : (n <= length l)%nat -> slice n l = Ok (firstn n l).
Proof. intros H. unfold slice. destruct (Nat.leb_spec n (length l)); auto; lia. Qed.

(** ModUp, both directions (statement for a generic source basis) *)
Definition up_result (src dst : list Z) (k n2 N : nat) (p1 p2 : list (list Z)) (Y : list Z) : Prop :=
  length p2 = n2 /\ length Y = N /\
  (forall x, (x < N)%nat -> near_range (nth x Y 0) (prodZ (firstn k src))) /\
  (forall i x, (i < k)%nat -> (x < N)%nat -> cong (nth i src 0) (nth x Y 0) (nth x (nth i p1 []) 0)) /\
  (forall j, (j < n2)%nat -> limb_of (nth j dst 0) (6 * nth j dst 0) (nth j p2 []) Y /\
       (forall c m x, (x < N)%nat -> 0 <= c <= 4 -> Forall (fun q => q <= m) (firstn k src) -> Z.of_nat k * m <= c * W ->
           nth x (nth j p2 []) 0 < (c + 2) * nth j dst 0)).

Lemma nth_firstn {A} (l : list A) n i d : (i < n)%nat -> nth i (firstn n l) d = nth i l d.
Proof.
  revert n i. induction l as [|a l IH]; intros [|n] [|i] H; cbn; auto; try lia. apply IH. lia.
Qed.

Theorem ModUpQtoP_ok Q P b levelQ levelP N polQ :
  good_moduli Q P -> ext_ok Q P b -> (levelQ < length Q)%nat -> (levelQ < 32)%nat -> (levelP < length P)%nat ->
  (levelQ < length polQ)%nat -> Forall words polQ -> Forall (fun l => length l = N) polQ ->
  exists p2 Y, ModUpQtoP b levelQ levelP polQ = Ok p2 /\ up_result Q P (levelQ + 1) (levelP + 1) N polQ p2 Y.
Proof.
  intros G E HQ H32 HP Hl Hw HN. unfold ModUpQtoP.
  rewrite slice_ok by lia. cbn [bind].
  destruct (idx_inv (paramsQtoP b) levelQ) as (pr & Ei & En); [rewrite (eo_QtoP_len _ _ _ E); lia|].
  rewrite Ei. cbn [bind]. rewrite (eo_Q _ _ _ E), (eo_P _ _ _ E).
  pose proof (eo_QtoP _ _ _ E _ _ En) as HT.
  assert (Hk : length (firstn (levelQ + 1) polQ) = (levelQ + 1)%nat) by (rewrite firstn_length; lia).
  destruct (modUpExact_spec (firstn (levelQ+1) polQ) (levelP + 1) Q P pr N) as (p2 & Y & E2 & H1 & H2 & H3 & H4 & H5);
    rewrite ?Hk; auto; try lia; try apply G; try (now apply Forall_firstn).
  exists p2, Y. split; [exact E2|]. rewrite Hk in *. split; [exact H1|]. split; [exact H2|]. split; [exact H3|].
  split; [|exact H5]. intros i x Hi Hx. rewrite (H4 i x Hi Hx). rewrite nth_firstn by auto. reflexivity.
Qed.

Theorem ModUpPtoQ_ok Q P b levelP levelQ N polP :
  good_moduli Q P -> ext_ok Q P b -> (levelQ < length Q)%nat -> (levelP < 32)%nat -> (levelP < length P)%nat ->
  (levelP < length polP)%nat -> Forall words polP -> Forall (fun l => length l = N) polP ->
  exists p2 Y, ModUpPtoQ b levelP levelQ polP = Ok p2 /\ up_result P Q (levelP + 1) (levelQ + 1) N polP p2 Y.
Proof.
  intros G E HQ H32 HP Hl Hw HN. unfold ModUpPtoQ.
  rewrite slice_ok by lia. cbn [bind].
  destruct (idx_inv (paramsPtoQ b) levelP) as (pr & Ei & En); [rewrite (eo_PtoQ_len _ _ _ E); lia|].
  rewrite Ei. cbn [bind]. rewrite (eo_Q _ _ _ E), (eo_P _ _ _ E).
  pose proof (eo_PtoQ _ _ _ E _ _ En) as HT.
  assert (Hk : length (firstn (levelP + 1) polP) = (levelP + 1)%nat) by (rewrite firstn_length; lia).
  destruct (modUpExact_spec (firstn (levelP+1) polP) (levelQ + 1) P Q pr N) as (p2 & Y & E2 & H1 & H2 & H3 & H4 & H5);
    rewrite ?Hk; auto; try lia; try apply G; try (now apply Forall_firstn).
  exists p2, Y. split; [exact E2|]. rewrite Hk in *. split; [exact H1|]. split; [exact H2|]. split; [exact H3|].
  split; [|exact H5]. intros i x Hi Hx. rewrite (H4 i x Hi Hx). rewrite nth_firstn by auto. reflexivity.
Qed.

(** * ModDown *)
Lemma moddown_word_spec x y q inv Pp :
  mod61 q -> 0 <= x < 2 * q -> 0 <= y < 6 * q -> 0 <= inv < q -> cong q (inv * Pp) W ->
  0 <= moddown_word x y q inv < q /\ cong q (Pp * moddown_word x y q inv) (x - y).
Proof.
  intros Hq Hx Hy Hinv Cinv. pose proof (mod61_W q Hq) as HW. pose proof (mod61_ok q Hq) as Hok.
  unfold moddown_word.
  assert (E1 : wsub (wadd y (wmul q 2)) x = y + 2 * q - x).
  { unfold wsub, wadd, wmul. apply wrap_uniq; [|lia]. rewrite !wrap_cong. apply cong_eq. ring. }
  assert (E2 : wsub q inv = q - inv) by (unfold wsub; apply wrap_small; lia).
  rewrite E1, E2.
  destruct (MRed_spec (y + 2*q - x) (q - inv) q Hok) as [R C]; try lia; [nia|].
  set (z := MRed _ _ _ _) in *. split; [exact R|].
  apply cong_mul_cancel with W; [now apply okmod_coprime|].
  replace (W * (Pp * z)) with (Pp * (z * W)) by ring. rewrite C.
  transitivity ((inv * Pp) * (x - y)).
  - exists (Pp * (y + 2*q - x) - 2 * (Pp * inv)). ring.
  - rewrite Cinv. reflexivity.
Qed.

(** [out] is (x - R)/Pp modulo every modulus *)
Definition down_result (mods : list Z) (lvl : nat) (Pp : Z) (p1 out : list (list Z)) (R : list Z) : Prop :=
  length out = (lvl + 1)%nat /\
  forall j, (j <= lvl)%nat -> length (nth j out []) = length R /\
    forall x, (x < length R)%nat ->
      0 <= nth x (nth j out []) 0 < nth j mods 0 /\
      cong (nth j mods 0) (Pp * nth x (nth j out []) 0) (nth x (nth j p1 []) 0 - nth x R 0).

(** limbs with lazily reduced words *)
Definition lazy_poly (mods : list Z) (n N : nat) (p : list (list Z)) : Prop :=
  (n <= length p)%nat /\
  forall j, (j < n)%nat -> length (nth j p []) = N /\
    forall x, (x < N)%nat -> 0 <= nth x (nth j p []) 0 < 2 * nth j mods 0.

Lemma nth_combine_map (f : Z * Z -> Z) l1 l2 x : length l1 = length l2 -> (x < length l2)%nat ->
  nth x (map f (combine l1 l2)) 0 = f (nth x l1 0, nth x l2 0).
Proof.
  intros Hl Hx. rewrite (nth_indep _ 0 (f (0,0))) by (rewrite map_length, combine_length; lia).
  rewrite map_nth, combine_nth by auto. reflexivity.
Qed.

Lemma moddown_limbs_spec lvl mods row p1 up Y N Pp :
  Forall mod61 mods -> (lvl < length mods)%nat -> (lvl < length row)%nat -> length Y = N ->
  lazy_poly mods (lvl + 1) N p1 -> length up = (lvl + 1)%nat ->
  (forall j, (j <= lvl)%nat -> limb_of (nth j mods 0) (6 * nth j mods 0) (nth j up []) Y) ->
  (forall j, (j <= lvl)%nat -> 0 <= nth j row 0 < nth j mods 0 /\ cong (nth j mods 0) (nth j row 0 * Pp) W) ->
  exists out, moddown_limbs lvl mods row p1 up = Ok out /\ down_result mods lvl Pp p1 out Y.
Proof.
  intros Hm Hlm Hlr HlY [Hlp Hp1] Hlu Hup Hrow.
  destruct (mapM_seq_spec (fun i =>
      bind (idx mods i) (fun q => bind (idx row i) (fun inv => bind (idx p1 i) (fun xs => bind (idx up i) (fun ys =>
      Ok (map (fun '(x, y) => moddown_word x y q inv) (combine xs ys)))))))
     (fun j l => length l = N /\ forall x, (x < N)%nat -> 0 <= nth x l 0 < nth j mods 0 /\
        cong (nth j mods 0) (Pp * nth x l 0) (nth x (nth j p1 []) 0 - nth x Y 0)) (lvl + 1) 0)
    as (out & E & Hlo & Hout).
  - intros j Hj. rewrite (idx_nth mods j 0), (idx_nth row j 0), (idx_nth p1 j []), (idx_nth up j []) by lia.
    cbn [bind]. eexists. split; [reflexivity|].
    destruct (limb_of_nth _ _ _ _ (Hup j ltac:(lia))) as [Hl Hx].
    destruct (Hp1 j ltac:(lia)) as [Hl1 Hx1].
    split. { rewrite map_length, combine_length. lia. }
    intros x Hxn. rewrite nth_combine_map by lia.
    destruct (Hx x ltac:(lia)) as [Ry Cy]. destruct (Hrow j ltac:(lia)) as [Ri Ci].
    assert (Hq : mod61 (nth j mods 0)) by (apply Forall_nth_Z; auto; lia).
    destruct (moddown_word_spec (nth x (nth j p1 []) 0) (nth x (nth j up []) 0) (nth j mods 0) (nth j row 0) Pp) as [Rz Cz]; auto.
    split; [exact Rz|]. rewrite Cz, Cy. reflexivity.
  - exists out. split; [exact E|]. split; [exact Hlo|].
    intros j Hj. rewrite HlY. apply (Hout [] j). lia.
Qed.

Theorem ModDownQPtoQ_ok Q P b levelQ levelP N p1Q p1P :
  good_moduli Q P -> ext_ok Q P b -> (levelQ < length Q)%nat -> (levelP < 32)%nat -> (levelP < length P)%nat ->
  lazy_poly Q (levelQ + 1) N p1Q ->
  (levelP < length p1P)%nat -> Forall words p1P -> Forall (fun l => length l = N) p1P ->
  exists out R, ModDownQPtoQ b levelQ levelP p1Q p1P = Ok out /\
    length R = N /\
    (forall x, (x < N)%nat -> near_range (nth x R 0) (prodZ (firstn (levelP + 1) P))) /\
    (forall i x, (i <= levelP)%nat -> (x < N)%nat -> cong (nth i P 0) (nth x R 0) (nth x (nth i p1P []) 0)) /\
    down_result Q levelQ (prodZ (firstn (levelP + 1) P)) p1Q out R.
Proof.
  intros G E HQ H32 HP Hz Hl Hw HN. unfold ModDownQPtoQ.
  destruct (ModUpPtoQ_ok Q P b levelP levelQ N p1P) as (up & Y & Eu & H1 & H2 & H3 & H4 & H5); auto.
  rewrite Eu. cbn [bind].
  destruct (eo_mdPtoQ _ _ _ E) as [Hmd1 Hmd2].
  rewrite (idx_nth _ levelP []) by lia. cbn [bind]. rewrite (eo_Q _ _ _ E).
  destruct (moddown_limbs_spec levelQ Q (nth levelP (modDownPtoQ b) []) p1Q up Y N (prodZ (firstn (levelP+1) P))) as (out & Eo & Ho); auto.
  - apply G.
  - destruct (Hmd2 levelP 0%nat HP ltac:(lia)) as [-> _]. lia.
  - intros j Hj. apply H5. lia.
  - intros j Hj. destruct (Hmd2 levelP j HP ltac:(lia)) as (_ & R & C). split; auto.
    now rewrite Nat.add_1_r.
  - exists out, Y. split; [exact Eo|]. split; [exact H2|]. split; [exact H3|]. split; [|exact Ho].
    intros i x Hi Hx. apply H4; lia.
Qed.

(** ModDownQPtoP is correct when levelQ = levelP *)
Theorem ModDownQPtoP_ok Q P b lvl N p1Q p1P :
  good_moduli Q P -> ext_ok Q P b -> (lvl < length Q)%nat -> (lvl < 32)%nat -> (lvl < length P)%nat ->
  lazy_poly P (lvl + 1) N p1P ->
  (lvl < length p1Q)%nat -> Forall words p1Q -> Forall (fun l => length l = N) p1Q ->
  exists out R, ModDownQPtoP b lvl lvl p1Q p1P = Ok out /\
    length R = N /\
    (forall x, (x < N)%nat -> near_range (nth x R 0) (prodZ (firstn (lvl + 1) Q))) /\
    (forall i x, (i <= lvl)%nat -> (x < N)%nat -> cong (nth i Q 0) (nth x R 0) (nth x (nth i p1Q []) 0)) /\
    down_result P lvl (prodZ (firstn (lvl + 1) Q)) p1P out R.
Proof.
  intros G E HQ H32 HP Hz Hl Hw HN. unfold ModDownQPtoP.
  destruct (ModUpQtoP_ok Q P b lvl lvl N p1Q) as (up & Y & Eu & H1 & H2 & H3 & H4 & H5); auto.
  rewrite Eu. cbn [bind].
  destruct (eo_mdQtoP _ _ _ E) as [Hmd1 Hmd2].
  rewrite (idx_nth _ lvl []) by lia. cbn [bind]. rewrite (eo_P _ _ _ E).
  destruct (moddown_limbs_spec lvl P (nth lvl (modDownQtoP b) []) p1P up Y N (prodZ (firstn (lvl+1) Q))) as (out & Eo & Ho); auto.
  - apply G.
  - destruct (Hmd2 lvl 0%nat HQ ltac:(lia)) as [-> _]. lia.
  - intros j Hj. apply H5. lia.
  - intros j Hj. destruct (Hmd2 lvl j HQ ltac:(lia)) as (_ & R & C). split; auto.
    now rewrite Nat.add_1_r.
  - exists out, Y. split; [exact Eo|]. split; [exact H2|]. split; [exact H3|]. split; [|exact Ho].
    intros i x Hi Hx. apply H4; lia.
Qed.
