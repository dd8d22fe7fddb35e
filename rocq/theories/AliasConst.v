(** MultByConst written into its own operand. *)
From Coq Require Import String ZArith Znumtheory List Lia Bool Permutation.
From Verif Require Import Spec SpecProofs Go GoProofs Lattigo LattigoProofs Arith NTT NTTProofs F64 BasisExt BasisExtProofs ModDownProofs DecomposeProofs RingOps RingOpsProofs Maps MapsProofs Params Elements KeySwitch KeySets KeyGen EncDec Utils Evaluator Repr KSProofs KSMulProofs SpecCt KSSem SpecEnc EncProofs SpecEv EvProofs ConstProofs ConcProofs Alias AliasProofs.
Import ListNotations.
Local Open Scope Z_scope.
Local Open Scope list_scope.

Section W.
(** words a..a+n-1 of z replaced *)
Definition span (q c : Z) (a n : nat) (x z : list Z) : list Z :=
  map (fun j => if (a <=? j)%nat && (j <? a + n)%nat then MRed (nth j x 0) c q (MRedParams q) else nth j z 0) (seq 0 (List.length z)).
Lemma span_length q c a n x z : List.length (span q c a n x z) = List.length z.
Proof. unfold span. now rewrite map_length, seq_length. Qed.
Lemma span_nth q c a n x z j : (j < List.length z)%nat -> nth j (span q c a n x z) 0 = if (a <=? j)%nat && (j <? a + n)%nat then MRed (nth j x 0) c q (MRedParams q) else nth j z 0.
Proof. intros H. unfold span. now rewrite (nth_map_seq _ _ j) by auto. Qed.
Lemma mulWords_ok q c x z a n : (a + n <= List.length z)%nat -> (a + n <= List.length (rd x z))%nat -> mulWords q c (seq a n) x z = Ok (span q c a n (rd x z) z).
Proof.
  unfold mulWords. induction n as [|n IH]; intros H1 H2.
  - cbn. f_equal. apply (nth_ext _ _ 0 0); [now rewrite span_length|]. intros j Hj. rewrite span_nth by auto. destruct (Nat.leb_spec a j), (Nat.ltb_spec j (a + 0)); cbn [andb]; auto; lia.
  - rewrite seq_S, foldM_app, IH by lia. cbn [bind foldM]. set (z1 := span q c a n (rd x z) z). assert (L1 : List.length z1 = List.length z) by apply span_length.
    assert (E : idx (rd x z1) (a + n) = Ok (nth (a + n) (rd x z) 0)).
    { destruct x as [x|]; cbn [rd] in *; [apply idx_nth; lia|]. rewrite (idx_nth z1 _ 0) by lia. unfold z1. rewrite span_nth by lia. destruct (Nat.leb_spec a (a + n)), (Nat.ltb_spec (a + n) (a + n)); cbn [andb]; auto; lia. }
    rewrite E. cbn [bind]. unfold putWord. destruct (Nat.ltb_spec (a + n) (List.length z1)); [|lia]. cbn [bind]. f_equal.
    apply (nth_ext _ _ 0 0); [rewrite upd_length by lia; now rewrite span_length|]. intros j Hj. rewrite upd_length in Hj by lia. rewrite upd_nth by lia. rewrite span_nth by lia. unfold z1. rewrite span_nth by lia.
    destruct (Nat.eqb_spec j (a + n)), (Nat.leb_spec a j), (Nat.ltb_spec j (a + n)), (Nat.ltb_spec j (a + S n)); cbn [andb]; subst; auto; lia.
Qed.
End W.

Lemma setLimb_nth p i l j : (i < plen p)%nat -> nth j (p_co (setLimb p i l)) [] = if (j =? i)%nat then l else nth j (p_co p) [].
Proof.
  intros H. unfold setLimb, plen in *. cbn [p_co]. assert (L : List.length (firstn i (p_co p)) = i) by (rewrite firstn_length; lia). destruct (Nat.eqb_spec j i) as [->|Hn].
  - rewrite app_nth2 by lia. now rewrite L, Nat.sub_diag.
  - destruct (Nat.lt_ge_cases j i). + rewrite app_nth1 by lia. now rewrite nth_firstn_lt by lia.
    + rewrite app_nth2 by lia. rewrite L. replace (j - i)%nat with (S (j - i - 1)) by lia. cbn [nth]. rewrite nth_skipnl. f_equal. lia.
Qed.
Lemma setLimb_len p i l : (i < plen p)%nat -> plen (setLimb p i l) = plen p.
Proof. intros H. unfold setLimb, plen in *. cbn [p_co]. rewrite app_length, firstn_length. cbn [List.length]. rewrite skipn_length. lia. Qed.

Section C.
Context (ce : ckenv).
Notation pp := (e_pp (ce_env ce)).
Context (He : env_ok (ce_env ce)).
Notation N := (pa_N pp).
Notation rQ := (ringQ pp).
Notation qq j := (nth j (pa_Q pp) 0).
Let Hpp : params_ok pp := eo_pp _ He.
Let HrQ : ring_ok rQ := po_rQ _ Hpp.

Lemma N_even : (N / 2 + N / 2 = N)%nat.
Proof.
  pose proof (ro_log _ HrQ) as [H _]. cbn [r_logN ringQ] in H. unfold pa_N, deg. destruct (pa_logN pp) as [|k]; [lia|]. rewrite Nat.pow_succ_r'. rewrite (Nat.mul_comm 2), Nat.div_mul by lia. lia.
Qed.
Lemma halves_span q lo hi x z : List.length z = N -> List.length (rd x z) = N ->
  span q hi (N / 2) (N / 2) (rd x (span q lo 0 (N / 2) (rd x z) z)) (span q lo 0 (N / 2) (rd x z) z) = mulHalves ce q lo hi (rd x z).
Proof.
  intros Hz Hx. pose proof N_even as HE. set (h := (N / 2)%nat) in *. unfold mulHalves. fold h. apply (nth_ext _ _ 0 0).
  - rewrite !span_length, app_length, !map_length, firstn_length, skipn_length. lia.
  - intros j Hj. rewrite !span_length in Hj. rewrite span_nth by (rewrite span_length; lia). rewrite span_nth by lia.
    assert (LF : List.length (firstn h (rd x z)) = h) by (rewrite firstn_length; lia).
    destruct (Nat.lt_ge_cases j h).
    + destruct (Nat.leb_spec h j), (Nat.leb_spec 0 j), (Nat.ltb_spec j (0 + h)); try lia. cbn [andb]. rewrite app_nth1 by (rewrite map_length; lia). rewrite nth_map0 by lia. rewrite nth_firstn_lt by lia. reflexivity.
    + destruct (Nat.leb_spec h j), (Nat.ltb_spec j (h + h)); try lia. cbn [andb]. rewrite app_nth2; rewrite map_length, LF; [|lia]. rewrite nth_map0 by (rewrite skipn_length; lia). rewrite nth_skipnl. replace (h + (j - h))%nat with j by lia.
      f_equal. destruct x as [x|]; cbn [rd]; auto. rewrite span_nth by lia. destruct (Nat.ltb_spec j (0 + h)); [lia|]. now rewrite andb_false_r.
Qed.

(** one half of limb i in every component *)
Lemma mulHalf_ok ids q c i a n src out : NoDup (mkeys out) -> NoDup ids ->
  (forall id, In id ids -> exists p x, sget out id = Some p /\ (i < plen p)%nat /\ (a + n <= List.length (nth i (p_co p) []))%nat /\
      match src with None => x = nth i (p_co p) [] | Some ct0 => exists b, sget ct0 id = Some b /\ (i < plen b)%nat /\ x = nth i (p_co b) [] end /\ (a + n <= List.length x)%nat) ->
  mulHalf ids q c i (seq a n) src out = Ok (upd_all ids (fun id => match sget out id with None => newPoly 0 0 | Some p =>
      setLimb p i (span q c a n (match src with None => nth i (p_co p) [] | Some ct0 => match sget ct0 id with Some b => nth i (p_co b) [] | None => [] end end) (nth i (p_co p) [])) end) out).
Proof.
  intros Hnd HI H. unfold mulHalf. apply fold_upd0; auto.
  - intros ct id Hid _ E. destruct (H id Hid) as (p & x & Ep & Hi & L1 & Hs & L2). rewrite Ep in *.
    destruct src as [ct0|]; cbn [rd].
    + destruct Hs as (b & Eb & Lb & ->). unfold mptr at 1. rewrite Eb. cbn [bind]. rewrite (idx_nth (p_co b) i []) by exact Lb. cbn [bind]. unfold putLimb. eapply ctUpd_ok; [exact E|].
      rewrite (idx_nth (p_co p) i []) by exact Hi. cbn [bind]. rewrite mulWords_ok by (cbn [rd]; auto). reflexivity.
    + subst x. cbn [bind]. unfold putLimb. eapply ctUpd_ok; [exact E|].
      rewrite (idx_nth (p_co p) i []) by exact Hi. cbn [bind]. rewrite mulWords_ok by (cbn [rd]; auto). reflexivity.
  - intros id Hid. destruct (H id Hid) as (p & _ & Ep & _). eapply mget_key; eauto. exact seqb.
Qed.

(** limb j, the component after the limbs below i, limb i after its lower half *)
Definition gl (lo hi : nat -> Z) (j : nat) (a : poly) : list Z := mulHalves ce (qq j) (lo j) (hi j) (nth j (p_co a) []).
Definition cul (lo hi : nat -> Z) (i : nat) (a p : poly) : poly := mkPoly (p_ntt p) (map (fun j => mulHalves ce (qq j) (lo j) (hi j) (nth j (p_co a) [])) (seq 0 i) ++ skipn i (p_co p)).
Definition spl (lo : nat -> Z) (i : nat) (a p : poly) : list Z := span (qq i) (lo i) 0 (N / 2) (nth i (p_co a) []) (nth i (p_co p) []).
Lemma cul_len lo hi i a p : (i <= plen p)%nat -> plen (cul lo hi i a p) = plen p.
Proof. intros Hi. unfold cul, plen in *. cbn [p_co]. rewrite app_length, map_length, seq_length, skipn_length. lia. Qed.
Lemma cul_nth lo hi i a p j : nth j (p_co (cul lo hi i a p)) [] = if (j <? i)%nat then gl lo hi j a else nth j (p_co p) [].
Proof.
  unfold cul, gl. cbn [p_co]. destruct (Nat.ltb_spec j i).
  - rewrite app_nth1 by (rewrite map_length, seq_length; lia). now rewrite (nth_map_seq _ _ j) by lia.
  - rewrite app_nth2; rewrite map_length, seq_length; [|lia]. rewrite nth_skipnl. f_equal. lia.
Qed.
Lemma poly_ext (u v : poly) : p_ntt u = p_ntt v -> plen u = plen v -> (forall j, nth j (p_co u) [] = nth j (p_co v) []) -> u = v.
Proof. destruct u as [n1 c1], v as [n2 c2]. unfold plen. cbn. intros -> E1 E2. f_equal. apply (nth_ext _ _ [] []); auto. Qed.
Lemma cul_step lo hi i a p w : (i < plen p)%nat -> setLimb (setLimb (cul lo hi i a p) i w) i (gl lo hi i a) = cul lo hi (S i) a p.
Proof.
  intros Hi. assert (L1 : plen (cul lo hi i a p) = plen p) by (apply cul_len; lia). assert (L2 : plen (setLimb (cul lo hi i a p) i w) = plen p) by (rewrite setLimb_len; lia).
  apply poly_ext; [reflexivity|rewrite setLimb_len, cul_len by lia; exact L2|]. intros j. rewrite !setLimb_nth by lia. rewrite !cul_nth.
  destruct (Nat.eqb_spec j i) as [->|]; [destruct (Nat.ltb_spec i (S i)); [reflexivity|lia]|]. destruct (Nat.ltb_spec j i), (Nat.ltb_spec j (S i)); auto; lia.
Qed.
(** the ciphertext after the limbs below i *)
Definition upto (lo hi : nat -> Z) (c0 out : ciphertext) (i : nat) : ciphertext :=
  upd_all (mkeys c0) (fun id => match sget c0 id, sget out id with
    | Some a, Some p => mkPoly (p_ntt p) (map (fun j => mulHalves ce (qq j) (lo j) (hi j) (nth j (p_co a) [])) (seq 0 i) ++ skipn i (p_co p))
    | _, _ => newPoly 0 0 end) out.

Lemma upto_step lo hi src out i l0 l1 o1 o2 keys : let c0 := rd src out in
  ct_ok pp l0 c0 -> ct_ok pp l1 out -> (forall id, In id (mkeys out) <-> In id (mkeys c0)) -> keys = mkeys c0 -> (i <= l0)%nat -> (i <= l1)%nat ->
  Permutation (o1 : list string) keys -> Permutation o2 keys ->
  bind (mulHalf o1 (qq i) (lo i) i (seq 0 (N / 2)) src (upto lo hi c0 out i)) (fun out => mulHalf o2 (qq i) (hi i) i (seq (N / 2) (N / 2)) src out) = Ok (upto lo hi c0 out (S i)).
Proof.
  intros c0 H0 H1 HK -> L0 L1 P1 P2. pose proof N_even as HE. 
  assert (Hget : forall id, In id (mkeys c0) -> exists a p, sget c0 id = Some a /\ sget out id = Some p).
  { intros id Hi. destruct (mget_ex _ seqb c0 id Hi) as (a & Ea). destruct (mget_ex _ seqb out id) as (p & Ep); [apply HK; exact Hi|]. eauto. }
  assert (G : forall id, In id (mkeys c0) -> exists a p, sget c0 id = Some a /\ sget out id = Some p /\ plen a = (l0 + 1)%nat /\ plen p = (l1 + 1)%nat /\ List.length (nth i (p_co a) []) = N /\ List.length (nth i (p_co p) []) = N).
  { intros id Hi. destruct (Hget id Hi) as (a & p & Ea & Ep). exists a, p. destruct (ck_comp _ _ _ H0 id a Ea) as (_ & X1 & X2), (ck_comp _ _ _ H1 id p Ep) as (_ & Y1 & Y2). repeat split; auto; [apply X2|apply Y2]; lia. }
  pose (g := gl lo hi). pose (cu := cul lo hi). pose (sp := spl lo i).
  assert (Hcu : forall id a p i, sget c0 id = Some a -> sget out id = Some p -> sget (upto lo hi c0 out i) id = Some (cu i a p)).
  { intros id a p i' Ea Ep. unfold upto. rewrite upd_all_get, Ep. rewrite (proj2 (inb_In id (mkeys c0))) by (eapply mget_key; eauto; exact seqb). now rewrite Ea. }
  assert (Lcu : forall a p i, (i <= plen p)%nat -> plen (cu i a p) = plen p) by (intros; now apply cul_len).
  assert (Ncu : forall a p i j, nth j (p_co (cu i a p)) [] = if (j <? i)%nat then g j a else nth j (p_co p) []) by (intros; apply cul_nth).
  assert (Nm1 : NoDup o1) by (eapply Permutation_NoDup; [apply Permutation_sym, P1|apply H0]). assert (Nm2 : NoDup o2) by (eapply Permutation_NoDup; [apply Permutation_sym, P2|apply H0]).
  assert (Nu : NoDup (mkeys (upto lo hi c0 out i))) by (unfold upto; rewrite upd_all_keys; apply H1).
  assert (In1 : forall id, In id o1 -> In id (mkeys c0)) by (intros id; apply Permutation_in, P1). assert (In2 : forall id, In id o2 -> In id (mkeys c0)) by (intros id; apply Permutation_in, P2).
  assert (Hu0 : forall a p, nth i (p_co (cu i a p)) [] = nth i (p_co p) []) by (intros a p; rewrite Ncu, Nat.ltb_irrefl; reflexivity).
  rewrite mulHalf_ok; auto.
  2:{ intros id Hid. destruct (G id (In1 id Hid)) as (a & p & Ea & Ep & La & Lp & Wa & Wp). exists (cu i a p). rewrite Hu0.
      exists (match src with None => nth i (p_co p) [] | Some _ => nth i (p_co a) [] end). split; [auto|]. rewrite Lcu by lia. split; [lia|]. split; [lia|]. split; [|destruct src; lia].
      destruct src as [ct0|]; [|reflexivity]. exists a. split; [exact Ea|]. split; [lia|reflexivity]. }
  cbn [bind]. set (M := upd_all o1 _ _). 
  assert (HM : forall id a p, sget c0 id = Some a -> sget out id = Some p -> sget M id = Some (setLimb (cu i a p) i (sp a p))).
  { intros id a p Ea Ep. unfold M. rewrite upd_all_get, (Hcu id a p i Ea Ep). rewrite (proj2 (inb_In id o1)).
    - do 2 f_equal. unfold sp, spl. rewrite Hu0. destruct src as [ct0|]; cbn [rd] in c0; subst c0; [now rewrite Ea|]. rewrite Ea in Ep. injection Ep as <-. reflexivity.
    - eapply Permutation_in; [apply Permutation_sym, P1|]. eapply mget_key; eauto. exact seqb. }
  assert (KM : mkeys M = mkeys out) by (unfold M, upto; now rewrite !upd_all_keys).
  assert (NM : forall a p, (i < plen p)%nat -> nth i (p_co (setLimb (cu i a p) i (sp a p))) [] = sp a p) by (intros a p Hp; rewrite setLimb_nth by (rewrite Lcu; lia); now rewrite Nat.eqb_refl).
  rewrite mulHalf_ok; auto; [|rewrite KM; apply H1|].
  2:{ intros id Hid. destruct (G id (In2 id Hid)) as (a & p & Ea & Ep & La & Lp & Wa & Wp). exists (setLimb (cu i a p) i (sp a p)). rewrite NM by lia.
      assert (Ls : List.length (sp a p) = N) by (unfold sp, spl; rewrite span_length; exact Wp).
      exists (match src with None => sp a p | Some _ => nth i (p_co a) [] end). split; [auto|]. rewrite setLimb_len by (rewrite Lcu; lia). rewrite Lcu by lia. split; [lia|]. split; [lia|]. split; [|destruct src; lia].
      destruct src as [ct0|]; [|reflexivity]. exists a. split; [exact Ea|]. split; [lia|reflexivity]. }
  f_equal. apply mget_eq; rewrite ?upd_all_keys, ?KM; [unfold upto; now rewrite upd_all_keys|apply H1|]. intros id Hid. apply HK in Hid. destruct (G id Hid) as (a & p & Ea & Ep & La & Lp & Wa & Wp).
  rewrite (Hcu id a p (S i) Ea Ep), upd_all_get, (HM id a p Ea Ep). rewrite (proj2 (inb_In id o2)) by (eapply Permutation_in; [apply Permutation_sym, P2|auto]). f_equal. rewrite NM by lia.
  assert (ES : span (qq i) (hi i) (N / 2) (N / 2) (match src with None => sp a p | Some ct0 => match sget ct0 id with Some b => nth i (p_co b) [] | None => [] end end) (sp a p) = g i a).
  { unfold sp, spl, g, gl. destruct src as [ct0|]; cbn [rd] in c0; subst c0.
    - rewrite Ea. exact (halves_span (qq i) (lo i) (hi i) (Some (nth i (p_co a) [])) (nth i (p_co p) []) Wp Wa).
    - rewrite Ea in Ep. injection Ep as <-. exact (halves_span (qq i) (lo i) (hi i) None (nth i (p_co a) []) Wp Wa). }
  match goal with |- setLimb _ _ ?w = _ => replace w with (g i a) by (rewrite <- ES; destruct src; reflexivity) end. apply cul_step. lia.
Qed.

Lemma mapM_each {A B} (f : A -> res B) l l' : mapM f l = Ok l' -> forall a, In a l -> exists b, f a = Ok b.
Proof.
  revert l'. induction l as [|x l IH]; intros l' H a Ha; [contradiction|]. cbn [mapM] in H. apply bind_inv in H as (b & Eb & H). apply bind_inv in H as (bs & Ebs & _). destruct Ha as [->|Ha]; eauto.
Qed.
(** the constants of a successful run *)
Lemma consts_ok o ct0 c out r l0 l1 re im s : order_ok o -> (l0 < QCount pp)%nat -> ct_ok pp l0 (c_ct ct0) -> ct_ok pp l1 (c_ct out) ->
  getConstAndScale ce (Nat.min l0 l1) c = Ok (re, im, s) -> MultByConst ce o ct0 c out = Ok r ->
  forall j, (j <= Nat.min l0 l1)%nat -> exists a b, multConsts ce re im s (qq j) (nth j (pa_psiQ pp) 0) = Ok (a, b).
Proof.
  intros Ho Hl H0 H1 Eg E j Hj. unfold MultByConst in E. rewrite (ct_level (ce_env ce) l0 _ H0), (ct_level (ce_env ce) l1 _ H1) in E. cbn [bind] in E. rewrite Eg in E. cbn [bind] in E.
  assert (Hin : In "0"%string (o 0%nat (mkeys (c_ct ct0)))) by (apply order_in; [exact Ho|apply H0]).
  destruct (o 0%nat (mkeys (c_ct ct0))) as [|u us]; [contradiction|]. cbn [foldM] in E. apply bind_inv in E as (c1 & E & _). apply bind_inv in E as (c2 & E & _). apply bind_inv in E as (a & _ & E).
  apply ctUpd_inv in E as (p & p' & _ & E & _). apply bind_inv in E as (ls & E & _).
  destruct (mapM_each _ _ _ E j) as (x & Ex); [apply in_seq; lia|]. pose proof (ro_len rQ HrQ) as HL. cbn [r_mods r_psi ringQ] in HL. unfold QCount in Hl.
  rewrite (idx_nth (pa_Q pp) j 0), (idx_nth (pa_psiQ pp) j 0) in Ex by lia. cbn [bind] in Ex. apply bind_inv in Ex as ([a' b'] & Ex & _). eauto.
Qed.

Lemma mult_at o o' src c out r l0 l1 : order_ok o -> order_ok o' -> (l0 < QCount pp)%nat -> ct_ok pp l0 (c_ct (rd src out)) -> const_receiver pp (c_ct (rd src out)) (c_ct out) l1 ->
  MultByConst ce o (rd src out) c out = Ok r -> MultByConstAt ce o' src c out = Ok r.
Proof.
  intros Ho Ho' Hl H0 (Hl1 & H1 & HK) E. pose proof E as E0. unfold MultByConst in E. unfold MultByConstAt. rewrite (ct_level (ce_env ce) l0 _ H0), (ct_level (ce_env ce) l1 _ H1) in *. cbn [bind] in *.
  set (l := Nat.min l0 l1) in *. destruct (getConstAndScale ce l c) as [[[re im] s]|] eqn:Eg; [|discriminate]. cbn [bind] in *.
  pose proof (consts_ok o _ c out r l0 l1 re im s Ho Hl H0 H1 Eg E0) as HC. fold l in HC.
  set (lo := fun j => match multConsts ce re im s (qq j) (nth j (pa_psiQ pp) 0) with Ok (a, _) => a | _ => 0 end). set (hi := fun j => match multConsts ce re im s (qq j) (nth j (pa_psiQ pp) 0) with Ok (_, b) => b | _ => 0 end).
  assert (Hm : forall j, (j <= l)%nat -> multConsts ce re im s (qq j) (nth j (pa_psiQ pp) 0) = Ok (lo j, hi j)) by (intros j Hj; destruct (HC j Hj) as (a & b & X); subst lo hi; cbn beta; now rewrite X).
  assert (Hget : forall id, In id (mkeys (c_ct (rd src out))) -> exists a p, sget (c_ct (rd src out)) id = Some a /\ sget (c_ct out) id = Some p /\ plen a = (l0 + 1)%nat /\ plen p = (l1 + 1)%nat).
  { intros id Hi. destruct (mget_ex _ seqb _ id Hi) as (a & Ea). destruct (mget_ex _ seqb (c_ct out) id) as (p & Ep); [apply HK; exact Hi|]. exists a, p.
    split; [auto|]. split; [auto|]. split; [apply (ck_comp _ _ _ H0 id a Ea)|apply (ck_comp _ _ _ H1 id p Ep)]. }
  rewrite (mult_loop ce He l lo hi) in E; auto; [|lia|apply H0|apply H1|].
  2:{ intros id Hi. destruct (Hget id Hi) as (a & p & Ea & Ep & La & Lp). exists a, p. repeat split; auto; lia. }
  cbn [bind] in E. change (upd_all _ (mc_comp ce l lo hi (c_ct (rd src out)) (c_ct out)) (c_ct out)) with (upto lo hi (c_ct (rd src out)) (c_ct out) (l + 1)) in E. rewrite <- E. clear E E0.
  set (keys := mkeys (c_ct (rd src out))).
  assert (Erd : c_ct (rd src out) = rd (option_map c_ct src) (c_ct out)) by (destruct src; reflexivity).
  match goal with |- bind (foldM ?f _ _) _ = _ => assert (HF : forall i, (i <= l + 1)%nat -> foldM f (seq 0 i) (c_ct out) = Ok (upto lo hi (c_ct (rd src out)) (c_ct out) i)) end.
  { induction i as [|i IH]; intros Hi.
    - cbn. f_equal. apply mget_eq; [unfold upto; now rewrite upd_all_keys|apply H1|]. intros id Hid. apply HK in Hid. destruct (Hget id Hid) as (a & p & Ea & Ep & _). unfold upto. rewrite upd_all_get, Ep.
      destruct (inb _ _); [|reflexivity]. rewrite Ea. cbn. now destruct p.
    - rewrite seq_S, foldM_app, IH by lia. cbn [bind foldM Nat.add]. pose proof (ro_len rQ HrQ) as HL. cbn [r_mods r_psi ringQ] in HL. unfold QCount in Hl.
      rewrite (idx_nth (pa_Q pp) i 0), (idx_nth (pa_psiQ pp) i 0) by lia. cbn [bind]. rewrite Hm by lia. cbn [bind].
      rewrite Erd in *. rewrite (upto_step lo hi (option_map c_ct src) (c_ct out) i l0 l1 _ _ keys); auto; try lia; try apply Ho'. unfold keys. now rewrite Erd. }
  rewrite HF by lia. reflexivity.
Qed.
End C.
