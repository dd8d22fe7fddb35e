(** Basis extension restated in the vocabulary of Spec.v. *)
From Coq Require Import String ZArith Znumtheory List Bool Lia.
From Verif Require Import Spec SpecProofs Go Arith GoProofs LattigoProofs F64 BasisExt BasisExtProofs ModDownProofs DecomposeProofs Params KSProofs.
Import ListNotations.
Local Open Scope Z_scope.

Lemma modulus_pos Q P j : ntt_primes (Q ++ P) -> (j < length Q)%nat -> 0 < modulus Q j.
Proof. intros [_ H] Hj. rewrite Forall_forall in H. destruct (H (nth j Q 0)) as [_ Hq]; [apply in_or_app; left; now apply nth_In|unfold modulus; lia]. Qed.
Lemma modulus_pos_r Q P j : ntt_primes (Q ++ P) -> (j < length P)%nat -> 0 < modulus P j.
Proof. intros [_ H] Hj. rewrite Forall_forall in H. destruct (H (nth j P 0)) as [_ Hq]; [apply in_or_app; right; now apply nth_In|unfold modulus; lia]. Qed.
Lemma product_pos_firstn Q P n : ntt_primes (Q ++ P) -> 0 < product (firstn n Q).
Proof.
  intros [_ H]. apply Forall_app in H as [H _]. rewrite product_prodZ. apply prodZ_pos. apply Forall_firstn.
  eapply Forall_impl; [|exact H]. cbv beta. intros; lia.
Qed.
Lemma ntt_sym Q P : ntt_primes (Q ++ P) -> ntt_primes (P ++ Q).
Proof.
  intros [H1 H2]. split. - apply Permutation.Permutation_NoDup with (Q ++ P); auto. apply Permutation.Permutation_app_comm.
  - apply Forall_app in H2 as []. apply Forall_app; auto.
Qed.
Lemma product_except Q i : (i < length Q)%nat -> 0 < nth i Q 0 -> product Q / nth i Q 0 = except Q i.
Proof. intros Hi Hp. rewrite product_prodZ, <- (except_mul Q i Hi), Z.mul_comm, Z.div_mul; lia. Qed.
Lemma ntt_firstn Q P n : ntt_primes (Q ++ P) -> ntt_primes (firstn n Q ++ P).
Proof.
  intros [H1 H2]. rewrite <- (firstn_skipn n Q) in H1, H2. split.
  - rewrite <- app_assoc in H1. revert H1. generalize (firstn n Q), (skipn n Q). clear. intros a b H.
    apply Permutation.Permutation_NoDup with (l' := b ++ (a ++ P)) in H.
    + revert H. clear. induction b; cbn; auto. intros H; inversion H; auto.
    + rewrite !app_assoc. apply Permutation.Permutation_app_tail, Permutation.Permutation_app_comm.
  - apply Forall_app in H2 as [H2 H3]. apply Forall_app in H2 as [H2 H4]. apply Forall_app; auto.
Qed.

(** C05 *)
Definition modup_tables_correct (Q P : list Z) (t : modupParams) : Prop :=
  List.length (qoverqiinvqi t) = List.length Q /\ List.length (qoverqimodp t) = List.length P /\ List.length (vtimesqmodp t) = List.length P /\
  (forall i, (i < List.length Q)%nat -> let q := modulus Q i in let inv := nth i (qoverqiinvqi t) 0 in
     0 <= inv < q /\ eqm q (inv * (product Q / q)) (2 ^ 64)) /\
  (forall j i, (j < List.length P)%nat -> (i < List.length Q)%nat -> let p := modulus P j in
     0 <= word (qoverqimodp t) j i < p /\ eqm p (word (qoverqimodp t) j i) (product Q / modulus Q i * 2 ^ 64)) /\
  (forall j v, (j < List.length P)%nat -> (v <= List.length Q)%nat -> let p := modulus P j in
     0 <= word (vtimesqmodp t) j v < p /\ eqm p (word (vtimesqmodp t) j v) (- (Z.of_nat v * product Q))) /\
  (forall j, (j < List.length P)%nat -> List.length (nth j (qoverqimodp t) []) = List.length Q /\ List.length (nth j (vtimesqmodp t) []) = S (List.length Q)).
Definition moddown_table_correct (Q P : list Z) (t : list (list Z)) : Prop :=
  List.length t = List.length P /\
  forall j i, (j < List.length P)%nat -> (i < List.length Q)%nat -> let q := modulus Q i in
    List.length (nth j t []) = List.length Q /\
    0 <= word t j i < q /\ eqm q (word t j i * product (firstn (j + 1) P)) (2 ^ 64).

Lemma tables_spec Q P t : ntt_primes (Q ++ P) -> tables_ok Q P t -> modup_tables_correct Q P t.
Proof.
  intros G H. assert (HQ : forall i, (i < length Q)%nat -> 0 < nth i Q 0) by (intros i Hi; now apply (modulus_pos Q P)).
  assert (HP : forall i, (i < length P)%nat -> 0 < nth i P 0) by (intros i Hi; now apply (modulus_pos_r Q P)).
  unfold modup_tables_correct, modulus, word. change (2 ^ 64) with 18446744073709551616. rewrite <- W_val.
  split; [apply H|]. split; [apply H|]. split; [apply H|]. split; [|split; [|split]].
  - intros i Hi. cbv zeta. destruct (tk_inv _ _ _ H i Hi) as [A B]. split; [auto|].
    rewrite product_except by auto. apply eqm_cong; auto. specialize (HQ i Hi); lia.
  - intros j i Hj Hi. cbv zeta. destruct (tk_tab _ _ _ H j i Hj Hi) as [A B]. split; [auto|].
    rewrite product_except by auto. apply eqm_cong; [specialize (HP j Hj); lia|]. now rewrite Z.mul_comm.
  - intros j v Hj Hv. cbv zeta. destruct (tk_v _ _ _ H j v Hj Hv) as [A B]. split; [auto|].
    apply eqm_cong; [specialize (HP j Hj); lia|]. now rewrite product_prodZ.
  - intros j Hj. split; [apply H|apply H]; auto.
Qed.
Lemma moddown_spec Q P t : ntt_primes (Q ++ P) -> moddown_ok Q P t -> moddown_table_correct Q P t.
Proof.
  intros G [H1 H2]. split; [auto|]. intros j i Hj Hi. destruct (H2 j i Hj Hi) as (A & B & C). split; [auto|]. split; [auto|].
  change (2 ^ 64) with 18446744073709551616. rewrite <- W_val. apply eqm_cong; [pose proof (modulus_pos Q P i G Hi); lia|].
  rewrite product_prodZ, Nat.add_1_r. exact C.
Qed.
Lemma C05_lemma Q P : ntt_primes (Q ++ P) ->
  let b := NewFastBasisExtender Q P in
  (forall i, (i < List.length Q)%nat -> exists t, nth_error (paramsQtoP b) i = Some t /\ modup_tables_correct (firstn (i + 1) Q) P t) /\
  (forall i, (i < List.length P)%nat -> exists t, nth_error (paramsPtoQ b) i = Some t /\ modup_tables_correct (firstn (i + 1) P) Q t) /\
  moddown_table_correct Q P (modDownPtoQ b) /\ moddown_table_correct P Q (modDownQtoP b).
Proof.
  intros G b. pose proof (NewFastBasisExtender_ok Q P (ntt_good _ _ G)) as E. fold b in E.
  split; [|split; [|split]].
  - intros i Hi. destruct (nth_error (paramsQtoP b) i) as [t|] eqn:Et.
    + exists t. split; [auto|]. apply tables_spec; [now apply ntt_firstn|]. eapply eo_QtoP; eauto.
    + apply nth_error_None in Et. rewrite (eo_QtoP_len _ _ _ E) in Et. lia.
  - intros i Hi. destruct (nth_error (paramsPtoQ b) i) as [t|] eqn:Et.
    + exists t. split; [auto|]. apply tables_spec; [apply ntt_firstn; now apply ntt_sym|]. eapply eo_PtoQ; eauto.
    + apply nth_error_None in Et. rewrite (eo_PtoQ_len _ _ _ E) in Et. lia.
  - apply moddown_spec; auto. apply E.
  - apply moddown_spec; [now apply ntt_sym|]. apply E.
Qed.

(** C06 *)
Lemma up_spec Q P k n2 N p1 p2 Y : ntt_primes (Q ++ P) -> (n2 <= length P)%nat -> (k <= length Q)%nat -> up_result Q P k n2 N p1 p2 Y -> modup_correct Q P k n2 N p1 p2.
Proof.
  intros G Hn Hk (H1 & H2 & H3 & H4 & H5). split; [auto|]. split.
  { intros j Hj. destruct (H5 j Hj) as [HL _]. apply limb_of_nth in HL as [HL _]. congruence. }
  intros x Hx. pose proof (product_pos_firstn Q P k G) as HB. set (B := product (firstn k Q)) in *.
  assert (EB : prodZ (firstn k Q) = B) by (symmetry; apply product_prodZ). clearbody B.
  rewrite EB in *. pose (X := nth x Y 0 mod B).
  destruct (near_range_kappa (nth x Y 0) X B HB (H3 x Hx)) as (kap & E & Hkap & Hk0).
  { unfold X, cong. exists (nth x Y 0 / B). rewrite (Z.div_mod (nth x Y 0) B) at 1 by lia. ring. }
  { unfold X. apply Z.mod_pos_bound; lia. }
  exists X, kap. split; [unfold X; apply Z.mod_pos_bound; lia|]. split; [|split; [lia|split; [auto|]]].
  - intros i Hi. pose proof (modulus_pos Q P i G ltac:(lia)) as Hq. unfold modulus, word in *. apply eqm_cong; [lia|].
    eapply cong_trans; [|apply (H4 i x Hi Hx)].
    unfold cong. destruct (prodZ_divide (firstn k Q) (nth i Q 0)) as [c Hc].
    { rewrite <- (nth_firstn Q k i 0 Hi). apply nth_In. rewrite firstn_length. lia. }
    rewrite EB in Hc. exists (- kap * c). rewrite E, Hc. ring.
  - intros j Hj. pose proof (modulus_pos_r Q P j G ltac:(lia)) as Hp. destruct (H5 j Hj) as [HL _]. apply limb_of_nth in HL as [HL1 HL2].
    destruct (HL2 x ltac:(lia)) as [HL3 HL4]. unfold modulus, word in *. split; [auto|]. apply eqm_cong; [lia|]. now rewrite <- E.
Qed.
Lemma C06_lemma Q P levelQ levelP N pol : ntt_primes (Q ++ P) -> (levelQ < List.length Q)%nat -> (levelP < List.length P)%nat -> rns_words N pol ->
  ((levelQ < List.length pol)%nat -> (levelQ < 32)%nat ->
     exists out, ModUpQtoP (NewFastBasisExtender Q P) levelQ levelP pol = Ok out /\ modup_correct Q P (levelQ + 1) (levelP + 1) N pol out) /\
  ((levelP < List.length pol)%nat -> (levelP < 32)%nat ->
     exists out, ModUpPtoQ (NewFastBasisExtender Q P) levelP levelQ pol = Ok out /\ modup_correct P Q (levelP + 1) (levelQ + 1) N pol out).
Proof.
  intros G HQ HP Hw. apply rns_words_ok in Hw as [Hw HN]. pose proof (ntt_good _ _ G) as GM. pose proof (NewFastBasisExtender_ok Q P GM) as E.
  split; intros Hl H32.
  - destruct (ModUpQtoP_ok Q P _ levelQ levelP N pol GM E) as (p2 & Y & E2 & R); auto. exists p2. split; [auto|]. eapply up_spec; eauto; lia.
  - destruct (ModUpPtoQ_ok Q P _ levelP levelQ N pol GM E) as (p2 & Y & E2 & R); auto. exists p2. split; [auto|]. eapply up_spec; eauto; [now apply ntt_sym|lia|lia].
Qed.

(** C08, C09: division by the modulus of the discarded part.  [X] is any integer with the given residues. *)
Lemma down_spec Q P nP lvl N pQ pP out R : ntt_primes (Q ++ P) -> (lvl < length Q)%nat -> (nP <= length P)%nat -> length R = N ->
  (forall x, (x < N)%nat -> near_range (nth x R 0) (prodZ (firstn nP P))) ->
  (forall i x, (i < nP)%nat -> (x < N)%nat -> cong (nth i P 0) (nth x R 0) (nth x (nth i pP []) 0)) ->
  down_result Q lvl (prodZ (firstn nP P)) pQ out R ->
  moddown_correct Q P (lvl + 1) nP N pQ pP out.
Proof.
  intros G HlQ HlP HR HN HC [D1 D2]. split; [auto|]. split.
  { intros i Hi. destruct (D2 i) as [D3 _]; [lia|]. congruence. }
  intros x X Hx HX1 HX2 B. pose proof (product_pos_firstn P Q nP (ntt_sym _ _ G)) as HB. fold B in HB.
  assert (EB : prodZ (firstn nP P) = B) by (symmetry; apply product_prodZ). clearbody B. rewrite EB in *.
  assert (HRX : cong B (nth x R 0) (X mod B)).
  { eapply cong_trans with X.
    - rewrite <- EB. apply crt_cong.
      + destruct (ntt_good _ _ (ntt_sym _ _ G)) as [_ _ Hp _ Hnd]. apply primes_pairwise; [now apply Forall_firstn|]. apply NoDup_firstn. now apply NoDup_app_l in Hnd.
      + apply Forall_forall. intros p Hp. apply (In_nth _ _ 0) in Hp as (i & Hi & Ei). rewrite firstn_length in Hi.
        rewrite nth_firstn in Ei by lia. subst p. eapply cong_trans; [apply HC; lia|].
        apply cong_sym. apply eqm_cong; [pose proof (modulus_pos_r Q P i G ltac:(lia)); unfold modulus in *; lia|]. apply HX2. lia.
    - exists (X / B). rewrite (Z.div_mod X B) at 1 by lia. ring. }
  destruct (near_range_kappa (nth x R 0) (X mod B) B HB (HN x Hx) HRX) as (kap & E & Hkap & Hk0); [apply Z.mod_pos_bound; lia|].
  exists kap. split; [lia|]. split; [auto|]. intros i Hi.
  pose proof (modulus_pos Q P i G ltac:(lia)) as Hq. destruct (D2 i) as [D3 D4]; [lia|]. destruct (D4 x) as [D5 D6]; [lia|].
  unfold word, modulus in *. rewrite <- (Z.mod_small (nth x (nth i out []) 0) (nth i Q 0) D5).
  apply eqm_cong; [lia|].
  assert (HG : rel_prime (nth i Q 0) B).
  { rewrite <- EB. apply rel_prime_prodZ. apply Forall_firstn. destruct (ntt_good _ _ G) as [_ _ HpQ HpP Hnd].
    apply Forall_forall. intros p Hp. rewrite Forall_forall in HpQ, HpP.
    assert (In (nth i Q 0) Q) by (apply nth_In; lia).
    apply primes_coprime; auto. intros E0. rewrite <- E0 in Hp. eapply NoDup_app_disj; eauto. }
  unfold cong. apply Gauss with B; [|exact HG].
  assert (HXi : cong (nth i Q 0) X (nth x (nth i pQ []) 0)) by (apply eqm_cong; [lia|]; apply HX1; lia).
  replace (B * (nth x (nth i out []) 0 - (X / B - kap))) with (B * nth x (nth i out []) 0 - (B * (X / B) - B * kap)) by ring.
  assert (HBX : B * (X / B) = X - X mod B) by (rewrite Z.mod_eq by lia; ring).
  rewrite HBX. change (cong (nth i Q 0) (B * nth x (nth i out []) 0) (X - X mod B - B * kap)).
  eapply cong_trans; [exact D6|]. rewrite E. replace (X - X mod B - B * kap) with (X - (X mod B + kap * B)) by ring.
  apply cong_sub; [now apply cong_sym|]. apply cong_refl.
Qed.
Lemma C08_lemma Q P levelQ levelP N pQ pP : ntt_primes (Q ++ P) -> (levelQ < List.length Q)%nat -> (levelP < List.length P)%nat -> (levelP < 32)%nat ->
  lazy_words Q (levelQ + 1) N pQ -> (levelP < List.length pP)%nat -> rns_words N pP ->
  exists out, ModDownQPtoQ (NewFastBasisExtender Q P) levelQ levelP pQ pP = Ok out /\ moddown_correct Q P (levelQ + 1) (levelP + 1) N pQ pP out.
Proof.
  intros G HQ HP H32 Hz Hl Hw. apply rns_words_ok in Hw as [Hw HN]. pose proof (ntt_good _ _ G) as GM. pose proof (NewFastBasisExtender_ok Q P GM) as E.
  destruct (ModDownQPtoQ_ok Q P _ levelQ levelP N pQ pP GM E) as (out & R & Eo & HR & H1 & H2 & H3); auto.
  exists out. split; [auto|]. eapply down_spec; eauto; [lia|]. intros; apply H2; auto; lia.
Qed.
Lemma C09_lemma Q P lvl N pQ pP : ntt_primes (Q ++ P) -> (lvl < List.length Q)%nat -> (lvl < List.length P)%nat -> (lvl < 32)%nat ->
  lazy_words P (lvl + 1) N pP -> (lvl < List.length pQ)%nat -> rns_words N pQ ->
  exists out, ModDownQPtoP (NewFastBasisExtender Q P) lvl lvl pQ pP = Ok out /\ moddown_correct P Q (lvl + 1) (lvl + 1) N pP pQ out.
Proof.
  intros G HQ HP H32 Hz Hl Hw. apply rns_words_ok in Hw as [Hw HN]. pose proof (ntt_good _ _ G) as GM. pose proof (NewFastBasisExtender_ok Q P GM) as E.
  destruct (ModDownQPtoP_ok Q P _ lvl N pQ pP GM E) as (out & R & Eo & HR & H1 & H2 & H3); auto.
  exists out. split; [auto|]. eapply down_spec; eauto; [now apply ntt_sym|lia|]. intros; apply H2; auto; lia.
Qed.
