(** The gadget decomposition restated in the vocabulary of Spec.v. *)
From Coq Require Import String ZArith Znumtheory List Bool Lia.
From Verif Require Import Spec SpecProofs Go Arith GoProofs LattigoProofs F64 BasisExt BasisExtProofs ModDownProofs DecomposeProofs Params KSProofs BasisSpec.
Import ListNotations.
Local Open Scope Z_scope.

Lemma limb_of_spec q b l Y : limb_of q b l Y -> b <= W -> length l = length Y /\ Forall (fun w => 0 <= w < 2 ^ 64) l.
Proof.
  intros H Hb. change (2 ^ 64) with 18446744073709551616. rewrite <- W_val. split; [now apply limb_of_nth in H|].
  induction H; constructor; auto. destruct H. lia.
Qed.
Lemma digit_spec Q P alpha i levelQ levelP N pin oq op Y : ntt_primes (Q ++ P) -> (levelQ < length Q)%nat -> (levelP < length P)%nat ->
  digit_result Q P alpha i levelQ levelP N pin oq op Y -> digit_correct Q P alpha i levelQ levelP N pin oq op (fun x => nth x Y 0).
Proof.
  intros G HQ HP (H1 & H2 & H3 & H4 & H5 & H6 & H7).
  assert (HpQ : forall j, (j <= levelQ)%nat -> nth j Q 0 <> 0) by (intros j Hj; pose proof (modulus_pos Q P j G ltac:(lia)) as Hm; unfold modulus in Hm; lia).
  assert (HpP : forall j, (j <= levelP)%nat -> nth j P 0 <> 0) by (intros j Hj; pose proof (modulus_pos_r Q P j G ltac:(lia)) as Hm; unfold modulus in Hm; lia).
  split; [auto|]. split; [auto|]. split; [|split].
  - apply Forall_forall. intros l Hl. apply In_nth with (d := []) in Hl as (j & Hj & <-). rewrite <- H1. apply (limb_of_spec (nth j Q 0) W); [apply H6; lia|lia].
  - apply Forall_forall. intros l Hl. apply In_nth with (d := []) in Hl as (j & Hj & <-). rewrite <- H1. apply (limb_of_spec (nth j P 0) W); [apply H7; lia|lia].
  - intros x Hx. split; [exact (H4 x Hx)|]. unfold modulus, word. split; [|split].
    + intros j Hj Hl. apply eqm_cong; [auto|]. apply H5; auto; lia.
    + intros j Hj. apply eqm_cong; [auto|]. apply (limb_of_nth _ _ _ _ (H6 j Hj)). lia.
    + intros j Hj. apply eqm_cong; [auto|]. apply (limb_of_nth _ _ _ _ (H7 j Hj)). lia.
Qed.
Lemma sum_gadget Q alpha levelQ T g f j beta : (j <= levelQ)%nat -> (0 < modulus Q j) -> is_gadget Q alpha levelQ beta T g ->
  eqm (modulus Q j) (sum_upto beta (fun i => f i * g i)) (if (j / alpha <? beta)%nat then f (j / alpha)%nat * T else 0).
Proof.
  intros Hj Hm HG. assert (H : forall n, (n <= beta)%nat ->
    cong (modulus Q j) (sum_upto n (fun i => f i * g i)) (if (j / alpha <? n)%nat then f (j / alpha)%nat * T else 0)).
  { induction n as [|n IH]; intros Hn; [apply cong_refl|]. cbn [sum_upto]. rewrite IH by lia.
    specialize (HG n j ltac:(lia) Hj). apply eqm_cong in HG; [|lia]. rewrite HG.
    destruct (Nat.eqb_spec (j / alpha) n) as [En|Hne].
    - destruct (Nat.ltb_spec (j / alpha) n), (Nat.ltb_spec (j / alpha) (S n)); try lia. rewrite En. apply cong_eq. ring.
    - destruct (Nat.ltb_spec (j / alpha) n), (Nat.ltb_spec (j / alpha) (S n)); try lia; apply cong_eq; ring. }
  apply eqm_cong; [lia|]. now apply H.
Qed.

(** C10 *)
Lemma C10_lemma Q P gamma alpha levelQ levelP beta N pin :
  ntt_primes (Q ++ P) -> (0 < gamma)%nat -> (1 <= alpha <= 32)%nat ->
  (alpha = 1 \/ gamma * alpha <= List.length P /\ levelP < gamma * alpha)%nat ->
  (levelQ < List.length Q)%nat -> (levelP < List.length P)%nat -> Z.of_nat (List.length (Q ++ P)) < 2 ^ 52 ->
  (levelQ < List.length pin)%nat -> rns_words N pin ->
  (forall j x, (j <= levelQ)%nat -> (x < N)%nat -> word pin j x <= modulus Q j) ->
  ((beta - 1) * alpha <= levelQ)%nat -> (levelQ < beta * alpha)%nat ->
  exists D : nat -> nat -> Z,
    (forall i, (i < beta)%nat -> exists outQ outP,
       DecomposeAndSplit (NewDecomposer Q P (Z.of_nat gamma)) levelQ levelP alpha i (Z.of_nat gamma) pin = Ok (outQ, outP) /\
       digit_correct Q P alpha i levelQ levelP N pin outQ outP (D i)) /\
    forall T g, is_gadget Q alpha levelQ beta T g ->
      forall j x, (j <= levelQ)%nat -> (x < N)%nat -> eqm (modulus Q j) (sum_upto beta (fun i => D i x * g i)) (T * word pin j x).
Proof.
  intros G Hg Ha Hga HQ HP H52 Hl Hw Hle Hb1 Hb2. pose proof Hw as Hw0. apply rns_words_ok in Hw as [Hw HN]. pose proof (ntt_good _ _ G) as GM.
  rewrite app_length in H52.
  assert (HE : forall i, (i < beta)%nat -> exists Y, exists outQ outP,
     DecomposeAndSplit (NewDecomposer Q P (Z.of_nat gamma)) levelQ levelP alpha i (Z.of_nat gamma) pin = Ok (outQ, outP) /\
     digit_correct Q P alpha i levelQ levelP N pin outQ outP Y).
  { intros i Hi. assert (i * alpha <= levelQ)%nat by (apply Nat.le_trans with ((beta - 1) * alpha)%nat; [apply Nat.mul_le_mono_r; lia|auto]).
    destruct (DecomposeAndSplit_ok Q P gamma alpha i levelQ levelP N pin) as (oq & op & Y & E & HD); auto; [lia|lia|].
    exists (fun x => nth x Y 0), oq, op. split; [exact E|]. now apply digit_spec. }
  destruct (choose_fun (fun _ => 0) _ _ HE) as (D & HD). exists D. split; [exact HD|].
  intros T g HG j x Hj Hx. pose proof (modulus_pos Q P j G ltac:(lia)) as Hm.
  pose proof (sum_gadget Q alpha levelQ T g (fun i => D i x) j beta Hj Hm HG) as HS. cbv beta in HS.
  pose proof (Nat.div_mod j alpha ltac:(lia)) as Edm. pose proof (Nat.mod_upper_bound j alpha ltac:(lia)) as Hmb.
  assert (Hjb : (j / alpha < beta)%nat) by (apply Nat.div_lt_upper_bound; lia).
  destruct (Nat.ltb_spec (j / alpha) beta); [|lia]. unfold eqm in *. rewrite HS.
  destruct (HD (j / alpha)%nat Hjb) as (oq & op & _ & HC). destruct HC as (_ & _ & _ & _ & HC). destruct (HC x Hx) as (_ & HC2 & _).
  specialize (HC2 j). rewrite Z.mul_mod by lia. rewrite (Z.mul_mod T) by lia. unfold eqm in HC2. rewrite HC2; [f_equal; ring| |auto].
  split; [rewrite Nat.mul_comm; lia|]. rewrite Nat.mul_add_distr_r. rewrite (Nat.mul_comm (j / alpha)). lia.
Qed.

(** the special primes beyond gamma * alpha have no tables: with blocks of two or more primes the
    decomposition panics for every input *)
Lemma mapM_panics {A B} (f : A -> res B) p l : (forall a, In a l -> (exists b, f a = Ok b) \/ f a = Panic p) ->
  (exists a, In a l /\ f a = Panic p) -> mapM f l = Panic p.
Proof.
  induction l as [|a l IH]; intros H (x & Hin & Hx); [destruct Hin|]. cbn [mapM].
  destruct (H a (or_introl eq_refl)) as [[b Hb]|Hb]; rewrite Hb; [|reflexivity]. cbn [bind].
  rewrite IH; [reflexivity|intros; apply H; now right|]. destruct Hin as [->|Hin]; [congruence|]. now exists x.
Qed.
Lemma C50_lemma Q P gamma alpha levelQ levelP i N pin :
  ntt_primes (Q ++ P) -> (0 < gamma)%nat -> (2 <= alpha <= 32)%nat -> (gamma * alpha <= levelP)%nat ->
  (i * alpha + 1 <= levelQ)%nat ->
  (levelQ < List.length Q)%nat -> (levelP < List.length P)%nat -> Z.of_nat (List.length (Q ++ P)) < 2 ^ 52 ->
  (levelQ < List.length pin)%nat -> rns_words N pin -> (0 < N)%nat ->
  DecomposeAndSplit (NewDecomposer Q P (Z.of_nat gamma)) levelQ levelP alpha i (Z.of_nat gamma) pin = Panic PIndex.
Proof.
  intros G0 Hg Ha Hga Hi HQ HP H52 Hl Hw0 HN0. apply rns_words_ok in Hw0 as [Hw HN]. pose proof (ntt_good _ _ G0) as G.
  rewrite app_length in H52. unfold DecomposeAndSplit. destruct (Nat.eqb_spec alpha 0) as [?|_]; [lia|]. rewrite decompLvl_val by lia.
  set (k := Nat.min alpha (levelQ + 1 - i * alpha)). assert (Hk2 : (2 <= k)%nat) by (unfold k; nia).
  destruct (Z.eqb_spec (Z.of_nat k - 2) (-1)) as [Ek|Ek]; [lia|].
  destruct (NewDecomposer_lookup Q P gamma alpha i levelQ) as (t1 & t2 & E1 & E2 & E3); auto; try lia.
  fold k in E3. rewrite E1. cbn [bind]. rewrite E2. cbn [bind].
  replace (Z.of_nat k - 2) with (Z.of_nat (k - 2)) by lia. rewrite idxZ_nat, E3. cbn [bind].
  replace (Z.to_nat (Z.of_nat (k - 2) + 2)) with k by lia.
  set (ps := Q ++ firstn (gamma * alpha) P). set (qs := firstn k (skipn (i * alpha) Q)) in *. set (pr := basisextenderparameters qs ps).
  assert (HT : tables_ok qs ps pr).
  { apply basisextenderparameters_ok.
    - unfold qs. apply Forall_firstn, Forall_skipn. apply G.
    - unfold ps. apply Forall_app. split; [apply G|]. apply Forall_firstn. apply G.
    - unfold qs. apply Forall_firstn, Forall_skipn. apply G.
    - unfold qs. apply NoDup_firstn, NoDup_skipn. eapply NoDup_app_l. apply G. }
  assert (Hps : Forall mod61 ps).
  { unfold ps. apply Forall_app. split; [apply G|]. apply Forall_firstn. apply G. }
  assert (HlPf : length (firstn (gamma * alpha) P) = (gamma * alpha)%nat) by (rewrite firstn_length; lia).
  assert (Hlps : length ps = (length Q + gamma * alpha)%nat) by (unfold ps; rewrite app_length; lia).
  assert (HpsQ : forall j, (j < length Q)%nat -> nth j ps 0 = nth j Q 0) by (intros; unfold ps; now rewrite app_nth1).
  assert (HpsP : forall j, (j < gamma * alpha)%nat -> nth (length Q + j) ps 0 = nth j P 0).
  { intros j Hj. unfold ps. rewrite app_nth2 by lia. rewrite nth_firstn by lia. f_equal. lia. }
  assert (Hnc : ncoef pin = N).
  { unfold ncoef. rewrite Forall_forall in HN. apply HN. apply nth_In. lia. }
  rewrite Hnc. cbn [dec_Q dec_P NewDecomposer]. destruct N as [|N]; [lia|].
  match goal with |- context [mapM ?f (seq 0 (S N))] => assert (EP : forall x, f x = Panic PIndex) end.
  { intros x.
    destruct (up_words (i * alpha) k (column pin x) Q ps pr HT) as (ys & v & Y & Er & Hnr & Hcr & Hz); auto.
    { unfold k. lia. } { unfold k. nia. } { rewrite column_length. unfold k. nia. }
    { apply G. } { now apply column_words. }
    rewrite Er. cbn [bind].
    match goal with |- context [mapM ?f (seq 0 (levelQ + 1))] => destruct (mapM_seq_spec f (fun _ _ => True) (levelQ + 1) 0) as (zq & Eq & _ & _) end.
    { intros j Hj. rewrite (idx_nth Q j 0) by lia.
      rewrite (idx_nth (vtimesqmodp pr) j []) by (rewrite (tk_len_v _ _ _ HT); lia).
      rewrite (idx_nth (qoverqimodp pr) j []) by (rewrite (tk_len_tab _ _ _ HT); lia). cbn [bind].
      destruct (Hz j ltac:(lia)) as (z & Ez & _). rewrite HpsQ in * by lia. exists z. auto. }
    rewrite Eq. cbn [bind].
    match goal with |- context [mapM ?f (seq 0 (levelP + 1))] => assert (EPP : mapM f (seq 0 (levelP + 1)) = Panic PIndex) end.
    { apply mapM_panics.
      - intros j Hj. apply in_seq in Hj. rewrite (idx_nth P j 0) by lia. cbn [bind]. destruct (lt_dec j (gamma * alpha)) as [Hlt|Hge].
        + left. rewrite (idx_nth (vtimesqmodp pr) (length Q + j) []) by (rewrite (tk_len_v _ _ _ HT); lia).
          rewrite (idx_nth (qoverqimodp pr) (length Q + j) []) by (rewrite (tk_len_tab _ _ _ HT); lia). cbn [bind].
          destruct (Hz (length Q + j)%nat ltac:(lia)) as (z & Ez & _). rewrite HpsP in * by lia. eauto.
        + right. unfold idx. rewrite (proj2 (nth_error_None (vtimesqmodp pr) (length Q + j))) by (rewrite (tk_len_v _ _ _ HT); lia). reflexivity.
      - exists (gamma * alpha)%nat. split; [apply in_seq; lia|]. rewrite (idx_nth P (gamma * alpha) 0) by lia. cbn [bind].
        unfold idx. rewrite (proj2 (nth_error_None (vtimesqmodp pr) (length Q + gamma * alpha))) by (rewrite (tk_len_v _ _ _ HT); lia). reflexivity. }
    rewrite EPP. reflexivity. }
  cbn [seq mapM]. rewrite EP. reflexivity.
Qed.
