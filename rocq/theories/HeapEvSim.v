(** Programs on objects and the same programs on a list of ciphertext values. *)
From Coq Require Import String ZArith List Lia Bool Permutation.
From Verif Require Import Go GoProofs Lattigo NTT RingOps RingOpsProofs Maps MapsProofs F64 Params Elements KeySwitch KeySets EncDec Evaluator Alias Circuit Heap SpecHeap HeapProofs HeapEv SpecHeapEv.
Import ListNotations.
Local Open Scope list_scope.

(** ** on values: an object is its position in the list *)
Fixpoint runOnVals {A} (P : prog A) (vals : list ciphertext) : res (A * list ciphertext) :=
  match P with
  | Ret a => Ok (a, vals)
  | Throw e => Panic e
  | Read c id k => let* v := deref vals c in let* p := sptr v id in runOnVals (k p) vals
  | Write c id p k => let* v := deref vals c in let* q := sptr v id in
      if (plen q <? plen p)%nat then Panic PIndex else runOnVals k (lset vals c (sset v id p))
  | Keys c k => let* v := deref vals c in runOnVals (k (mkeys v)) vals
  | Alloc k => runOnVals (k (length vals)) (vals ++ [[]])
  | Put c id p k => let* v := deref vals c in runOnVals k (lset vals c (sset v id p))
  end.

Lemma keys_sset {A B} (m : smap A) (v : smap B) id a b : mkeys m = mkeys v -> mkeys (sset m id a) = mkeys (sset v id b).
Proof.
  revert v. induction m as [|[k x] m IH]; intros [|[k' y] v] H; cbn in *; try discriminate; [reflexivity|]. injection H as -> H. destruct (String.eqb id k'); cbn; [f_equal; exact H|]. f_equal. exact (IH v H).
Qed.
Lemma nth_seq n k c : nth_error (seq 0 n) k = Some c -> c = k /\ (k < n)%nat.
Proof. intros H. assert (L : (k < n)%nat). { rewrite <- (seq_length n 0). apply nth_error_Some. congruence. } split; [|exact L]. apply nth_error_nth with (d := 0%nat) in H. rewrite seq_nth in H by exact L. lia. Qed.
Lemma seq_nth_error n k : (k < n)%nat -> nth_error (seq 0 n) k = Some k.
Proof. intros H. rewrite (nth_error_nth' _ 0%nat) by now rewrite seq_length. now rewrite seq_nth. Qed.
Lemma nth_lt {A} (l : list A) k x : nth_error l k = Some x -> (k < length l)%nat.
Proof. intros H. apply nth_error_Some. congruence. Qed.

Definition keys_like (h : heap) (vals : list ciphertext) : Prop := forall c v m, nth_error vals c = Some v -> deref (h_maps h) c = Ok m -> mkeys m = mkeys v.
Lemma separate_inv h vals : separate h vals <-> length (h_maps h) = length vals /\ keys_like h vals /\ inv true (seq 0 (length vals)) h vals.
Proof.
  split.
  - intros [L R K I A]. split; [exact L|]. split; [exact K|]. split; [|split].
    + apply Forall2_nth. split; [apply seq_length|]. intros k x y Hx Hy. apply nth_seq in Hx as [-> _]. now apply R.
    + intros _ k c Hk. apply nth_seq in Hk as [-> Hk]. destruct (nth_error vals k) as [v|] eqn:E; [eauto|apply nth_error_None in E; lia].
    + intros k k' c c' Hk Hk' Hne. apply nth_seq in Hk as [-> Hk]. apply nth_seq in Hk' as [-> Hk']. destruct (nth_error vals k) as [v|] eqn:E; [|apply nth_error_None in E; lia]. destruct (nth_error vals k') as [v'|] eqn:E'; [eauto|apply nth_error_None in E'; lia].
  - intros (L & K & F & I & A). apply Forall2_nth in F as [_ F]. constructor.
    + exact L.
    + intros c v H. apply (F c); [apply seq_nth_error; eapply nth_lt; eauto|exact H].
    + exact K.
    + intros c v H. apply (I eq_refl c). apply seq_nth_error. eapply nth_lt; eauto.
    + intros c c' v v' H H' Hne. apply (A c c'); auto; apply seq_nth_error; eapply nth_lt; eauto.
Qed.
Lemma separate_lset h vals c v v' h' : separate h vals -> nth_error vals c = Some v -> touch h h' c -> rep h' c v' -> inner h' c -> length (h_maps h') = length (h_maps h) ->
  (forall m, deref (h_maps h') c = Ok m -> mkeys m = mkeys v') -> separate h' (lset vals c v').
Proof.
  intros S Hv T R I L K. pose proof (nth_lt _ _ _ Hv) as Lc. pose proof S as S0. apply separate_inv in S as (SL & SK & SI). apply separate_inv. rewrite !lset_length by exact Lc. split; [now rewrite L|]. split.
  - intros d w m Hw Hm. destruct (Nat.eq_dec d c) as [->|Hne]; [rewrite lset_same in Hw by exact Lc; injection Hw as <-; now apply K|]. rewrite lset_other in Hw by auto. apply (SK d w m Hw). rewrite <- (t_m _ _ _ T d); auto. rewrite SL. eapply nth_lt; eauto.
  - eapply inv_write; eauto. apply seq_nth_error. exact Lc.
Qed.
Lemma separate_app h vals v' h' : separate h vals -> touch h h' (length vals) -> rep h' (length vals) v' -> inner h' (length vals) -> length (h_maps h') = S (length (h_maps h)) ->
  (forall m, deref (h_maps h') (length vals) = Ok m -> mkeys m = mkeys v') -> separate h' (vals ++ [v']).
Proof.
  intros S T R I L K. apply separate_inv in S as (SL & SK & SI). apply separate_inv. rewrite app_length. cbn [length]. split; [lia|]. split.
  - intros d w m Hw Hm. destruct (Nat.lt_ge_cases d (length vals)) as [X|X].
    + rewrite nth_error_app1 in Hw by exact X. apply (SK d w m Hw). rewrite <- (t_m _ _ _ T d); auto; lia.
    + rewrite nth_error_app2 in Hw by exact X. destruct (d - length vals)%nat as [|n] eqn:En; [|destruct n; discriminate]. cbn in Hw. injection Hw as <-. replace d with (length vals) in Hm by lia. now apply K.
  - rewrite Nat.add_1_r, seq_S. cbn [plus]. rewrite <- SL. rewrite <- SL in T, R, I. eapply inv_new; eauto. now rewrite SL.
Qed.

(** one program, two memories *)
Lemma simulation {A} (P : prog A) : forall h vals, separate h vals ->
  match runOnVals P vals with Panic e => runOnHeap P h = Panic e | Ok (a, vals') => exists h', runOnHeap P h = Ok (a, h') /\ separate h' vals' end.
Proof.
  induction P as [a|e|c id k IH|c id p k IH|c k IH|k IH|c id p k IH]; intros h vals S; cbn [runOnVals runOnHeap].
  - eauto.
  - reflexivity.
  - unfold loadComp. unfold deref at 1. destruct (nth_error vals c) as [v|] eqn:Ev; cbn [bind].
    + pose proof (rep_comp _ _ _ id (sp_rep _ _ S _ _ Ev)) as X. unfold loadComp in X. rewrite X. destruct (sptr v id) as [p|e]; cbn [bind]; [now apply IH|reflexivity].
    + apply nth_error_None in Ev. unfold deref at 1. rewrite (proj2 (nth_error_None (h_maps h) c)); [reflexivity|]. rewrite (sp_len _ _ S). exact Ev.
  - unfold deref at 1. destruct (nth_error vals c) as [v|] eqn:Ev; cbn [bind].
    + pose proof (sp_rep _ _ S _ _ Ev) as R. pose proof R as (_ & m & Em & _ & Hm). rewrite Em. cbn [bind]. specialize (Hm id). unfold sptr at 2, mptr at 2. unfold sptr, mptr. destruct (sget m id) as [a|] eqn:Ea.
      * destruct Hm as (p0 & Hl & Hp). rewrite Hp. cbn [bind]. assert (HP : polyAt h c id a) by (exists m; auto). destruct (upd_comp h c v id a p0 p R HP Hp) as [U1 U2]. destruct (plen p0 <? plen p)%nat eqn:El.
        { apply Nat.ltb_lt in El. rewrite (U1 El). reflexivity. }
        apply Nat.ltb_ge in El. destruct (U2 El) as (h' & Es & T & _ & UI). destruct (UI (sp_inner _ _ S _ _ Ev)) as [I' R']. rewrite Es. cbn [bind]. apply IH.
        assert (Emaps : h_maps h' = h_maps h). { unfold storePoly in Es. destruct (deref (h_polys h) a) as [[b rs]|]; [|discriminate]. cbn [bind] in Es. destruct (length rs <? plen p)%nat; [discriminate|]. injection Es as <-. reflexivity. }
        eapply separate_lset; eauto; [now rewrite Emaps|]. rewrite Emaps. intros m' Hm'. rewrite Em in Hm'. injection Hm' as <-. rewrite (sp_keys _ _ S _ _ _ Ev Em). clear - Hp.
        induction v as [|[k0 x] v IHv]; cbn in *; [discriminate|]. destruct (String.eqb id k0); cbn; [reflexivity|]. f_equal. exact (IHv Hp).
      * rewrite Hm. reflexivity.
    + apply nth_error_None in Ev. unfold deref at 1. rewrite (proj2 (nth_error_None (h_maps h) c)); [reflexivity|]. rewrite (sp_len _ _ S). exact Ev.
  - unfold deref. destruct (nth_error vals c) as [v|] eqn:Ev; cbn [bind].
    + pose proof (sp_rep _ _ S _ _ Ev) as (_ & m & Em & _). pose proof (sp_keys _ _ S _ _ _ Ev Em) as EK. apply deref_ok in Em. rewrite Em. cbn [bind]. rewrite EK. now apply IH.
    + apply nth_error_None in Ev. rewrite (proj2 (nth_error_None (h_maps h) c)); [reflexivity|]. rewrite (sp_len _ _ S). exact Ev.
  - pose proof (allocMap_ok h) as X. unfold allocMap in *. destruct X as (_ & T & R & I). rewrite (sp_len _ _ S) in *. apply IH. eapply separate_app; eauto.
    + cbn [h_maps]. rewrite app_length. cbn. lia.
    + cbn [h_maps]. intros m Hm. apply deref_ok in Hm. rewrite nth_error_app2 in Hm by (rewrite (sp_len _ _ S); lia). rewrite (sp_len _ _ S), Nat.sub_diag in Hm. cbn in Hm. injection Hm as <-. reflexivity.
  - unfold deref. destruct (nth_error vals c) as [v|] eqn:Ev; cbn [bind].
    + pose proof (sp_rep _ _ S _ _ Ev) as R. pose proof R as (_ & m & Em & _). pose proof (sp_keys _ _ S _ _ _ Ev Em) as EK. pose proof (add_comp h c v id p R) as X. destruct (allocPoly p h) as [a h1] eqn:EA. destruct X as (h' & Es & T & R' & I' & L'). rewrite Es. cbn [bind]. apply IH.
      eapply separate_lset; eauto; [apply I'; exact (sp_inner _ _ S _ _ Ev)|]. intros m' Hm'. assert (E1 : h_maps h1 = h_maps h) by (unfold allocPoly in EA; injection EA as _ <-; reflexivity).
      unfold setComp in Es. rewrite E1, Em in Es. cbn [bind] in Es. injection Es as <-. cbn [h_maps] in Hm'. rewrite deref_same in Hm' by (eapply deref_lt; eauto). injection Hm' as <-. now apply keys_sset.
    + apply nth_error_None in Ev. destruct (allocPoly p h) as [a h1] eqn:EA. assert (E1 : h_maps h1 = h_maps h) by (unfold allocPoly in EA; injection EA as _ <-; reflexivity). unfold setComp. rewrite E1. unfold deref. rewrite (proj2 (nth_error_None (h_maps h) c)); [reflexivity|]. rewrite (sp_len _ _ S). exact Ev.
Qed.

(** no key twice *)
Definition nodups (vals : list ciphertext) : Prop := forall c v, nth_error vals c = Some v -> NoDup (mkeys v).
Lemma separate_nodups h vals : separate h vals -> nodups vals.
Proof. intros S c v H. exact (proj1 (sp_rep _ _ S _ _ H)). Qed.
Lemma nodups_lset vals c v : nodups vals -> (c < length vals)%nat -> NoDup (mkeys v) -> nodups (lset vals c v).
Proof. intros H L N d w Hw. destruct (Nat.eq_dec d c) as [->|Hne]; [rewrite lset_same in Hw by auto; congruence|]. rewrite lset_other in Hw by auto. eauto. Qed.
Lemma run_nodups {A} (P : prog A) : forall vals a vals', nodups vals -> runOnVals P vals = Ok (a, vals') -> nodups vals' /\ (length vals <= length vals')%nat.
Proof.
  induction P as [a|e|c id k IH|c id p k IH|c k IH|k IH|c id p k IH]; intros vals x vals' H E; cbn [runOnVals] in E.
  - injection E as <- <-. auto.
  - discriminate.
  - destruct (deref vals c) as [v|]; [|discriminate]. cbn [bind] in E. destruct (sptr v id); [|discriminate]. eapply IH; eauto.
  - destruct (deref vals c) as [v|] eqn:Ev; [|discriminate]. cbn [bind] in E. destruct (sptr v id); [|discriminate]. cbn [bind] in E. destruct (plen _ <? plen _)%nat; [discriminate|]. pose proof (deref_lt _ _ _ Ev) as L. apply IH in E; [rewrite lset_length in E by exact L; exact E|]. apply nodups_lset; auto. apply (mset_nodup String.eqb String.eqb_eq). apply deref_ok in Ev. eauto.
  - destruct (deref vals c) as [v|]; [|discriminate]. eapply IH; eauto.
  - apply IH in E; [rewrite app_length in E; cbn in E; split; [tauto|lia]|]. intros d w Hw. destruct (Nat.lt_ge_cases d (length vals)) as [X|X]; [rewrite nth_error_app1 in Hw by exact X; eauto|]. rewrite nth_error_app2 in Hw by exact X. destruct (d - length vals)%nat as [|n]; [|destruct n; discriminate]. cbn in Hw. injection Hw as <-. constructor.
  - destruct (deref vals c) as [v|] eqn:Ev; [|discriminate]. cbn [bind] in E. pose proof (deref_lt _ _ _ Ev) as L. apply IH in E; [rewrite lset_length in E by exact L; exact E|]. apply nodups_lset; auto. apply (mset_nodup String.eqb String.eqb_eq). apply deref_ok in Ev. eauto.
Qed.
