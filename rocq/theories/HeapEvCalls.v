(** The evaluator's methods as programs, run on values, compute the evaluator of the value model. *)
From Coq Require Import String ZArith List Lia Bool Permutation.
From Verif Require Import Go GoProofs Lattigo Arith BasisExt NTT RingOps RingOpsProofs Maps MapsProofs F64 Params Elements KeySwitch KeySets KeyGen EncDec Utils Evaluator Alias AliasProofs AliasConst Circuit Heap SpecHeap HeapProofs HeapEv SpecHeapEv HeapEvSim HeapEvVals.
Import ListNotations.
Local Open Scope list_scope.

Ltac inn m := match m with bind ?x _ => inn x | _ => m end.
Ltac dig := try change (gmap string poly) with ciphertext; match goal with |- ?L = _ => let m := inn L in let x := fresh "r" in destruct m as [x|]; cbn beta iota; cbn [bind]; [|reflexivity] end.
Ltac last := match goal with |- bind ?m _ = _ => destruct m; reflexivity end.
Section Ev.
Context (ce : ckenv).
Notation env := (ce_env ce).
Notation pp := (e_pp env).
Notation rQ := (ringQ pp).
Notation cp := (mkCkp pp (ce_scale ce)).

Lemma run_ckcopy c s E v : nth_error E c = Some v -> NoDup (mkeys v) ->
  runOnVals (ckCopyNewP (mkHct c s)) E = let* r := ckCopyNew (mkCk v s) in Ok (mkHct (length E) (c_scale r), lset (E ++ [[]]) (length E) (c_ct r)).
Proof. intros H N. unfold ckCopyNewP, ckCopyNew. cbn [hc hs c_ct c_scale]. rewrite run_bind, (run_copynew _ _ _ H N). take. reflexivity. Qed.
Lemma run_drop o c s n E v0 v : nth_error E c = Some v0 ->
  runOnVals (DropLevelP o (mkHct c s) n) (lset E c v) = let* r := DropLevel o (mkCk v s) n in Ok (mkHct c (c_scale r), lset E c (c_ct r)).
Proof.
  intros H. unfold DropLevelP, DropLevel. cbn [hc hs c_ct c_scale]. adv. destruct (r + 1 <? n)%nat; [reflexivity|]. adv. rewrite run_bind. rewrite (fold_out _ (fun c id => ctUpd c id (pTrunc (r + 1 - n)))).
  2:{ intros w x. erewrite run_upd; [reflexivity|see|shr]. }
  take. reflexivity.
Qed.
Lemma run_const o c0 s0 k c s E v0 v a : nth_error E c = Some v0 -> nth_error E c0 = Some a -> c0 <> c ->
  runOnVals (MultByConstP ce o (mkHct c0 s0) k (mkHct c s)) (lset E c v) = let* r := MultByConst ce o (mkCk a s0) k (mkCk v s) in Ok (mkHct c (c_scale r), lset E c (c_ct r)).
Proof.
  intros H Ha Hn. unfold MultByConstP, MultByConst. cbn [hc hs c_ct c_scale]. adv. adv. adv. adv. rewrite run_bind.
  match goal with |- (let* (_, _) := runOnVals (foldP ?f _ _) _ in _) = (let* _ := (let* _ := foldM ?g _ _ in _) in _) => rewrite (fold_out f g) end.
  2:{ intros w x. cbn beta iota. adv. erewrite run_upd; [reflexivity|see|]. intros p p' Hp. apply bind_ok in Hp as (ls & X & Hp). apply mapM_len in X. rewrite seq_length in X. apply write_len in Hp; lia. }
  take. reflexivity.
Qed.
Lemma setLimb_shr (p p' : poly) i f : (let* z := idx (p_co p) i in let* z := f z in Ok (setLimb p i z)) = Ok p' -> (plen p' <= plen p)%nat.
Proof.
  intros H. apply bind_ok in H as (z & Hz & H). apply bind_ok in H as (z' & _ & H). injection H as <-. rewrite setLimb_len; [lia|]. unfold idx in Hz. destruct (nth_error (p_co p) i) eqn:E; [|discriminate]. apply nth_error_Some. congruence.
Qed.
Lemma run_half ids q k i js c E v0 v : nth_error E c = Some v0 -> runOnVals (mulHalfP ids q k i js c) (lset E c v) = let* r := mulHalf ids q k i js None v in Ok (tt, lset E c r).
Proof.
  intros H. unfold mulHalfP, mulHalf. apply fold_out. intros w x. cbn [bind]. unfold putLimb. erewrite run_upd; [reflexivity|see|]. intros p p' Hp. now apply setLimb_shr in Hp.
Qed.
Lemma run_constin o k c s E v0 v : nth_error E c = Some v0 ->
  runOnVals (MultByConstInP ce o k (mkHct c s)) (lset E c v) = let* r := MultByConstAt ce o None k (mkCk v s) in Ok (mkHct c (c_scale r), lset E c (c_ct r)).
Proof.
  intros H. unfold MultByConstInP, MultByConstAt. cbn [hc hs c_ct c_scale rd option_map]. rewrite run_bind. erewrite run_level by see. destruct (ctLevel v) as [l|] eqn:El; cbn [bind]; [|reflexivity]. rewrite run_bind. erewrite run_level by see. rewrite El. cbn [bind].
  adv. adv. rewrite run_bind.
  match goal with |- (let* (_, _) := runOnVals (foldP ?f _ _) _ in _) = (let* _ := (let* _ := foldM ?g _ _ in _) in _) => rewrite (fold_out f g) end.
  2:{ intros w x. cbn beta iota. adv. adv. adv. rewrite run_bind. erewrite run_half by eassumption. take. erewrite run_half by eassumption. reflexivity. }
  take. reflexivity.
Qed.
Lemma run_binary o c0 s0 c1 s1 E a b : nth_error E c0 = Some a -> nth_error E c1 = Some b ->
  runOnVals (newBinaryP ce o (mkHct c0 s0) (mkHct c1 s1)) E = let* r := newCiphertextBinary ce o (mkCk a s0) (mkCk b s1) in Ok (mkHct (length E) (c_scale r), lset (E ++ [[]]) (length E) (c_ct r)).
Proof.
  intros Ha Hb. unfold newBinaryP, newCiphertextBinary. cbn [hc hs c_ct c_scale]. adv. adv. adv. adv. adv. rewrite run_bind, run_new. reflexivity.
Qed.
Lemma run_tail (f : nat -> poly -> poly -> poly -> res poly) o level (ids0 ids1 : idset) t0 t1 c s E v0 out u0 u1 : (forall l x y, shrinks (f l x y)) ->
  nth_error E c = Some v0 -> nth_error E t0 = Some u0 -> nth_error E t1 = Some u1 -> t0 <> c -> t1 <> c ->
  runOnVals (let+ a0 := sptrP t0 "0"%string in
    let+ b0 := sptrP t1 "0"%string in
    let+ _ := updP c "0"%string (fun p => f level a0 b0 p) in
    let+ oids := idsetP o c in
    let+ _ := foldP (fun _ id =>
        if negb (idHas ids0 id) then let+ b := sptrP t1 id in updP c id (fun p => CopyValuesLvl rQ level b p)
        else if negb (idHas ids1 id) then let+ a := sptrP t0 id in updP c id (fun p => CopyValuesLvl rQ level a p)
        else let+ a := sptrP t0 id in let+ b := sptrP t1 id in updP c id (fun p => f level a b p))
      (o 2%nat (mkeys oids)) tt in
    Ret (mkHct c s)) (lset E c out) =
  let* out :=
    (let* a0 := sptr u0 "0"%string in
    let* b0 := sptr u1 "0"%string in
    let* out := ctUpd out "0"%string (fun p => f level a0 b0 p) in
    let* oids := ctIDSet o out in
    foldM (fun out id =>
        if negb (idHas ids0 id) then let* b := sptr u1 id in ctUpd out id (fun p => CopyValuesLvl rQ level b p)
        else if negb (idHas ids1 id) then let* a := sptr u0 id in ctUpd out id (fun p => CopyValuesLvl rQ level a p)
        else let* a := sptr u0 id in let* b := sptr u1 id in ctUpd out id (fun p => f level a b p))
      (o 2%nat (mkeys oids)) out) in Ok (mkHct c s, lset E c out).
Proof.
  intros Hf Hc H0 H1 N0 N1. adv. adv. rewrite run_bind. erewrite run_upd; [|see|apply Hf]. take. adv. rewrite run_bind.
  match goal with |- (let* (_, _) := runOnVals (foldP ?f _ _) _ in _) = (let* _ := foldM ?g _ _ in _) => rewrite (fold_out f g) end.
  2:{ intros w x. cbn beta iota. destruct (negb (idHas ids0 x)); [|destruct (negb (idHas ids1 x))].
    - adv. erewrite run_upd; [reflexivity|see|shr].
    - adv. erewrite run_upd; [reflexivity|see|shr].
    - adv. adv. erewrite run_upd; [reflexivity|see|apply Hf]. }
  take. reflexivity.
Qed.
Lemma run_eval f o c0 s0 c1 s1 c s hp q k E p0 v0 pool out a b : (forall l x y, shrinks (f l x y)) ->
  nth_error E hp = Some p0 -> nth_error E c = Some v0 -> hp <> c -> nth_error E c0 = Some a -> nth_error E c1 = Some b -> c0 <> hp -> c0 <> c -> c1 <> hp -> c1 <> c ->
  runOnVals (evaluateInPlaceP ce f o (mkHct c0 s0) (mkHct c1 s1) (mkHct c s) (mkHev hp q k)) (lset (lset E hp pool) c out) =
  let* (r, st) := evaluateInPlace ce f o (mkCk a s0) (mkCk b s1) (mkCk out s) (mkEv pool q k) in Ok (mkHct c (c_scale r), lset (lset E hp (ev_ct st)) c (c_ct r)).
Proof.
  intros Hf Hp Hc Npc Ha Hb N0p N0c N1p N1c. unfold evaluateInPlaceP, evaluateInPlace. cbn [hc hs c_ct c_scale he_ct he_q he_k ev_ct ev_q ev_k set_ct].
  assert (comm : forall x y, lset (lset E hp x) c y = lset (lset E c y) hp x). { intros x y. apply lset_comm; auto; eapply nth_lt; eauto. }
  adv. adv. adv. rewrite run_bind, comm. erewrite run_pad by see. take. rewrite <- comm. adv. adv. adv.
  rewrite run_bind. match goal with |- context [runOnVals (if ?B then DropLevelP o ?x ?n else _) (lset ?F c out)] => set (bb := B); assert (HD : runOnVals (if bb then DropLevelP o x n else Ret x) (lset F c out) =
    let* r := (if bb then DropLevel o (mkCk out s) n else Ok (mkCk out s)) in Ok (mkHct c (c_scale r), lset F c (c_ct r))) end.
  { destruct bb; [|reflexivity]. now erewrite run_drop by see. }
  rewrite HD. clear HD. take. destruct r6 as [out' s']. cbn [c_ct c_scale hc hs].
  rewrite run_bind.
  cbn [set_ct ev_ct ev_q ev_k]. destruct (ratioAbove s1 s0); [|destruct (ratioAbove s0 s1)].
  - rewrite run_bind, comm. erewrite run_const by see. dig. rewrite <- comm. destruct r6 as [pool' sp]. cbn [c_ct c_scale hc hs runOnVals bind]. erewrite run_tail; [|exact Hf|see|see|see|neq|neq]. take. take. take. take. last.
  - rewrite run_bind, comm. erewrite run_const by see. dig. rewrite <- comm. destruct r6 as [pool' sp]. cbn [c_ct c_scale hc hs runOnVals bind]. erewrite run_tail; [|exact Hf|see|see|see|neq|neq]. take. take. take. take. last.
  - cbn [runOnVals bind]. erewrite run_tail; [|exact Hf|see|see|see|neq|neq]. take. take. take. take. last.
Qed.
Lemma eval_keeps f o c0 c1 out st r st' : evaluateInPlace ce f o c0 c1 out st = Ok (r, st') -> ev_q st' = ev_q st /\ ev_k st' = ev_k st.
Proof.
  unfold evaluateInPlace. intros H. do 7 (apply bind_ok in H as (? & _ & H)). apply bind_ok in H as (? & _ & H). apply bind_ok in H as ([[? ?] st1] & H1 & H). do 5 (apply bind_ok in H as (? & _ & H)). injection H as _ <-.
  destruct (ratioAbove _ _); [|destruct (ratioAbove _ _)]; try (apply bind_ok in H1 as (? & _ & H1)); injection H1 as _ _ <-; auto.
Qed.

(** a fresh receiver behind all objects *)
Lemma new_shape (E : list ciphertext) hp p x v : nth_error E hp = Some v -> lset (lset (E ++ [[]]) hp p) (length E) x = lset E hp p ++ [x].
Proof.
  intros H. pose proof (nth_lt _ _ _ H). rewrite lset_app_l by assumption. replace (length E) with (length (lset E hp p)) by (now apply lset_length). apply lset_app_r.
Qed.
Lemma new_shape' (E : list ciphertext) x : lset (E ++ [[]]) (length E) x = E ++ [x].
Proof. apply lset_app_r. Qed.
Lemma run_add o c0 s0 c1 s1 hp q k E a b pool : nth_error E hp = Some pool -> nth_error E c0 = Some a -> nth_error E c1 = Some b -> c0 <> hp -> c1 <> hp ->
  runOnVals (AddNewP ce o (mkHct c0 s0) (mkHct c1 s1) (mkHev hp q k)) E =
  let* (r, st) := AddNew ce o (mkCk a s0) (mkCk b s1) (mkEv pool q k) in Ok (mkHct (length E) (c_scale r), lset E hp (ev_ct st) ++ [c_ct r]).
Proof.
  intros Hp Ha Hb N0 N1. unfold AddNewP, AddNew. rewrite run_bind, (run_binary _ _ _ _ _ _ _ _ Ha Hb). take. destruct r as [out s]. cbn [c_ct c_scale].
  pose proof (old_neq _ _ _ Hp) as Np. pose proof (old_neq _ _ _ Ha) as Na. pose proof (old_neq _ _ _ Hb) as Nb. pose proof (fresh_slot E) as HF. apply (old_slot _ _ _ []) in Hp as Hp'. apply (old_slot _ _ _ []) in Ha. apply (old_slot _ _ _ []) in Hb.
  replace (E ++ [[]]) with (lset (E ++ [[]]) hp pool) at 1 by now apply lset_id. erewrite run_eval; [|intros l x y; shr|see|see|neq|see|see|neq..].
  dig. destruct r as [r st]. now rewrite (new_shape _ _ _ _ _ Hp).
Qed.
Lemma run_sub o c0 s0 c1 s1 hp q k E a b pool : nth_error E hp = Some pool -> nth_error E c0 = Some a -> nth_error E c1 = Some b -> c0 <> hp -> c1 <> hp ->
  runOnVals (SubNewP ce o (mkHct c0 s0) (mkHct c1 s1) (mkHev hp q k)) E =
  let* (r, st) := SubNew ce o (mkCk a s0) (mkCk b s1) (mkEv pool q k) in Ok (mkHct (length E) (c_scale r), lset E hp (ev_ct st) ++ [c_ct r]).
Proof.
  intros Hp Ha Hb N0 N1. unfold SubNewP, SubNew. rewrite run_bind, (run_binary _ _ _ _ _ _ _ _ Ha Hb). take. destruct r as [out s]. cbn [c_ct c_scale].
  pose proof (old_neq _ _ _ Hp) as Np. pose proof (old_neq _ _ _ Ha) as Na. pose proof (old_neq _ _ _ Hb) as Nb. pose proof (fresh_slot E) as HF. apply (old_slot _ _ _ []) in Hp as Hp'. apply (old_slot _ _ _ []) in Ha. apply (old_slot _ _ _ []) in Hb.
  replace (E ++ [[]]) with (lset (E ++ [[]]) hp pool) at 1 by now apply lset_id. rewrite run_bind. erewrite run_eval; [|intros l x y; shr|see|see|neq|see|see|neq..].
  dig. destruct r as [[r s'] st]. cbn [bind c_ct c_scale hc hs]. adv. adv. adv. adv. adv. rewrite run_bind. 
  match goal with |- (let* (_, _) := runOnVals (foldP ?f _ _) _ in _) = (let* _ := (let* _ := foldM ?g _ _ in _) in _) => rewrite (fold_out f g) end.
  2:{ intros w x. cbn beta iota. destruct (negb _); [|reflexivity]. erewrite run_upd; [reflexivity|see|shr]. }
  dig. now rewrite (new_shape _ _ _ _ _ Hp).
Qed.
Lemma add_keeps o c0 c1 st r st' : AddNew ce o c0 c1 st = Ok (r, st') -> ev_q st' = ev_q st /\ ev_k st' = ev_k st.
Proof. unfold AddNew. intros H. apply bind_ok in H as (? & _ & H). now apply eval_keeps in H. Qed.
Lemma sub_keeps o c0 c1 st r st' : SubNew ce o c0 c1 st = Ok (r, st') -> ev_q st' = ev_q st /\ ev_k st' = ev_k st.
Proof.
  unfold SubNew. intros H. apply bind_ok in H as (? & _ & H). apply bind_ok in H as ([? st1] & H1 & H). apply eval_keeps in H1. do 6 (apply bind_ok in H as (? & _ & H)). now injection H as _ <-.
Qed.

(** Rescale into a distinct receiver, and on the receiver itself *)
Definition hevOf (hp : addr) (st : evst) : hev := mkHev hp (ev_q st) (ev_k st).
Lemma run_rescale o c0 s0 thr c s hp q k E v0 v a pool : nth_error E c = Some v0 -> nth_error E c0 = Some a -> c0 <> c ->
  runOnVals (RescaleP ce o (mkHct c0 s0) thr (mkHct c s) (mkHev hp q k)) (lset E c v) =
  let* (e, r, st) := Rescale ce o (mkCk a s0) thr (mkCk v s) (mkEv pool q k) in Ok ((e, mkHct c (c_scale r), hevOf hp st), lset E c (c_ct r)).
Proof.
  intros Hc Ha N. unfold RescaleP, Rescale. cbn [hc hs c_ct c_scale he_ct he_q he_k ev_ct ev_q ev_k].
  destruct (fleb thr f0); [reflexivity|]. destruct (feqb s0 f0); [reflexivity|]. adv. destruct (r =? 0)%nat; [reflexivity|]. adv. destruct (r2 =? 0)%nat; [reflexivity|]. adv.
  rewrite run_bind.
  match goal with |- (let* (_, _) := runOnVals (foldP ?f _ _) _ in _) = (let* _ := (let* _ := foldM ?g _ _ in _) in _) => rewrite (fold_both f g) end.
  2:{ intros w t x. cbn beta iota. adv. rewrite run_bind. erewrite run_sptr by see. unfold mptr. destruct (sget w x) as [p|] eqn:Ep; cbn [bind]; [|reflexivity]. rewrite run_bind, run_lift.
    destruct (DivRoundByLastModulusManyLvl _ _ _ _ _ _) as [[q' p']|] eqn:ED; cbn [bind]; [|reflexivity]. rewrite run_bind, run_lift. destruct (pTrunc _ _) as [p''|] eqn:ET; cbn [bind]; [|reflexivity].
    erewrite run_write; [reflexivity|see|exact Ep|]. apply div_len in ED. apply trunc_len in ET. lia. }
  dig. destruct r0. reflexivity.
Qed.
Lemma run_rescaleAt o thr c s hp q k E v0 v pool : nth_error E c = Some v0 ->
  runOnVals (RescaleP ce o (mkHct c s) thr (mkHct c s) (mkHev hp q k)) (lset E c v) =
  let* (e, r, st) := RescaleAt ce o None thr (mkCk v s) (mkEv pool q k) in Ok ((e, mkHct c (c_scale r), hevOf hp st), lset E c (c_ct r)).
Proof.
  intros Hc. unfold RescaleP, RescaleAt. cbn [hc hs c_ct c_scale he_ct he_q he_k ev_ct ev_q ev_k rd option_map].
  destruct (fleb thr f0); [reflexivity|]. destruct (feqb s f0); [reflexivity|]. adv. destruct (r =? 0)%nat; [reflexivity|]. adv. destruct (r2 =? 0)%nat; [reflexivity|]. adv.
  rewrite run_bind.
  match goal with |- (let* (_, _) := runOnVals (foldP ?f _ _) _ in _) = (let* _ := (let* _ := foldM ?g _ _ in _) in _) => rewrite (fold_both f g) end.
  2:{ intros w t x. cbn beta iota. rewrite run_bind. erewrite run_sptr by see. unfold mptr. destruct (sget w x) as [p|] eqn:Ep; cbn [bind]; [|reflexivity]. rewrite run_bind. erewrite run_sptr by see. unfold mptr. rewrite Ep. cbn [bind]. rewrite run_bind, run_lift.
    destruct (DivRoundByLastModulusManyLvl _ _ _ _ _ _) as [[q' p']|] eqn:ED; cbn [bind]; [|reflexivity]. rewrite run_bind, run_lift. destruct (pTrunc _ _) as [p''|] eqn:ET; cbn [bind]; [|reflexivity].
    erewrite run_write; [reflexivity|see|exact Ep|]. apply div_len in ED. apply trunc_len in ET. lia. }
  dig. destruct r0. reflexivity.
Qed.
Lemma rescale_pool o a thr b st e r st' : Rescale ce o a thr b st = Ok (e, r, st') -> ev_ct st' = ev_ct st.
Proof.
  unfold Rescale. destruct (fleb thr f0); [intros H; now injection H as _ _ <-|]. destruct (feqb _ f0); [intros H; now injection H as _ _ <-|]. intros H. apply bind_ok in H as (l & _ & H). destruct (l =? 0)%nat; [now injection H as _ _ <-|].
  apply bind_ok in H as ([sc nb] & _ & H). destruct (nb =? 0)%nat; [now injection H as _ _ <-|]. apply bind_ok in H as ([x y] & _ & H). now injection H as _ _ <-.
Qed.
Lemma rescaleAt_pool o src thr b st e r st' : RescaleAt ce o src thr b st = Ok (e, r, st') -> ev_ct st' = ev_ct st.
Proof.
  unfold RescaleAt. destruct (fleb thr f0); [intros H; now injection H as _ _ <-|]. destruct (feqb _ f0); [intros H; now injection H as _ _ <-|]. intros H. apply bind_ok in H as (l & _ & H). destruct (l =? 0)%nat; [now injection H as _ _ <-|].
  apply bind_ok in H as ([sc nb] & _ & H). destruct (nb =? 0)%nat; [now injection H as _ _ <-|]. apply bind_ok in H as ([x y] & _ & H). now injection H as _ _ <-.
Qed.
Lemma run_rescale_self o thr c s hp q k E v0 v pool : order_ok o -> nth_error E c = Some v0 -> NoDup (mkeys v) ->
  runOnVals (RescaleP ce o (mkHct c s) thr (mkHct c s) (mkHev hp q k)) (lset E c v) =
  let* (e, r, st) := Rescale ce o (mkCk v s) thr (mkCk v s) (mkEv pool q k) in Ok ((e, mkHct c (c_scale r), hevOf hp st), lset E c (c_ct r)).
Proof. intros Ho Hc N. rewrite <- rescale_self by assumption. eapply run_rescaleAt; eauto. Qed.

Lemma run_rescaleNew o c0 s0 thr hp q k E a pool : nth_error E c0 = Some a ->
  runOnVals (RescaleNewP ce o (mkHct c0 s0) thr (mkHev hp q k)) E =
  let* (e, r, st) := RescaleNew ce o (mkCk a s0) thr (mkEv pool q k) in Ok ((e, mkHct (length E) (c_scale r), hevOf hp st), E ++ [c_ct r]).
Proof.
  intros Ha. pose proof (old_neq _ _ _ Ha) as Na. pose proof (fresh_slot E) as HF. unfold RescaleNewP, RescaleNew. cbn [hc hs c_ct c_scale]. adv. adv. rewrite run_bind, run_new. cbn [bind]. apply (old_slot _ _ _ []) in Ha.
  erewrite run_rescale with (pool := pool); [|see|see|neq]. unfold ckNewCiphertext. cbn [cp_pp]. dig. destruct r1 as [[e r1] st]. now rewrite new_shape'.
Qed.
Lemma rescaleNew_pool o a thr st e r st' : RescaleNew ce o a thr st = Ok (e, r, st') -> ev_ct st' = ev_ct st.
Proof. unfold RescaleNew. intros H. apply bind_ok in H as (? & _ & H). apply bind_ok in H as (? & _ & H). eapply rescale_pool; eauto. Qed.

Lemma nodups_at (E : list ciphertext) c v0 v : nth_error E c = Some v0 -> nodups (lset E c v) -> NoDup (mkeys v).
Proof. intros H N. apply (N c). eapply sees_same; eauto. Qed.
Lemma run_mrh o c0 s0 c1 s1 h0 h1 rlks c s hp q k E v0 v a b pool : order_ok o -> nodups (lset E c v) -> nth_error E c = Some v0 -> nth_error E c0 = Some a -> nth_error E c1 = Some b -> c0 <> c -> c1 <> c ->
  runOnVals (mulRelinHoistedP ce o (mkHct c0 s0) (mkHct c1 s1) h0 h1 rlks (mkHct c s) (mkHev hp q k)) (lset E c v) =
  let* (r, st) := mulRelinHoisted ce o (mkCk a s0) (mkCk b s1) h0 h1 rlks (mkCk v s) (mkEv pool q k) in Ok ((mkHct c (c_scale r), hevOf hp st), lset E c (c_ct r)).
Proof.
  intros Ho ND Hc Ha Hb N0 N1. unfold mulRelinHoistedP, mulRelinHoisted. cbn [hc hs c_ct c_scale he_ct he_q he_k ev_ct ev_q ev_k]. adv. adv. adv. rewrite run_bind.
  match goal with |- context [runOnVals (if ?B then DropLevelP o ?x ?n else _) (lset ?F c v)] => set (bb := B); set (D := if bb then DropLevelP o x n else Ret x); assert (HD : runOnVals D (lset F c v) =
    let* r := (if bb then DropLevel o (mkCk v s) n else Ok (mkCk v s)) in Ok (mkHct c (c_scale r), lset F c (c_ct r))) end.
  { unfold D. destruct bb; [|reflexivity]. now erewrite run_drop by see. }
  rewrite HD. destruct (if bb then DropLevel _ _ _ else _) as [[v' s']|]; cbn [bind]; [|reflexivity]. cbn [bind c_ct c_scale] in HD. apply run_nodups in HD as [ND' _]; [|exact ND]. cbn [c_ct c_scale hc hs]. rewrite run_bind.
  match goal with |- context [runOnVals ?M (lset E c v')] => set (MP := M) end.
  assert (HM : runOnVals MP (lset E c v') = let* (v', k') := MulAndRelinHoisted env o a b h0 h1 rlks v' k in Ok (k', lset E c v')) by (apply (run_mul env) with (v0 := v0); assumption).
  rewrite HM. destruct (MulAndRelinHoisted _ _ _ _ _ _ _ _ _) as [[w k']|]; cbn [bind]; [|reflexivity]. cbn [bind] in HM. apply run_nodups in HM as [ND'' _]; [|exact ND'].
  rewrite run_bind. unfold hset_k. cbn [he_ct he_q he_k]. erewrite run_rescale_self with (pool := pool); [|exact Ho|exact Hc|exact (nodups_at _ _ _ _ Hc ND'')]. unfold set_k. cbn [ev_ct ev_q ev_k]. dig. destruct r2 as [[e r2] st]. reflexivity.
Qed.
Lemma mrh_pool o a b h0 h1 rlks c st r st' : mulRelinHoisted ce o a b h0 h1 rlks c st = Ok (r, st') -> ev_ct st' = ev_ct st.
Proof.
  unfold mulRelinHoisted. intros H. do 4 (apply bind_ok in H as (? & _ & H)). apply bind_ok in H as ([? ?] & _ & H). apply bind_ok in H as ([[? ?] ?] & H1 & H). injection H as _ <-. apply rescale_pool in H1. now rewrite H1.
Qed.
Lemma run_mrhNew o c0 s0 c1 s1 h0 h1 rlks hp q k E a b pool : order_ok o -> nodups E -> nth_error E c0 = Some a -> nth_error E c1 = Some b ->
  runOnVals (MulRelinHoistedNewP ce o (mkHct c0 s0) (mkHct c1 s1) h0 h1 rlks (mkHev hp q k)) E =
  let* (r, st) := MulRelinHoistedNew ce o (mkCk a s0) (mkCk b s1) h0 h1 rlks (mkEv pool q k) in Ok ((mkHct (length E) (c_scale r), hevOf hp st), E ++ [c_ct r]).
Proof.
  intros Ho ND Ha Hb. unfold MulRelinHoistedNewP, MulRelinHoistedNew. rewrite run_bind. pose proof (run_binary o c0 s0 c1 s1 E a b Ha Hb) as HB. rewrite HB. destruct (newCiphertextBinary _ _ _ _) as [[out s]|]; cbn [bind]; [|reflexivity]. cbn [bind c_ct c_scale hc hs] in *. apply run_nodups in HB as [ND' _]; [|exact ND].
  pose proof (old_neq _ _ _ Ha) as Na. pose proof (old_neq _ _ _ Hb) as Nb. pose proof (fresh_slot E) as HF. apply (old_slot _ _ _ []) in Ha. apply (old_slot _ _ _ []) in Hb.
  erewrite run_mrh with (pool := pool) by eassumption. dig. destruct r as [r st]. now rewrite new_shape'.
Qed.
Lemma mrhNew_pool o a b h0 h1 rlks st r st' : MulRelinHoistedNew ce o a b h0 h1 rlks st = Ok (r, st') -> ev_ct st' = ev_ct st.
Proof. unfold MulRelinHoistedNew. intros H. apply bind_ok in H as (? & _ & H). eapply mrh_pool; eauto. Qed.

(** loops that only read objects *)
Lemma fold_state {S T X} (phi : T -> S) (f : S -> X -> prog S) (g : T -> X -> res T) E : (forall t x, runOnVals (f (phi t) x) E = let* t' := g t x in Ok (phi t', E)) ->
  forall l t, runOnVals (foldP f l (phi t)) E = let* t' := foldM g l t in Ok (phi t', E).
Proof. intros H. induction l as [|x l IH]; intros t; cbn [foldP foldM runOnVals]; [reflexivity|]. rewrite run_bind, H. destruct (g t x); cbn [bind]; auto. Qed.
Lemma fold_inv {S X} (P : S -> Prop) (f : S -> X -> res S) : (forall s x s', P s -> f s x = Ok s' -> P s') -> forall l s s', P s -> foldM f l s = Ok s' -> P s'.
Proof. intros H. induction l as [|x l IH]; intros s s' Hs E; cbn [foldM] in E; [now injection E as <-|]. apply bind_ok in E as (s1 & E1 & E). eapply IH; [|exact E]. eapply H; eauto. Qed.
Definition hphi (hp : addr) (t : hoisted * evst) : hoisted * hev := (fst t, hevOf hp (snd t)).
Lemma run_hoistInto o c0 s0 h hp st E a : nth_error E c0 = Some a ->
  runOnVals (hoistIntoP ce o (mkHct c0 s0) h (hevOf hp st)) E = let* t := hoistInto ce o (mkCk a s0) h st in Ok (hphi hp t, E).
Proof.
  intros Ha. unfold hoistIntoP, hoistInto. cbn [hc hs c_ct c_scale]. change (h, hevOf hp st) with (hphi hp (h, st)). apply fold_state. intros [h' st'] x. unfold hphi at 1. cbn [fst snd hevOf he_k].
  adv. adv. adv. adv. reflexivity.
Qed.
Lemma hoistInto_pool o a h st h' st' : hoistInto ce o a h st = Ok (h', st') -> ev_ct st' = ev_ct st.
Proof.
  unfold hoistInto. intros H. apply (fold_inv (fun t => ev_ct (snd t) = ev_ct st)) in H; [exact H| |reflexivity]. intros [h1 s1] x [h2 s2] H1 H2. apply bind_ok in H2 as (? & _ & H2). apply bind_ok in H2 as (? & _ & H2). apply bind_ok in H2 as (? & _ & H2). apply bind_ok in H2 as ([? ?] & _ & H2). injection H2 as _ <-. exact H1.
Qed.
Lemma run_hoisted o c0 s0 hp st E a : nth_error E c0 = Some a ->
  runOnVals (HoistedFormP ce o (mkHct c0 s0) (hevOf hp st)) E = let* t := HoistedForm ce o (mkCk a s0) st in Ok (hphi hp t, E).
Proof.
  intros Ha. unfold HoistedFormP, HoistedForm. cbn [hc hs c_ct c_scale]. adv. change ([], hevOf hp st) with (hphi hp ([], st)). apply fold_state. intros [h' st'] x. unfold hphi at 1. cbn [fst snd hevOf he_k].
  adv. adv. adv. reflexivity.
Qed.
Lemma hoisted_pool o a st h' st' : HoistedForm ce o a st = Ok (h', st') -> ev_ct st' = ev_ct st.
Proof.
  unfold HoistedForm. intros H. apply bind_ok in H as (? & _ & H). apply (fold_inv (fun t => ev_ct (snd t) = ev_ct st)) in H; [exact H| |reflexivity]. intros [h1 s1] y [h2 s2] H1 H2. apply bind_ok in H2 as (? & _ & H2). apply bind_ok in H2 as (? & _ & H2). apply bind_ok in H2 as ([? ?] & _ & H2). injection H2 as _ <-. exact H1.
Qed.
Lemma run_mulRelin o c0 s0 c1 s1 rs hp st E a b : order_ok o -> nodups E -> nth_error E c0 = Some a -> nth_error E c1 = Some b ->
  runOnVals (MulRelinNewP ce o (mkHct c0 s0) (mkHct c1 s1) rs (hevOf hp st)) E =
  let* (r, rs', st') := MulRelinNew ce o (c0 =? c1)%nat (mkCk a s0) (mkCk b s1) rs st in Ok ((mkHct (length E) (c_scale r), rs', hevOf hp st'), E ++ [c_ct r]).
Proof.
  intros Ho ND Ha Hb. unfold MulRelinNewP, MulRelinNew. cbn [hc hs c_ct c_scale]. destruct (c0 =? c1)%nat.
  - adv. rewrite run_bind. erewrite run_hoistInto by eassumption. dig. destruct r0 as [h0 st0]. unfold hphi, hevOf. cbn [fst snd bind]. rewrite run_bind. destruct st0 as [x1 x2 x3]. cbn [ev_ct ev_q ev_k]. erewrite run_mrhNew with (pool := x1) by eassumption. dig. destruct r0 as [r0 st1]. reflexivity.
  - adv. adv. rewrite run_bind. erewrite run_hoistInto by eassumption. dig. destruct r1 as [h0 st0]. unfold hphi. cbn [fst snd bind]. rewrite run_bind. erewrite run_hoistInto by eassumption. dig. destruct r1 as [h1 st1]. unfold hphi, hevOf. cbn [fst snd bind]. rewrite run_bind. destruct st1 as [x1 x2 x3]. cbn [ev_ct ev_q ev_k]. erewrite run_mrhNew with (pool := x1) by eassumption. dig. destruct r1 as [r1 st1]. reflexivity.
Qed.
Lemma mulRelin_pool o sm a b rs st r rs' st' : MulRelinNew ce o sm a b rs st = Ok (r, rs', st') -> ev_ct st' = ev_ct st.
Proof.
  unfold MulRelinNew. destruct sm; intros H.
  - apply bind_ok in H as (? & _ & H). apply bind_ok in H as ([? ?] & H1 & H). apply bind_ok in H as ([? ?] & H2 & H). injection H as _ _ <-. apply hoistInto_pool in H1. apply mrhNew_pool in H2. congruence.
  - apply bind_ok in H as (? & _ & H). apply bind_ok in H as (? & _ & H). apply bind_ok in H as ([? ?] & H1 & H). apply bind_ok in H as ([? ?] & H3 & H). apply bind_ok in H as ([? ?] & H2 & H). injection H as _ _ <-. apply hoistInto_pool in H1. apply hoistInto_pool in H3. apply mrhNew_pool in H2. congruence.
Qed.

Lemma run_mulPt o c0 s0 pt ps hp q k E a pool : order_ok o -> nodups E -> nth_error E c0 = Some a ->
  runOnVals (MulPtxtNewP ce o (mkHct c0 s0) pt ps (mkHev hp q k)) E =
  let* (r, st) := MulPtxtNew ce o (mkCk a s0) pt ps (mkEv pool q k) in Ok ((mkHct (length E) (c_scale r), hevOf hp st), E ++ [c_ct r]).
Proof.
  intros Ho ND Ha. pose proof (old_neq _ _ _ Ha) as Na. pose proof (fresh_slot E) as HF. unfold MulPtxtNewP, MulPtxtNew, ckNewCiphertext. cbn [hc hs c_ct c_scale he_ct he_q he_k ev_ct ev_q ev_k cp_pp]. adv. adv.
  rewrite run_bind. pose proof (run_new o pp r r0 E) as HN. rewrite HN. cbn [bind]. apply run_nodups in HN as [ND1 _]; [|exact ND]. apply (old_slot _ _ _ []) in Ha. adv. adv. adv. rewrite run_bind.
  match goal with |- (let* (_, _) := runOnVals ?M _ in _) = _ => set (FP := M) end.
  match goal with |- _ = (let* _ := (let* _ := foldM ?g ?l _ in _) in _) => assert (HM : runOnVals FP (lset (E ++ [[]]) (length E) (NewCiphertext o pp r r0)) = let* v' := foldM g l (NewCiphertext o pp r r0) in Ok (tt, lset (E ++ [[]]) (length E) v')) end.
  { apply fold_out. intros w x. adv. erewrite run_upd; [reflexivity|see|]. intros p p' H. apply bind_ok in H as (p1 & H1 & H). apply bind_ok in H as (p2 & H2 & H). apply lvl1_len in H1. apply lvl2_len in H2. apply lvl1_len in H. lia. }
  rewrite HM. destruct (foldM _ _ _) as [w|]; cbn [bind]; [|reflexivity]. cbn [bind] in HM. apply run_nodups in HM as [ND2 _]; [|exact ND1].
  rewrite run_bind. unfold hset_q. cbn [he_ct he_q he_k]. erewrite run_rescale_self with (pool := pool); [|exact Ho|exact HF|exact (nodups_at _ _ _ _ HF ND2)]. unfold set_q. cbn [ev_ct ev_q ev_k]. dig. destruct r3 as [[e r3] st]. now rewrite new_shape'.
Qed.
Lemma mulPt_pool o a pt ps st r st' : MulPtxtNew ce o a pt ps st = Ok (r, st') -> ev_ct st' = ev_ct st.
Proof. unfold MulPtxtNew. intros H. do 5 (apply bind_ok in H as (? & _ & H)). apply bind_ok in H as ([[? ?] ?] & H1 & H). injection H as _ <-. apply rescale_pool in H1. now rewrite H1. Qed.

Lemma run_rotBits o rks tmp out E t0 v0 : nth_error E tmp = Some t0 -> nth_error E out = Some v0 -> tmp <> out -> forall p i t v k,
  match rotBits ce o p i rks t v k with
  | Panic e => runOnVals (rotBitsP ce o p i rks tmp out k) (lset (lset E tmp t) out v) = Panic e
  | Ok (v', k') => exists t', runOnVals (rotBitsP ce o p i rks tmp out k) (lset (lset E tmp t) out v) = Ok (k', lset (lset E tmp t') out v')
  end.
Proof.
  intros Ht Hv N. assert (comm : forall x y, lset (lset E tmp x) out y = lset (lset E out y) tmp x). { intros x y. apply lset_comm; auto; eapply nth_lt; eauto. }
  induction p as [p IH|p IH|]; intros i t v k; cbn [rotBits rotBitsP].
  - unfold Rotate. rewrite run_bind. erewrite run_rotate; [|see|see|neq]. destruct (RotateGen _ _ _ _ _ _ _ _) as [[v1 k1]|]; cbn [bind]; [|reflexivity].
    rewrite run_bind, comm. erewrite run_copy; [|see|see|neq]. destruct (ctCopy _ _ _) as [t1|]; cbn [bind]; [|reflexivity]. rewrite <- comm. apply IH.
  - apply IH.
  - unfold Rotate. rewrite run_bind. erewrite run_rotate; [|see|see|neq]. destruct (RotateGen _ _ _ _ _ _ _ _) as [[v1 k1]|]; cbn [bind]; [|reflexivity].
    rewrite run_bind, comm. erewrite run_copy; [|see|see|neq]. destruct (ctCopy _ _ _) as [t1|]; cbn [bind]; [|reflexivity]. exists t1. now rewrite comm.
Qed.
Definition result (hp : addr) (E : list ciphertext) (m : res (ckct * evst)) (n : res (hct * hev * list ciphertext)) : Prop :=
  match m with
  | Panic e => n = Panic e
  | Ok (r, st) => exists rest, n = Ok ((mkHct (length E) (c_scale r), hevOf hp st), E ++ c_ct r :: rest)
  end.
Lemma run_rotNew o c0 s0 r rks hp q k E a pool : nodups E -> nth_error E c0 = Some a ->
  result hp E (RotateNew ce o (mkCk a s0) r rks (mkEv pool q k)) (runOnVals (RotateNewP ce o (mkHct c0 s0) r rks (mkHev hp q k)) E).
Proof.
  intros ND Ha. pose proof (ND _ _ Ha) as NDa. pose proof (old_neq _ _ _ Ha) as Na. pose proof (fresh_slot E) as HF. apply (old_slot _ _ _ []) in Ha as Ha'. unfold RotateNewP, RotateNew. cbn [hc hs c_ct c_scale he_ct he_q he_k ev_ct ev_q ev_k].
  rewrite run_bind. erewrite run_idset by eassumption. destruct (ctIDSet o a) as [ids|]; cbn [bind]; [|reflexivity]. rewrite run_bind. erewrite run_level by eassumption. destruct (ctLevel a) as [l|]; cbn [bind]; [|reflexivity]. rewrite run_bind, run_new. cbn [bind].
  set (V := NewCiphertext o pp ids l). assert (Hcopy : result hp E (let* c := ctCopy o V a in Ok (mkCk c s0, mkEv pool q k)) (runOnVals (let+ _ := ctCopyP o (length E) c0 in Ret (mkHct (length E) s0, mkHev hp q k)) (lset (E ++ [[]]) (length E) V))).
  { rewrite run_bind. erewrite run_copy; [|exact HF|exact Ha'|exact Na]. destruct (ctCopy o V a) as [w|]; cbn [bind]; [|reflexivity]. exists []. cbn [runOnVals]. now rewrite new_shape'. }
  destruct (normRot ce r) as [|p|p]; [exact Hcopy| |exact Hcopy]. clear Hcopy. destruct (mhas Z.eqb (pa_CRS pp) (Z.pos p)).
  - unfold Rotate. rewrite run_bind. erewrite run_rotate; [|exact HF|exact Ha'|exact Na]. destruct (RotateGen _ _ _ _ _ _ _ _) as [[v1 k1]|]; cbn [bind]; [|reflexivity]. exists []. cbn [runOnVals]. now rewrite new_shape'.
  - rewrite run_bind. erewrite run_ckcopy; [|see|exact NDa]. destruct (ckCopyNew (mkCk a s0)) as [[t s]|]; cbn [bind]; [|reflexivity]. cbn [hc c_ct c_scale]. rewrite run_bind.
    set (F := lset (E ++ [[]]) (length E) V). pose (n := length F). assert (Ln : (length E < n)%nat). { unfold n, F. rewrite new_shape', app_length. cbn. lia. }
    assert (HV : nth_error (F ++ [[]]) (length E) = Some V). { rewrite nth_error_app1 by exact Ln. unfold F. apply sees_same with (v0 := []). exact HF. }
    match goal with |- context [runOnVals (rotBitsP _ _ _ _ _ ?m _ _) ?S] => replace S with (lset (lset (F ++ [[]]) n t) (length E) V); [change m with n|] end.
    2:{ apply lset_id. pose proof (fresh_slot F). fold n in H. eapply sees_other; [exact H|first [exact (Nat.lt_neq _ _ Ln)|exact (not_eq_sym (Nat.lt_neq _ _ Ln))]|exact HV]. }
    pose proof (run_rotBits o rks n (length E) (F ++ [[]]) [] V) as X. specialize (X (fresh_slot F)). 
    specialize (X HV ltac:(lia) p 1%Z t V k). destruct (rotBits _ _ _ _ _ _ _ _) as [[v' k']|]; [|cbn [bind result]; match goal with |- bind ?Y _ = _ => change (Y = Panic p0) in X; rewrite X; reflexivity end]. destruct X as [t' X]. match type of X with _ = ?Z => match goal with |- result _ _ _ (bind ?Y _) => change (Y = Z) in X; rewrite X end end. cbn [bind]. exists [t']. cbn [runOnVals]. f_equal. f_equal. cbn [c_ct].
    unfold n. rewrite new_shape'. rewrite lset_app_l by (fold n; lia). unfold F. rewrite new_shape'. rewrite lset_app_r. now rewrite <- app_assoc.
Qed.
Lemma rotNew_pool o a r rks st x st' : RotateNew ce o a r rks st = Ok (x, st') -> ev_ct st' = ev_ct st.
Proof.
  unfold RotateNew. intros H. apply bind_ok in H as (? & _ & H). apply bind_ok in H as (? & _ & H). destruct (normRot ce r) as [|p|p]; [apply bind_ok in H as (? & _ & H); now injection H as _ <-| |apply bind_ok in H as (? & _ & H); now injection H as _ <-].
  destruct (mhas _ _ _); [|apply bind_ok in H as (? & _ & H)]; apply bind_ok in H as ([? ?] & _ & H); now injection H as _ <-.
Qed.
Lemma run_rotHoisted o c0 s0 r h rks hp q k E a pool : nth_error E c0 = Some a ->
  runOnVals (RotateHoistedNewP ce o (mkHct c0 s0) r h rks (mkHev hp q k)) E =
  let* (x, st) := RotateHoistedNew ce o (mkCk a s0) r h rks (mkEv pool q k) in Ok ((mkHct (length E) (c_scale x), hevOf hp st), E ++ [c_ct x]).
Proof.
  intros Ha. pose proof (old_neq _ _ _ Ha) as Na. pose proof (fresh_slot E) as HF. unfold RotateHoistedNewP, RotateHoistedNew. cbn [hc hs c_ct c_scale he_ct he_q he_k ev_ct ev_q ev_k]. adv. adv. rewrite run_bind, run_new. cbn [bind]. apply (old_slot _ _ _ []) in Ha.
  destruct (_ =? 0)%Z; [|destruct (mhas _ _ _)].
  - rewrite run_bind. erewrite run_copy; [|exact HF|exact Ha|exact Na]. dig. now rewrite new_shape'.
  - unfold RotateHoisted. rewrite run_bind. erewrite run_rotate; [|exact HF|exact Ha|exact Na]. dig. destruct r2 as [w k']. cbn [bind]. now rewrite new_shape'.
  - reflexivity.
Qed.
Lemma rotHoisted_pool o a r h rks st x st' : RotateHoistedNew ce o a r h rks st = Ok (x, st') -> ev_ct st' = ev_ct st.
Proof.
  unfold RotateHoistedNew. intros H. apply bind_ok in H as (? & _ & H). apply bind_ok in H as (? & _ & H). destruct (_ =? 0)%Z; [apply bind_ok in H as (? & _ & H); now injection H as _ <-|].
  destruct (mhas _ _ _); [|discriminate]. apply bind_ok in H as ([? ?] & _ & H); now injection H as _ <-.
Qed.
Lemma run_conjNew o c0 s0 cks hp q k E a pool : nth_error E c0 = Some a ->
  runOnVals (ConjugateNewP ce o (mkHct c0 s0) cks (mkHev hp q k)) E =
  let* (x, st) := ConjugateNew ce o (mkCk a s0) cks (mkEv pool q k) in Ok ((mkHct (length E) (c_scale x), hevOf hp st), E ++ [c_ct x]).
Proof.
  intros Ha. pose proof (old_neq _ _ _ Ha) as Na. pose proof (fresh_slot E) as HF. unfold ConjugateNewP, ConjugateNew. cbn [hc hs c_ct c_scale he_ct he_q he_k ev_ct ev_q ev_k]. adv. adv. rewrite run_bind, run_new. cbn [bind]. apply (old_slot _ _ _ []) in Ha.
  rewrite run_bind. erewrite run_conjugate; [|exact HF|exact Ha|exact Na]. dig. destruct r1 as [w k']. cbn [bind]. now rewrite new_shape'.
Qed.
Lemma conjNew_pool o a cks st x st' : ConjugateNew ce o a cks st = Ok (x, st') -> ev_ct st' = ev_ct st.
Proof. unfold ConjugateNew. intros H. apply bind_ok in H as (? & _ & H). apply bind_ok in H as (? & _ & H). apply bind_ok in H as ([? ?] & _ & H); now injection H as _ <-. Qed.
Lemma run_dropNew o c0 s0 n E a : nodups E -> nth_error E c0 = Some a ->
  runOnVals (DropLevelNewP o (mkHct c0 s0) n) E = let* x := DropLevelNew o (mkCk a s0) n in Ok (mkHct (length E) (c_scale x), E ++ [c_ct x]).
Proof.
  intros ND Ha. pose proof (ND _ _ Ha) as NDa. pose proof (fresh_slot E) as HF. unfold DropLevelNewP, DropLevelNew. rewrite run_bind. erewrite run_ckcopy by eassumption. dig. destruct r as [t s]. cbn [c_ct c_scale].
  erewrite run_drop by eassumption. dig. now rewrite new_shape'.
Qed.
Lemma run_constNew {X} (y : X) o c0 s0 k E a : nodups E -> nth_error E c0 = Some a ->
  runOnVals (let+ out := ckCopyNewP (mkHct c0 s0) in let+ ct := MultByConstP ce o (mkHct c0 s0) k out in Ret (ct, y)) E =
  let* out := ckCopyNew (mkCk a s0) in let* x := MultByConst ce o (mkCk a s0) k out in Ok ((mkHct (length E) (c_scale x), y), E ++ [c_ct x]).
Proof.
  intros ND Ha. pose proof (ND _ _ Ha) as NDa. pose proof (fresh_slot E) as HF. pose proof (old_neq _ _ _ Ha) as Na. rewrite run_bind. erewrite run_ckcopy by eassumption. dig. destruct r as [t s]. cbn [c_ct c_scale]. apply (old_slot _ _ _ []) in Ha.
  rewrite run_bind. erewrite run_const; [|exact HF|exact Ha|exact Na]. dig. now rewrite new_shape'.
Qed.
End Ev.
