(** The programs of HeapEv.v, run on values, compute the functions of the value model. *)
From Coq Require Import String ZArith List Lia Bool Permutation.
From Verif Require Import Go GoProofs Lattigo Arith BasisExt NTT RingOps RingOpsProofs Maps MapsProofs F64 Params Elements KeySwitch KeySets KeyGen EncDec Utils Evaluator Alias AliasProofs AliasConst Circuit Heap SpecHeap HeapProofs HeapEv SpecHeapEv HeapEvSim.
Import ListNotations.
Local Open Scope list_scope.

(** ** running *)
Lemma run_bind {A B} (P : prog A) (Q : A -> prog B) : forall E, runOnVals (bindP P Q) E = let* (a, E') := runOnVals P E in runOnVals (Q a) E'.
Proof.
  induction P as [a|e|c id k IH|c id p k IH|c k IH|k IH|c id p k IH]; intros E; cbn [bindP runOnVals bind]; auto; try (destruct (deref E c) as [v|]; cbn [bind]; [|reflexivity]); auto.
  - destruct (sptr v id); cbn [bind]; auto.
  - destruct (sptr v id); cbn [bind]; auto. destruct (plen _ <? plen _)%nat; auto.
Qed.
Lemma run_lift {A} (m : res A) E : runOnVals (lift m) E = let* a := m in Ok (a, E).
Proof. now destruct m. Qed.
Lemma run_sptr c id E v : nth_error E c = Some v -> runOnVals (sptrP c id) E = let* p := sptr v id in Ok (p, E).
Proof. intros H. cbn. unfold deref. now rewrite H. Qed.
Lemma run_keys c E v : nth_error E c = Some v -> runOnVals (keysP c) E = let* ks := Ok (mkeys v) in Ok (ks, E).
Proof. intros H. cbn. unfold deref. now rewrite H. Qed.
Lemma run_level c E v : nth_error E c = Some v -> runOnVals (levelP c) E = let* l := ctLevel v in Ok (l, E).
Proof. intros H. unfold levelP, ctLevel. rewrite run_bind, (run_sptr _ _ _ _ H). destruct (sptr v _) as [p|]; cbn [bind]; [|reflexivity]. now destruct (plen p). Qed.
Lemma run_idset o c E v : nth_error E c = Some v -> runOnVals (idsetP o c) E = let* l := ctIDSet o v in Ok (l, E).
Proof. intros H. unfold idsetP, ctIDSet. rewrite run_bind, (run_keys _ _ _ H). cbn [bind]. now rewrite run_lift. Qed.

Lemma lset_id {A} (l : list A) k x : nth_error l k = Some x -> lset l k x = l.
Proof. revert k. induction l as [|y l IH]; intros [|k] H; cbn in *; try discriminate; [congruence|]. unfold lset in *. cbn. f_equal. now apply IH. Qed.
Lemma lset_comm {A} (l : list A) i j x y : (i < length l)%nat -> (j < length l)%nat -> i <> j -> lset (lset l i x) j y = lset (lset l j y) i x.
Proof.
  revert i j. induction l as [|z l IH]; intros [|i] [|j] Hi Hj Hn; cbn in *; try lia; unfold lset in *; cbn in *; auto; try congruence. f_equal. apply IH; lia.
Qed.
Lemma sees_same {A} (E : list A) k v0 v : nth_error E k = Some v0 -> nth_error (lset E k v) k = Some v.
Proof. intros H. apply lset_same. eapply nth_lt; eauto. Qed.
Lemma sees_other {A} (E : list A) k v0 v i w : nth_error E k = Some v0 -> i <> k -> nth_error E i = Some w -> nth_error (lset E k v) i = Some w.
Proof. intros H Hn Hw. rewrite lset_other; auto. eapply nth_lt; eauto. Qed.
Lemma lset_twice {A} (E : list A) k v0 v w : nth_error E k = Some v0 -> lset (lset E k v) k w = lset E k w.
Proof. intros H. apply lset_lset. eapply nth_lt; eauto. Qed.

(** a function that makes no polynomial longer *)
Definition shrinks (f : poly -> res poly) : Prop := forall p p', f p = Ok p' -> (plen p' <= plen p)%nat.
Lemma run_write {A} c id p (k : prog A) E v0 v q : nth_error E c = Some v0 -> sget v id = Some q -> (plen p <= plen q)%nat -> runOnVals (Write c id p k) (lset E c v) = runOnVals k (lset E c (sset v id p)).
Proof.
  intros H Hq L. cbn [runOnVals]. unfold deref. rewrite (sees_same _ _ _ _ H). cbn [bind]. unfold mptr. rewrite Hq. cbn [bind]. rewrite (lset_twice _ _ _ _ _ H). apply Nat.ltb_ge in L. now rewrite L.
Qed.
Lemma run_upd c id f E v0 v : nth_error E c = Some v0 -> shrinks f -> runOnVals (updP c id f) (lset E c v) = let* v' := ctUpd v id f in Ok (tt, lset E c v').
Proof.
  intros H Hf. unfold updP, ctUpd. rewrite run_bind, (run_sptr _ _ _ _ (sees_same _ _ _ v H)). unfold mptr. destruct (sget v id) as [p|] eqn:Ep; cbn [bind]; [|reflexivity]. rewrite run_bind, run_lift. destruct (f p) as [p'|] eqn:Ef; cbn [bind]; [|reflexivity].
  rewrite (run_write _ _ _ _ _ _ _ _ H Ep (Hf _ _ Ef)). reflexivity.
Qed.
Lemma run_put {A} c id p (k : prog A) E v0 v : nth_error E c = Some v0 -> runOnVals (Put c id p k) (lset E c v) = runOnVals k (lset E c (sset v id p)).
Proof. intros H. cbn [runOnVals]. unfold deref. rewrite (sees_same _ _ _ _ H). cbn [bind]. now rewrite (lset_twice _ _ _ _ _ H). Qed.

Lemma fold_reads {S X} (f : S -> X -> prog S) (g : S -> X -> res S) E : (forall s x, runOnVals (f s x) E = let* s' := g s x in Ok (s', E)) ->
  forall l s, runOnVals (foldP f l s) E = let* s' := foldM g l s in Ok (s', E).
Proof. intros H. induction l as [|x l IH]; intros s; cbn [foldP foldM runOnVals]; [reflexivity|]. rewrite run_bind, H. destruct (g s x); cbn [bind]; auto. Qed.
Lemma fold_out {X} (f : unit -> X -> prog unit) (g : ciphertext -> X -> res ciphertext) E k : (forall v x, runOnVals (f tt x) (lset E k v) = let* v' := g v x in Ok (tt, lset E k v')) ->
  forall l v, runOnVals (foldP f l tt) (lset E k v) = let* v' := foldM g l v in Ok (tt, lset E k v').
Proof. intros H. induction l as [|x l IH]; intros v; cbn [foldP foldM runOnVals]; [reflexivity|]. rewrite run_bind, H. destruct (g v x); cbn [bind]; auto. Qed.
Lemma fold_both {S X} (f : S -> X -> prog S) (g : ciphertext * S -> X -> res (ciphertext * S)) E k :
  (forall v s x, runOnVals (f s x) (lset E k v) = let* (v', s') := g (v, s) x in Ok (s', lset E k v')) ->
  forall l v s, runOnVals (foldP f l s) (lset E k v) = let* (v', s') := foldM g l (v, s) in Ok (s', lset E k v').
Proof. intros H. induction l as [|x l IH]; intros v s; cbn [foldP foldM runOnVals]; [reflexivity|]. rewrite run_bind, H. destruct (g (v, s) x) as [[v' s']|]; cbn [bind]; auto. Qed.

(** ** lengths *)
Lemma lvl3_len r f level a b dst d : lvl3 r f level a b dst = Ok d -> plen d = plen dst.
Proof. unfold lvl3. intros H. apply bind_ok in H as (ls & X & H). apply mapM_len in X. rewrite seq_length in X. now apply write_len in H. Qed.
Lemma pCopy_len a b : plen (pCopy a b) = plen a.
Proof. unfold pCopy, plen. cbn. rewrite app_length, firstn_length, skipn_length. lia. Qed.
Lemma finish_len env l c1 c x c' : finishEP env l c1 c = Ok (x, c') -> plen c' = plen c.
Proof.
  unfold finishEP. intros H. apply bind_ok in H as (x1 & _ & H). apply bind_ok in H as (y & _ & H). apply bind_ok in H as (out & Ho & H). apply bind_ok in H as (c2 & Hw & H). injection H as _ <-.
  unfold ModDownQPtoQ in Ho. apply bind_ok in Ho as (up & _ & Ho). apply bind_ok in Ho as (row & _ & Ho). apply mapM_len in Ho. rewrite seq_length in Ho. eapply write_len; eauto.
Qed.
Lemma ext_len env l a bg c k c' k' : ExternalProduct env l a bg c k = Ok (c', k') -> plen c' = plen c.
Proof. unfold ExternalProduct. intros H. apply bind_ok in H as ([ai k1] & _ & H). apply bind_ok in H as ([c0 c1] & _ & H). apply bind_ok in H as ([x c2] & H1 & H). injection H as <- _. eapply finish_len; eauto. Qed.
Lemma exth_len env l a bg c k c' k' : ExternalProductHoisted env l a bg c k = Ok (c', k') -> plen c' = plen c.
Proof. unfold ExternalProductHoisted. intros H. apply bind_ok in H as (c1 & _ & H). apply bind_ok in H as ([x c2] & H1 & H). injection H as <- _. eapply finish_len; eauto. Qed.
Lemma extOp_len env l h op id bg c k c' k' : extOp env l h op id bg c k = Ok (c', k') -> plen c' = plen c.
Proof. unfold extOp. destruct h; intros H; apply bind_ok in H as (x & _ & H); [eapply exth_len|eapply ext_len]; eauto. Qed.
Lemma div1_len r l a dst d : DivRoundByLastModulusLvl r l a dst = Ok d -> plen d = plen dst.
Proof. unfold DivRoundByLastModulusLvl. intros H. apply bind_ok in H as (p & _ & H). apply bind_ok in H as (xl & _ & H). destruct l as [|l]; [congruence|]. apply bind_ok in H as (ls & X & H). apply mapM_len in X. rewrite seq_length in X. eapply write_len; [|exact H]. lia. Qed.
Lemma divloop_len r n : forall l pool dst q d, divRoundLoop r l n pool dst = Ok (q, d) -> plen d = plen dst.
Proof.
  induction n as [|n IH]; intros l pool dst q d H; cbn [divRoundLoop] in H; [congruence|]. destruct n as [|n].
  - apply bind_ok in H as (d' & H1 & H). injection H as _ <-. eapply div1_len; eauto.
  - apply bind_ok in H as (d' & H1 & H). eapply IH; eauto.
Qed.
Lemma div_len r l nb a pool dst q d : DivRoundByLastModulusManyLvl r l nb a pool dst = Ok (q, d) -> plen d = plen dst.
Proof.
  unfold DivRoundByLastModulusManyLvl. destruct nb as [|[|n]]; intros H; apply bind_ok in H as (x & H1 & H).
  - injection H as _ <-. eapply lvl1_len; eauto.
  - injection H as _ <-. eapply div1_len; eauto.
  - eapply divloop_len; eauto.
Qed.
Lemma trunc_len n p p' : pTrunc n p = Ok p' -> (plen p' <= plen p)%nat.
Proof. unfold pTrunc. destruct (n <=? plen p)%nat; [|discriminate]. intros H. injection H as <-. unfold plen. cbn. rewrite firstn_length. lia. Qed.

(** ** tactics *)
Ltac neq := solve [assumption | congruence | lia | intros ?; subst; congruence].
Ltac see := first [eassumption | eapply sees_same; see | eapply sees_other; [see | neq | see]].
Ltac shr := let p := fresh in let p' := fresh in let H := fresh in intros p p' H; try match type of H with (if ?b then _ else _) = _ => destruct b end;
  first [ apply trunc_len in H; exact H | apply lvl1_len in H; lia | apply lvl2_len in H; lia | apply lvl3_len in H; lia | injection H as <-; rewrite pCopy_len; lia ].
Ltac fin := cbn [bind]; try reflexivity.
Ltac take := try change (gmap string poly) with ciphertext; match goal with |- bind (bind ?m _) _ = _ => let x := fresh "r" in destruct m as [x|]; cbn [bind]; [try (repeat match type of x with (_ * _)%type => let a := fresh "r" in let b := fresh "r" in destruct x as [a b]; try (match type of a with (_ * _)%type => destruct a end) end); cbn beta iota; cbn [bind]|reflexivity] end.
Ltac adv := rewrite ?run_bind; first [ rewrite run_lift | erewrite run_sptr by see | erewrite run_level by see | erewrite run_idset by see | erewrite run_keys by see; cbn [bind] | erewrite run_upd; [|see|shr] ]; try take.

(** ** mkrlwe/elements.go *)
Lemma fresh_slot (E : list ciphertext) : nth_error (E ++ [[]]) (length E) = Some [].
Proof. rewrite nth_error_app2 by lia. now rewrite Nat.sub_diag. Qed.
Lemma old_slot (E : list ciphertext) c v x : nth_error E c = Some v -> nth_error (E ++ [x]) c = Some v.
Proof. intros H. rewrite nth_error_app1; [exact H|]. eapply nth_lt; eauto. Qed.
Lemma old_neq (E : list ciphertext) c v : nth_error E c = Some v -> c <> length E.
Proof. intros H ->. apply nth_lt in H. lia. Qed.
Lemma run_alloc {A} (k : addr -> prog A) E : runOnVals (Alloc k) E = runOnVals (k (length E)) (lset (E ++ [[]]) (length E) []).
Proof. cbn [runOnVals]. now rewrite (lset_id _ _ _ (fresh_slot E)). Qed.
Lemma run_new o pp ids l E : runOnVals (newP o pp ids l) E = Ok (length E, lset (E ++ [[]]) (length E) (NewCiphertext o pp ids l)).
Proof.
  unfold newP. rewrite run_alloc, (run_put _ _ _ _ _ _ _ (fresh_slot E)), run_bind. rewrite (fold_out _ (fun v id => Ok (sset v id (newPoly (pa_N pp) (l + 1))))).
  2:{ intros v x. now rewrite (run_put _ _ _ _ _ _ _ (fresh_slot E)). }
  unfold NewCiphertext. generalize (sset ([] : ciphertext) "0"%string (newPoly (pa_N pp) (l + 1))). induction (o 0%nat (mkeys ids)) as [|x xs IH]; intros v; cbn [foldM fold_left bind]; [reflexivity|]. apply IH.
Qed.
Lemma fold_ok {X} (g : ciphertext -> X -> ciphertext) l v : foldM (fun v x => Ok (g v x)) l v = Ok (fold_left g l v).
Proof. revert v. induction l as [|x l IH]; intros v; cbn; auto. Qed.
Lemma rebuild (v : ciphertext) : NoDup (mkeys v) -> foldM (fun w id => let* p := sptr v id in Ok (sset w id p)) (mkeys v) [] = Ok v.
Proof.
  intros N. assert (G : forall r l w, v = l ++ r -> w = l -> foldM (fun w id => let* p := sptr v id in Ok (sset w id p)) (mkeys r) w = Ok v).
  { induction r as [|[id p] r IH]; intros l w Hv Hw; cbn [mkeys map foldM fst]; [rewrite app_nil_r in Hv; now rewrite Hv, Hw|].
    assert (Hni : ~ In id (mkeys l)). { rewrite Hv in N. unfold mkeys in N. rewrite map_app in N. cbn in N. apply NoDup_remove_2 in N. intros X. apply N. apply in_or_app. now left. }
    assert (Hg : sget v id = Some p). { rewrite Hv. clear - Hni. induction l as [|[j q] l IHl]; cbn in *; [now rewrite String.eqb_refl|]. destruct (String.eqb_spec id j) as [->|]; [tauto|]. apply IHl. tauto. }
    unfold mptr. rewrite Hg. cbn [bind]. apply (IH (l ++ [(id, p)])). { now rewrite <- app_assoc. } subst w. clear - Hni.
    induction l as [|[j q] l IHl]; cbn in *; [reflexivity|]. destruct (String.eqb_spec id j) as [->|]; [tauto|]. f_equal. apply IHl. tauto. }
  apply (G v []); reflexivity.
Qed.
Lemma run_copynew c E v : nth_error E c = Some v -> NoDup (mkeys v) -> runOnVals (copyNewP c) E = let* w := ctCopyNew v in Ok (length E, lset (E ++ [[]]) (length E) w).
Proof.
  intros H N. unfold copyNewP, ctCopyNew. rewrite run_bind, (run_sptr _ _ _ _ H). destruct (sptr v _) as [p|]; cbn [bind]; [|reflexivity]. rewrite run_alloc.
  pose proof (fresh_slot E) as H0. pose proof (old_slot E c v [] H) as Hc. pose proof (old_neq E c v H) as Hn.
  rewrite run_bind. erewrite run_keys by see. cbn [bind]. rewrite run_bind. rewrite (fold_out _ (fun w id => let* p := sptr v id in Ok (sset w id p))).
  2:{ intros w x. adv. rewrite (run_put _ _ _ _ _ _ _ H0). reflexivity. }
  now rewrite rebuild.
Qed.
Lemma run_copy o el ct E v0 v w : nth_error E el = Some v0 -> nth_error E ct = Some w -> ct <> el -> runOnVals (ctCopyP o el ct) (lset E el v) = let* v' := ctCopy o v w in Ok (tt, lset E el v').
Proof.
  intros H0 Hw Hn. unfold ctCopyP, ctCopy. adv. apply fold_out. intros u x. adv. rewrite run_bind. erewrite run_sptr by see. unfold mptr. destruct (sget u x) as [dst|] eqn:Ed; cbn [bind]; [|reflexivity].
  rewrite (run_write _ _ _ _ _ _ _ _ H0 Ed); [reflexivity|]. rewrite pCopy_len. lia.
Qed.
Lemma run_pad o el ids E v0 v : nth_error E el = Some v0 -> runOnVals (padP o el ids) (lset E el v) = let* v' := PadCiphertext o v ids in Ok (tt, lset E el v').
Proof.
  intros H0. unfold padP, PadCiphertext. adv. adv. adv. adv.
  rewrite (fold_out _ (fun el id => Ok (if idHas r0 id then el else sset el id (setNTT (p_ntt r) (newPoly (List.length r1) (r2 + 1)))))).
  2:{ intros w x. destruct (idHas r0 x); [reflexivity|]. now rewrite (run_put _ _ _ _ _ _ _ H0). }
  rewrite fold_ok. reflexivity.
Qed.

(** ** mkrlwe/keyswitch.go and mkrlwe/keyswitch_hoisted.go *)
Section KS.
Context (env : kenv).
Notation pp := (e_pp env).
Notation rQ := (ringQ pp).
Lemma run_digits level h op id k E v : nth_error E op = Some v -> runOnVals (getDigitsP env level h op id k) E = let* r := getDigits env level h v id k in Ok (r, E).
Proof. intros H. unfold getDigitsP, getDigits. destruct h as [h|]; adv; [reflexivity|]. adv. reflexivity. Qed.
Lemma run_extOp level h op id bg c k E v : nth_error E op = Some v -> runOnVals (extOpP env level h op id bg c k) E = let* r := extOp env level h v id bg c k in Ok (r, E).
Proof. intros H. unfold extOpP, extOp. destruct h as [h|]; adv; rewrite run_lift; reflexivity. Qed.
Lemma run_genVec o level h op rlks sel x k E v : nth_error E op = Some v -> runOnVals (genVecP env o level h op rlks sel x k) E = let* r := genVec env o level h v rlks sel x k in Ok (r, E).
Proof.
  intros H. unfold genVecP, genVec. rewrite run_bind. rewrite (fold_reads _ (fun '(x, k) id => let* (dig, k) := getDigits env level h v id k in let* rl := sptr rlks id in let* x := accRows env level (sel rl) dig x in Ok (x, k))).
  2:{ intros [x' k'] id. cbn beta iota. rewrite run_bind. erewrite run_digits by eassumption. take. adv. adv. reflexivity. }
  take. adv. reflexivity.
Qed.
Lemma run_tensor o level ids0 ids1 op0 op1 c k E v0 v a b : nth_error E c = Some v0 -> nth_error E op0 = Some a -> nth_error E op1 = Some b -> op0 <> c -> op1 <> c ->
  runOnVals (tensorP env o level ids0 ids1 op0 op1 c k) (lset E c v) = let* (v', k') := tensor env o level ids0 ids1 a b v k in Ok (k', lset E c v').
Proof.
  intros H0 Ha Hb Na Nb. unfold tensorP, tensor. adv. adv. adv. adv. adv. adv. adv. rewrite run_bind.
  rewrite (fold_both _ (fun '(ct, q2) id => let* a := sptr a id in let* q2 := NTTLvl rQ level a q2 in let* ct := ctUpd ct id (fun p => MulCoeffsMontgomeryLvl rQ level r5 q2 p) in Ok (ct, q2))).
  2:{ intros w s x. cbn beta iota. adv. adv. adv. reflexivity. }
  take. rewrite run_bind.
  rewrite (fold_both _ (fun '(ct, q2) id =>
      let* b := sptr b id in
      let* q2 := NTTLvl rQ level b q2 in
      let* ct := ctUpd ct id (fun p =>
          if idHas ids0 id then MulCoeffsMontgomeryAndAddLvl rQ level r3 q2 p
          else MulCoeffsMontgomeryLvl rQ level r3 q2 p) in
      Ok (ct, q2))).
  2:{ intros w s x. cbn beta iota. adv. adv. adv. reflexivity. }
  take. adv. rewrite run_bind. rewrite (fold_out _ (fun ct id => ctUpd ct id (fun p => InvNTTLvl rQ level p p))).
  2:{ intros w x. erewrite run_upd; [reflexivity|see|shr]. }
  take. reflexivity.
Qed.
Lemma run_mul o op0 op1 h0 h1 rlks c k E v0 v a b : nth_error E c = Some v0 -> nth_error E op0 = Some a -> nth_error E op1 = Some b -> op0 <> c -> op1 <> c ->
  runOnVals (MulAndRelinHoistedP env o op0 op1 h0 h1 rlks c k) (lset E c v) = let* (v', k') := MulAndRelinHoisted env o a b h0 h1 rlks v k in Ok (k', lset E c v').
Proof.
  intros H0 Ha Hb Na Nb. unfold MulAndRelinHoistedP, MulAndRelinHoisted. adv. adv. destruct (r0 <? r)%nat; [reflexivity|]. adv. adv. adv. adv.
  rewrite run_bind. erewrite run_genVec by see. take. rewrite run_bind. erewrite run_genVec by see. take. rewrite run_bind. erewrite run_tensor by eassumption. take. rewrite run_bind.
  erewrite (fold_both _ (fun '(ct, k) id =>
      let* (q0, k) := extOp env r h1 b id r6 (k_q0 k) k in
      let* ct := ctUpd ct id (fun p => AddLvl rQ r p q0 p) in
      Ok (ct, set_q0 q0 k))).
  2:{ intros w s x. cbn beta iota. rewrite run_bind. erewrite run_extOp by see. take. adv. reflexivity. }
  take. adv. rewrite run_bind.
  erewrite (fold_both _ (fun '(ct, k) id =>
      let* rl := sptr rlks id in
      let* (q0, k) := extOp env r h0 a id r8 (k_q0 k) k in
      let k := set_q0 q0 k in
      let* (s3, k) := Decompose env r q0 (k_s3 k) k in
      let k := set_s3 s3 k in
      let* (q1, k) := ExternalProductHoisted env r s3 (rl_v rl) (k_q1 k) k in
      let k := set_q1 q1 k in
      let* ct := ctUpd ct "0"%string (fun p => AddLvl rQ r p q1 p) in
      let* (q2, k) := ExternalProductHoisted env r s3 r5 (k_q2 k) k in
      let k := set_q2 q2 k in
      let* ct := ctUpd ct id (fun p => AddLvl rQ r p q2 p) in
      Ok (ct, k))).
  2:{ intros w s x. cbn beta iota. adv. rewrite run_bind. erewrite run_extOp by see. take. cbv zeta. adv. adv. adv. adv. adv. reflexivity. }
  take. reflexivity.
Qed.
Lemma run_permute level gal c id k E v0 v : nth_error E c = Some v0 -> runOnVals (permuteCompP env level gal c id k) (lset E c v) = let* (v', k') := permuteComp env level gal v id k in Ok (k', lset E c v').
Proof. intros H0. unfold permuteCompP, permuteComp. adv. adv. adv. reflexivity. Qed.
Lemma run_rotate o cin rotidx h rks c k E v0 v a : nth_error E c = Some v0 -> nth_error E cin = Some a -> cin <> c ->
  runOnVals (RotateGenP env o cin rotidx h rks c k) (lset E c v) = let* (v', k') := RotateGen env o a rotidx h rks v k in Ok (k', lset E c v').
Proof.
  intros H0 Ha Na. unfold RotateGenP, RotateGen. adv. adv. adv. destruct (r1 <? r)%nat; [reflexivity|]. adv. adv. rewrite run_bind.
  rewrite (fold_both _ (fun '(ct, k) id =>
      let* rk := GetRotationKey rks id (normNeg (pa_logN pp) rotidx) in
      let* (q0, k) := extOp env r h a id (rk_val rk) (k_q0 k) k in
      let k := set_q0 q0 k in
      let* ct := ctUpd ct "0"%string (fun p => AddLvl rQ r p q0 p) in
      let* av := (match zget (pa_CRS pp) (normNeg (pa_logN pp) rotidx) with Some v => Ok v | None => Panic PNil end) in
      let* p := sptr ct id in
      let* (p, k) := extOp env r h a id av p k in
      Ok (sset ct id p, k))).
  2:{ intros w s x. cbn beta iota. adv. rewrite run_bind. erewrite run_extOp by see. take. cbv zeta. adv. adv. rewrite run_bind. erewrite run_sptr by see. unfold mptr. destruct (sget r5 x) as [p|] eqn:Ep; cbn [bind]; [|reflexivity].
    rewrite run_bind. erewrite run_extOp by see. destruct (extOp env r h a x r8 p (set_q0 r6 r7)) as [[p' k']|] eqn:Ee; cbn [bind]; [|reflexivity]. rewrite (run_write _ _ _ _ _ _ _ _ H0 Ep); [reflexivity|]. apply extOp_len in Ee. lia. }
  take. adv. rewrite (fold_both _ (fun '(ct, k) id => permuteComp env r (galColumn (pa_logN pp) (normNeg (pa_logN pp) rotidx)) ct id k)); [reflexivity|]. intros w s x. now apply (run_permute _ _ _ _ _ _ v0).
Qed.
Lemma run_conjugate o cin cks c k E v0 v a : nth_error E c = Some v0 -> nth_error E cin = Some a -> cin <> c ->
  runOnVals (ConjugateP env o cin cks c k) (lset E c v) = let* (v', k') := Conjugate env o a cks v k in Ok (k', lset E c v').
Proof.
  intros H0 Ha Na. unfold ConjugateP, Conjugate. adv. adv. adv. destruct (r1 <? r)%nat; [reflexivity|]. adv. rewrite run_bind.
  rewrite (fold_out _ (fun ct id => let* a := sptr a id in ctUpd ct id (fun p => Permute rQ a (galRow (pa_logN pp)) p))).
  2:{ intros w x. adv. erewrite run_upd; [reflexivity|see|shr]. }
  take. rewrite run_bind.
  rewrite (fold_both _ (fun '(ct, k) id =>
      let* ck := GetConjugationKey cks id in
      let* p := sptr ct id in
      let* (q0, k) := ExternalProduct env r p (cj_val ck) (k_q0 k) k in
      let* ct := ctUpd ct "0"%string (fun p => AddLvl rQ r p q0 p) in
      Ok (ct, set_q0 q0 k))).
  2:{ intros w s x. cbn beta iota. adv. adv. adv. adv. reflexivity. }
  take. rewrite (fold_both _ (fun '(ct, k) id =>
      let* p := sptr ct id in
      let* av := (match zget (pa_CRS pp) (-2)%Z with Some v => Ok v | None => Panic PNil end) in
      let* (q0, k) := ExternalProduct env r p av (k_q0 k) k in
      let* ct := ctUpd ct id (fun p => Ok (pCopy p q0)) in
      Ok (ct, set_q0 q0 k))); [reflexivity|].
  intros w s x. cbn beta iota. adv. adv. adv. adv. reflexivity.
Qed.
End KS.
