(** Sequences of calls on objects follow the sequences of calls on values. *)
From Coq Require Import String ZArith List Lia Bool Permutation.
From Verif Require Import Go GoProofs Lattigo Arith BasisExt NTT RingOps RingOpsProofs Maps MapsProofs F64 Params Elements KeySwitch KeySets KeyGen EncDec Utils Evaluator Alias AliasProofs AliasConst Circuit Heap SpecHeap HeapProofs HeapEv SpecHeapEv HeapEvSim HeapEvVals HeapEvCalls.
Import ListNotations.
Local Open Scope list_scope.

Lemma points_idx E hp vars cts i : Forall2 (points E) vars cts -> NoDup (hp :: map hc vars) ->
  (exists e, idx cts i = Panic e /\ idx vars i = Panic e) \/
  (exists c s v, idx cts i = Ok (mkCk v s) /\ idx vars i = Ok (mkHct c s) /\ nth_error E c = Some v /\ c <> hp /\ nth_error vars i = Some (mkHct c s)).
Proof.
  intros F N. unfold idx. apply Forall2_nth in F as [L F]. destruct (nth_error vars i) as [[c s]|] eqn:Ev.
  - right. destruct (nth_error cts i) as [[v s']|] eqn:Ec; [|apply nth_error_None in Ec; apply nth_lt in Ev; lia].
    destruct (F _ _ _ Ev Ec) as [Hc Hs]. cbn in Hc, Hs. subst s'. exists c, s, v. repeat split; auto. intros ->. apply NoDup_cons_iff in N as [N _]. apply N. change hp with (hc (mkHct hp s)). apply in_map. eapply nth_error_In; eauto.
  - left. apply nth_error_None in Ev. rewrite (proj2 (nth_error_None cts i)) by lia. eauto.
Qed.

(** what one call does to the objects *)
Record step (E E' : list ciphertext) (hp : addr) (c : call) (vars : list hct) (x : hct) (ct : ckct) (pool : ciphertext) : Prop := {
  st_val : nth_error E' (hc x) = Some (c_ct ct);
  st_scale : hs x = c_scale ct;
  st_new : receiver c = None -> (length E <= hc x)%nat;
  st_in : forall i, receiver c = Some i -> exists y, nth_error vars i = Some y /\ hc x = hc y;
  st_pool : nth_error E' hp = Some pool;
  st_keep : forall d, (d < length E)%nat -> d <> hp -> d <> hc x -> nth_error E' d = nth_error E d }.
Definition outcome (vars : list hct) (E : list ciphertext) (hp : addr) (c : call) (m : res (ckct * cst)) (n : res (hct * hcs * list ciphertext)) : Prop :=
  match m with
  | Panic e => n = Panic e
  | Ok (ct, st) => exists x E', n = Ok ((x, mkHcs (hevOf hp (cs_ev st)) (cs_rs st)), E') /\ step E E' hp c vars x ct (ev_ct (cs_ev st))
  end.
Lemma step_new E hp c vars s ct pool rest : receiver c = None -> nth_error E hp = Some pool -> s = c_scale ct -> step E (E ++ c_ct ct :: rest) hp c vars (mkHct (length E) s) ct pool.
Proof.
  intros R Hp ->. constructor; cbn [hc hs]; auto.
  - rewrite nth_error_app2 by lia. now rewrite Nat.sub_diag.
  - congruence.
  - rewrite nth_error_app1 by (eapply nth_lt; eauto). exact Hp.
  - intros d L _ _. now rewrite nth_error_app1.
Qed.
Lemma step_pool E hp c vars s ct p0 pool rest : receiver c = None -> nth_error E hp = Some p0 -> s = c_scale ct -> step E (lset E hp pool ++ c_ct ct :: rest) hp c vars (mkHct (length E) s) ct pool.
Proof.
  intros R Hp ->. pose proof (nth_lt _ _ _ Hp) as L. constructor; cbn [hc hs]; auto.
  - rewrite nth_error_app2 by (rewrite lset_length by exact L; lia). rewrite lset_length by exact L. now rewrite Nat.sub_diag.
  - congruence.
  - rewrite nth_error_app1 by now rewrite lset_length. now apply lset_same.
  - intros d Ld Nd _. rewrite nth_error_app1 by now rewrite lset_length. now apply lset_other.
Qed.
Lemma step_in E hp c vars a s s' i ct v pool : receiver c = Some i -> nth_error vars i = Some (mkHct a s) -> nth_error E a = Some v -> a <> hp -> nth_error E hp = Some pool -> s' = c_scale ct ->
  step E (lset E a (c_ct ct)) hp c vars (mkHct a s') ct pool.
Proof.
  intros R Hi Ha N Hp ->. pose proof (nth_lt _ _ _ Ha) as L. constructor; cbn [hc hs]; auto.
  - now apply lset_same.
  - congruence.
  - intros j Hj. rewrite R in Hj. injection Hj as <-. exists (mkHct a s). auto.
  - rewrite lset_other by auto. exact Hp.
  - intros d Ld Nd Na. now apply lset_other.
Qed.

Section Run.
Context (ce : ckenv) (rks : rotset) (cks : conjset) (pts : list (poly * f64)).
Notation execV := (exec ce rks cks pts).
Notation execH := (execP ce rks cks pts).

Lemma run_put E hp c vars st (P : prog (hct * hev)) (m : res (ckct * evst)) : receiver c = None -> nth_error E hp = Some (ev_ct (cs_ev st)) ->
  result hp E m (runOnVals P E) -> (forall r ev, m = Ok (r, ev) -> ev_ct ev = ev_ct (cs_ev st)) ->
  outcome vars E hp c (let* (ct, ev) := m in Ok (ct, mkCs ev (cs_rs st))) (runOnVals (let+ (ct, ev) := P in Ret (ct, mkHcs ev (cs_rs st))) E).
Proof.
  intros R Hp H K. rewrite run_bind. destruct m as [[r ev]|e]; cbn [result] in H.
  - destruct H as [rest H]. rewrite H. cbn [bind runOnVals outcome]. eexists _, _. split; [reflexivity|]. apply step_new; auto. cbn [cs_ev]. rewrite (K r ev eq_refl). exact Hp.
  - rewrite H. reflexivity.
Qed.
Lemma eq_result hp E (m : res (ckct * evst)) n : n = (let* (r, st) := m in Ok ((mkHct (length E) (c_scale r), hevOf hp st), E ++ [c_ct r])) -> result hp E m n.
Proof. intros ->. destruct m as [[r st]|e]; cbn [result bind]; [exists []; reflexivity|reflexivity]. Qed.

Ltac operand i F N := let e := fresh "e" in let a := fresh "a" in let s := fresh "s" in let v := fresh "v" in let H1 := fresh in let H2 := fresh in let Pa := fresh "Pa" in let Na := fresh "Na" in let Va := fresh "Va" in
  destruct (points_idx _ _ _ _ i F N) as [(e & H1 & H2)|(a & s & v & H1 & H2 & Pa & Na & Va)]; rewrite run_bind, run_lift, H1, H2; cbn [bind]; [reflexivity|clear H1 H2].
Lemma exec_step o c vars cts st E hp : order_ok o -> nodups E -> Forall2 (points E) vars cts -> NoDup (hp :: map hc vars) -> nth_error E hp = Some (ev_ct (cs_ev st)) ->
  outcome vars E hp c (execV o c cts st) (runOnVals (execH o c vars (mkHcs (hevOf hp (cs_ev st)) (cs_rs st))) E).
Proof.
  intros Ho ND F N Hp. destruct c; cbn [exec execP hcs_ev hcs_rs].
  - operand i F N. operand j F N. rewrite run_bind. unfold hevOf at 1. destruct st as [[pool q k] rs]. cbn [cs_ev cs_rs ev_ct ev_q ev_k] in *. erewrite run_add by eassumption.
    destruct (AddNew _ _ _ _ _) as [[r st']|] eqn:EA; cbn [bind outcome]; [|reflexivity]. apply add_keeps in EA as [K1 K2]. cbn [ev_q ev_k] in *. cbn [runOnVals cs_ev cs_rs]. eexists _, _. split; [unfold hevOf; rewrite K1, K2; reflexivity|]. now apply step_pool with (p0 := pool).
  - operand i F N. operand j F N. rewrite run_bind. unfold hevOf at 1. destruct st as [[pool q k] rs]. cbn [cs_ev cs_rs ev_ct ev_q ev_k] in *. erewrite run_sub by eassumption.
    destruct (SubNew _ _ _ _ _) as [[r st']|] eqn:EA; cbn [bind outcome]; [|reflexivity]. apply sub_keeps in EA as [K1 K2]. cbn [ev_q ev_k] in *. cbn [runOnVals cs_ev cs_rs]. eexists _, _. split; [unfold hevOf; rewrite K1, K2; reflexivity|]. now apply step_pool with (p0 := pool).
  - operand i F N. operand j F N. rewrite run_bind. erewrite run_mulRelin by eassumption. replace (a =? a0)%nat with (i =? j)%nat.
    2:{ destruct (Nat.eq_dec i j) as [->|Hne]; [rewrite Nat.eqb_refl; symmetry; apply Nat.eqb_eq; congruence|]. rewrite (proj2 (Nat.eqb_neq i j)) by exact Hne. symmetry. apply Nat.eqb_neq. intros ->. apply Hne. apply NoDup_cons_iff in N as [_ N].
      apply (proj1 (NoDup_nth_error _) N); [rewrite map_length; eapply nth_lt; eauto|]. rewrite !nth_error_map. rewrite Va, Va0. reflexivity. }
    destruct (MulRelinNew _ _ _ _ _ _ _) as [[[r rs'] st']|] eqn:EA; cbn [bind outcome]; [|reflexivity]. apply mulRelin_pool in EA. cbn [runOnVals cs_ev cs_rs]. eexists _, _. split; [reflexivity|]. rewrite EA. now apply step_new.
  - operand i F N. rewrite run_bind, run_lift. destruct (idx pts p) as [[pt ps]|]; cbn [bind]; [|reflexivity]. cbn [fst snd]. apply run_put; auto; [|intros r ev X; now apply mulPt_pool in X]. apply eq_result. destruct st as [[pool q k] rs]. unfold hevOf at 1. cbn [cs_ev cs_rs ev_ct ev_q ev_k] in *. now apply run_mulPt.
  - operand i F N. erewrite run_constNew by eassumption. destruct (ckCopyNew _) as [[t ts]|]; cbn [bind]; [|reflexivity]. destruct (MultByConst _ _ _ _ _) as [r|]; cbn [bind outcome]; [|reflexivity]. cbn [runOnVals cs_ev cs_rs]. eexists _, _. split; [reflexivity|]. now apply step_new.
  - operand i F N. apply run_put; auto; [|intros r ev X; now apply rotNew_pool in X]. destruct st as [[pool q kp] rs]. unfold hevOf at 1. cbn [cs_ev cs_rs ev_ct ev_q ev_k] in *. now apply run_rotNew.
  - operand i F N. rewrite run_bind. erewrite run_hoisted by eassumption. destruct (HoistedForm _ _ _ _) as [[h ev]|] eqn:EH; cbn [bind]; [|reflexivity]. apply hoisted_pool in EH. unfold hphi. cbn [fst snd].
    apply run_put; auto; [|intros r ev' X; apply rotHoisted_pool in X; congruence]. apply eq_result. rewrite <- EH in Hp. destruct ev as [pool q kp]. unfold hevOf at 1. cbn [ev_ct ev_q ev_k] in *. now apply run_rotHoisted.
  - operand i F N. apply run_put; auto; [|intros r ev X; now apply conjNew_pool in X]. apply eq_result. destruct st as [[pool q kp] rs]. unfold hevOf at 1. cbn [cs_ev cs_rs ev_ct ev_q ev_k] in *. now apply run_conjNew.
  - operand i F N. rewrite run_bind. destruct st as [[pool q kp] rs]. unfold hevOf at 1. cbn [cs_ev cs_rs ev_ct ev_q ev_k] in *. erewrite run_rescaleNew with (pool := pool) by eassumption. destruct (RescaleNew _ _ _ _ _) as [[[e r] st']|] eqn:ER; cbn [bind]; [|reflexivity]. apply rescaleNew_pool in ER. cbn [ev_ct] in ER.
    destruct e; [reflexivity|]. cbn [runOnVals outcome cs_ev cs_rs]. eexists _, _. split; [reflexivity|]. rewrite ER. now apply step_new.
  - operand i F N. rewrite run_bind. erewrite run_dropNew by eassumption. destruct (DropLevelNew _ _ _) as [r|]; cbn [bind outcome]; [|reflexivity]. cbn [runOnVals cs_ev cs_rs]. eexists _, _. split; [reflexivity|]. now apply step_new.
  - operand i F N. operand j F N.
    assert (HF : forall (want : bool) x xs w ev, nth_error E x = Some w -> nth_error E hp = Some (ev_ct ev) ->
      match (if want then let* (h, ev) := HoistedForm ce o (mkCk w xs) ev in Ok (Some h, ev) else Ok (None, ev)) with
      | Panic e => runOnVals (if want then let+ (h, ev) := HoistedFormP ce o (mkHct x xs) (hevOf hp ev) in Ret (Some h, ev) else Ret (None, hevOf hp ev)) E = Panic e
      | Ok (h, ev') => runOnVals (if want then let+ (h, ev) := HoistedFormP ce o (mkHct x xs) (hevOf hp ev) in Ret (Some h, ev) else Ret (None, hevOf hp ev)) E = Ok ((h, hevOf hp ev'), E) /\ nth_error E hp = Some (ev_ct ev') /\ ev_ct ev' = ev_ct ev
      end).
    { intros want x xs w ev Hw He. destruct want; [|auto]. rewrite run_bind. erewrite run_hoisted by eassumption. destruct (HoistedForm _ _ _ _) as [[h ev']|] eqn:EH; cbn [bind]; [|reflexivity]. apply hoisted_pool in EH. unfold hphi. cbn [fst snd runOnVals]. split; [reflexivity|]. now rewrite EH. }
    pose proof (HF hi a s v (cs_ev st) Pa Hp) as X. rewrite run_bind. destruct (if hi then let* _ := HoistedForm _ _ _ _ in _ else _) as [[h0 ev0]|]; cbn [bind]; [|rewrite X; reflexivity]. destruct X as (X & Hp0 & K0). rewrite X. cbn [bind].
    pose proof (HF hj a0 s0 v0 ev0 Pa0 Hp0) as Y. rewrite run_bind. destruct (if hj then let* _ := HoistedForm _ _ _ _ in _ else _) as [[h1 ev1]|]; cbn [bind]; [|rewrite Y; reflexivity]. destruct Y as (Y & Hp1 & K1). rewrite Y. cbn [bind].
    apply run_put; auto; [|intros r ev' Z; apply mrhNew_pool in Z; congruence]. apply eq_result. destruct ev1 as [pool q kp]. unfold hevOf at 1. cbn [ev_ct ev_q ev_k] in *. now apply run_mrhNew.
  - operand i F N. rewrite run_bind. match goal with |- context [runOnVals ?P E] => replace (runOnVals P E) with (runOnVals P (lset E a v)) by now rewrite lset_id end. erewrite run_constin by eassumption. destruct (MultByConstAt _ _ _ _ _) as [r|]; cbn [bind outcome]; [|reflexivity]. cbn [runOnVals cs_ev cs_rs]. eexists _, _. split; [reflexivity|]. now apply step_in with (i := i) (s := s) (v := v).
  - operand i F N. rewrite run_bind. destruct st as [[pool q kp] rs]. unfold hevOf at 1. cbn [cs_ev cs_rs ev_ct ev_q ev_k] in *. match goal with |- context [runOnVals ?P E] => replace (runOnVals P E) with (runOnVals P (lset E a v)) by now rewrite lset_id end. erewrite run_rescaleAt with (pool := pool) by eassumption. destruct (RescaleAt _ _ _ _ _ _) as [[[e r] st']|] eqn:ER; cbn [bind]; [|reflexivity]. apply rescaleAt_pool in ER. cbn [ev_ct] in ER.
    destruct e; [reflexivity|]. cbn [runOnVals outcome cs_ev cs_rs]. eexists _, _. split; [reflexivity|]. rewrite ER. now apply step_in with (i := i) (s := s) (v := v).
  - operand i F N. rewrite run_bind. match goal with |- context [runOnVals ?P E] => replace (runOnVals P E) with (runOnVals P (lset E a v)) by now rewrite lset_id end. erewrite run_drop by eassumption. destruct (DropLevel _ _ _) as [r|]; cbn [bind outcome]; [|reflexivity]. cbn [runOnVals cs_ev cs_rs]. eexists _, _. split; [reflexivity|]. now apply step_in with (i := i) (s := s) (v := v).
Qed.

(** variables after a call *)
Lemma stored_in {X} c i (x y : X) l : receiver c = Some i -> nth_error l i = Some y -> stored c x l = firstn i l ++ x :: skipn (S i) l /\ length (stored c x l) = length l /\
  (forall j, nth_error (stored c x l) j = if (j =? i)%nat then Some x else nth_error l j).
Proof.
  intros R H. unfold stored. rewrite R. split; [reflexivity|]. pose proof (nth_lt _ _ _ H) as L. split.
  - rewrite app_length, firstn_length. cbn [length]. rewrite skipn_length. lia.
  - intros j. destruct (Nat.eqb_spec j i) as [->|Hne].
    + rewrite nth_error_app2; rewrite firstn_length_le by lia; [|lia]. now rewrite Nat.sub_diag.
    + destruct (Nat.lt_ge_cases j i) as [X1|X1].
      * rewrite nth_error_app1 by (rewrite firstn_length_le; lia). rewrite <- (firstn_skipn i l) at 2. rewrite nth_error_app1 by (rewrite firstn_length_le; lia). reflexivity.
      * rewrite nth_error_app2 by (rewrite firstn_length_le; lia). rewrite firstn_length_le by lia. rewrite <- (firstn_skipn i l) at 2. rewrite nth_error_app2 by (rewrite firstn_length_le; lia). rewrite firstn_length_le by lia.
        destruct (j - i)%nat as [|m] eqn:Em; [lia|]. cbn [nth_error]. clear -L. revert l L. induction i as [|i IH]; intros [|z l] L; cbn in *; try lia; [reflexivity|]. rewrite <- IH by lia. destruct l; reflexivity.
Qed.
Lemma stored_new {X} c (x : X) l : receiver c = None -> stored c x l = l ++ [x].
Proof. intros R. unfold stored. now rewrite R. Qed.
Lemma stored_vars E E' hp c vars cts x ct pool : step E E' hp c vars x ct pool -> (length E <= length E')%nat -> Forall2 (points E) vars cts -> NoDup (hp :: map hc vars) -> (hp < length E)%nat ->
  Forall2 (points E') (stored c x vars) (stored c ct cts) /\ NoDup (hp :: map hc (stored c x vars)) /\
  (forall j y, nth_error vars j = Some y -> exists z, nth_error (stored c x vars) j = Some z /\ hc z = hc y /\ (receiver c <> Some j -> z = y)).
Proof.
  intros [Sv Ss Sn Si Sp Sk] L F N Lp. apply Forall2_nth in F as [FL F].
  assert (Lc : forall j y, nth_error vars j = Some y -> (hc y < length E)%nat /\ hc y <> hp).
  { intros j y Hj. split.
    - destruct (nth_error cts j) as [z|] eqn:Ez; [|apply nth_error_None in Ez; apply nth_lt in Hj; lia]. destruct (F _ _ _ Hj Ez) as [X _]. eapply nth_lt; eauto.
    - intros X. apply NoDup_cons_iff in N as [N _]. apply N. rewrite <- X. apply in_map. eapply nth_error_In; eauto. }
  destruct (receiver c) as [i|] eqn:R.
  - destruct (Si i eq_refl) as (y & Hy & Hxy). destruct (stored_in c i x y vars R Hy) as (E1 & L1 & G1).
    assert (exists z, nth_error cts i = Some z) as [z Hz]. { destruct (nth_error cts i) eqn:Ez; [eauto|]. apply nth_error_None in Ez. apply nth_lt in Hy. lia. }
    destruct (stored_in c i ct z cts R Hz) as (E2 & L2 & G2).
    assert (EM : map hc (stored c x vars) = map hc vars).
    { apply nth_ext with (d := 0%nat) (d' := 0%nat); [now rewrite !map_length, L1|]. intros n Hn. apply nth_error_nth. rewrite nth_error_map, G1. destruct (Nat.eqb_spec n i) as [->|Hne].
      - cbn. rewrite Hxy. rewrite (nth_error_nth (map hc vars) i 0%nat (x := hc y)); [reflexivity|]. now rewrite nth_error_map, Hy.
      - rewrite <- nth_error_map. apply nth_error_nth'. now rewrite map_length in *; rewrite L1 in Hn. }
    split; [|split].
    + apply Forall2_nth. split; [congruence|]. intros k u w Hu Hw. rewrite G1 in Hu. rewrite G2 in Hw. destruct (Nat.eqb_spec k i) as [->|Hne].
      * injection Hu as <-. injection Hw as <-. split; assumption.
      * destruct (F _ _ _ Hu Hw) as [P1 P2]. split; [|exact P2]. destruct (Lc _ _ Hu) as [X1 X2]. rewrite Sk; auto. rewrite Hxy. intros X. apply Hne. apply NoDup_cons_iff in N as [_ N]. apply (proj1 (NoDup_nth_error _) N); [rewrite map_length; eapply nth_lt; eauto|]. rewrite !nth_error_map, Hu, Hy. cbn. now rewrite X.
    + now rewrite EM.
    + intros j u Hj. rewrite G1. destruct (Nat.eqb_spec j i) as [->|Hne]; [|exists u; auto]. exists x. split; [reflexivity|]. split; [congruence|]. intros X. now elim X.
  - specialize (Sn eq_refl). rewrite !stored_new by exact R. split; [|split].
    + apply Forall2_app; [|constructor; [split; assumption|constructor]]. apply Forall2_nth. split; [exact FL|]. intros k u w Hu Hw. destruct (F _ _ _ Hu Hw) as [P1 P2]. split; [|exact P2]. destruct (Lc _ _ Hu) as [X1 X2]. rewrite Sk; auto. lia.
    + rewrite map_app. cbn [map]. change (hp :: map hc vars ++ [hc x]) with ((hp :: map hc vars) ++ [hc x]). apply (Permutation_NoDup (Permutation_cons_append _ _)). constructor; [|exact N]. intros [X|X]; [lia|]. apply in_map_iff in X as (u & X & Hu). apply In_nth_error in Hu as [j Hj]. apply Lc in Hj. lia.
    + intros j u Hj. exists u. rewrite nth_error_app1 by (eapply nth_lt; eauto). auto.
Qed.

(** all calls, on values addressed by position *)
Lemma execs_vals orders : (forall n, order_ok (orders n)) -> forall p n vars cts st E hp, nodups E -> Forall2 (points E) vars cts -> NoDup (hp :: map hc vars) -> nth_error E hp = Some (ev_ct (cs_ev st)) ->
  match execs ce rks cks pts orders n p cts st with
  | Panic e => runOnVals (execsP ce rks cks pts orders n p vars (mkHcs (hevOf hp (cs_ev st)) (cs_rs st))) E = Panic e
  | Ok (cts', st') => exists vars' E', runOnVals (execsP ce rks cks pts orders n p vars (mkHcs (hevOf hp (cs_ev st)) (cs_rs st))) E = Ok ((vars', mkHcs (hevOf hp (cs_ev st')) (cs_rs st')), E') /\
      Forall2 (points E') vars' cts' /\ NoDup (hp :: map hc vars') /\ nth_error E' hp = Some (ev_ct (cs_ev st')) /\
      (forall j y, nth_error vars j = Some y -> exists z, nth_error vars' j = Some z /\ hc z = hc y /\ (unwritten j p -> z = y)) /\
      (forall d, (d < length E)%nat -> d <> hp -> (forall j y, nth_error vars j = Some y -> hc y = d -> unwritten j p) -> nth_error E' d = nth_error E d)
  end.
Proof.
  intros Ho. induction p as [|c p IH]; intros n vars cts st E hp ND F N Hp; cbn [execs execsP].
  - exists vars, E. cbn [runOnVals]. repeat split; auto. intros j y Hj. exists y. auto.
  - rewrite run_bind. pose proof (exec_step (orders n) c vars cts st E hp (Ho n) ND F N Hp) as X. destruct (exec ce rks cks pts (orders n) c cts st) as [[ct st1]|e]; cbn [outcome bind] in X |- *; [|now rewrite X].
    destruct X as (x & E1 & RX & SX). pose proof (run_nodups _ _ _ _ ND RX) as [ND1 L1]. rewrite RX. cbn [bind]. destruct (stored_vars _ _ _ _ _ _ _ _ _ SX L1 F N ltac:(eapply nth_lt; eauto)) as (F1 & N1 & K1).
    specialize (IH (S n) (stored c x vars) (stored c ct cts) st1 E1 hp ND1 F1 N1 (st_pool _ _ _ _ _ _ _ _ SX)). destruct (execs _ _ _ _ _ _ _ _ _) as [[cts' st']|e]; [|exact IH].
    destruct IH as (vars' & E' & R' & F' & N' & P' & A' & K'). exists vars', E'. repeat split; auto.
    + intros j y Hj. destruct (K1 j y Hj) as (z & Hz & Ez & Uz). destruct (A' j z Hz) as (w & Hw & Ew & Uw). exists w. split; [exact Hw|]. split; [congruence|]. intros U. rewrite Uw, Uz; auto; [apply U; now left|intros k Hk; apply U; now right].
    + intros d Ld Nd U. assert (Nx : d <> hc x).
      { intros ->. destruct (receiver c) as [i|] eqn:R; [|pose proof (st_new _ _ _ _ _ _ _ _ SX R); lia]. destruct (st_in _ _ _ _ _ _ _ _ SX i R) as (y & Hy & Exy). apply (U i y Hy (eq_sym Exy) c); [now left|exact R]. }
      rewrite K'; [apply (st_keep _ _ _ _ _ _ _ _ SX); auto|lia|exact Nd|]. intros j z Hz Ed k Hk. destruct (Nat.lt_ge_cases j (length vars)) as [Lj|Lj].
      * destruct (nth_error vars j) as [y|] eqn:Ey; [|apply nth_error_None in Ey; lia]. destruct (K1 j y Ey) as (z' & Hz' & Ez' & _). rewrite Hz in Hz'. injection Hz' as <-. apply (U j y Ey); [congruence|now right].
      * exfalso. destruct (receiver c) as [i|] eqn:R.
        { destruct (st_in _ _ _ _ _ _ _ _ SX i R) as (y & Hy & _). destruct (stored_in c i x y vars R Hy) as (_ & Ls & _). apply nth_lt in Hz. lia. }
        rewrite stored_new in Hz by exact R. rewrite nth_error_app2 in Hz by exact Lj. destruct (j - length vars)%nat as [|m]; [|destruct m; discriminate]. cbn in Hz. injection Hz as <-. now apply Nx.
Qed.

(** on the heap *)
Theorem execs_objects orders n p vars cts hst st h vals : (forall n, order_ok (orders n)) -> separate h vals -> own vars hst -> scratch vals hst st -> Forall2 (points vals) vars cts ->
  match execs ce rks cks pts orders n p cts st with
  | Panic e => runOnHeap (execsP ce rks cks pts orders n p vars hst) h = Panic e
  | Ok (cts', st') => exists vars' hst' h' vals', runOnHeap (execsP ce rks cks pts orders n p vars hst) h = Ok ((vars', hst'), h') /\
      separate h' vals' /\ own vars' hst' /\ scratch vals' hst' st' /\ Forall2 (points vals') vars' cts' /\
      (forall i x, nth_error vars i = Some x -> exists y, nth_error vars' i = Some y /\ hc y = hc x /\ (unwritten i p -> y = x)) /\
      (forall c, (c < length vals)%nat -> c <> he_ct (hcs_ev hst) -> (forall i x, nth_error vars i = Some x -> hc x = c -> unwritten i p) -> forall id, loadComp h' c id = loadComp h c id)
  end.
Proof.
  intros Ho S O (S1 & S2 & S3 & S4) F. destruct hst as [[hp q k] rs]. unfold own in *. cbn [hcs_ev hcs_rs he_ct he_q he_k] in *. subst q k rs.
  pose proof (execs_vals orders Ho p n vars cts st vals hp (separate_nodups _ _ S) F O S1) as X. unfold hevOf in X at 1. pose proof (simulation (execsP ce rks cks pts orders n p vars (mkHcs (mkHev hp (ev_q (cs_ev st)) (ev_k (cs_ev st))) (cs_rs st))) h vals S) as Y.
  destruct (execs _ _ _ _ _ _ _ _ _) as [[cts' st']|e].
  - destruct X as (vars' & E' & R & F' & N' & P' & A' & K'). unfold hevOf in R at 1. rewrite R in Y. destruct Y as (h' & RH & S'). exists vars', (mkHcs (hevOf hp (cs_ev st')) (cs_rs st')), h', E'. split; [exact RH|]. split; [exact S'|]. split; [exact N'|]. split; [repeat split; exact P'|]. split; [exact F'|]. split; [exact A'|].
    intros c Lc Nc U id. destruct (nth_error vals c) as [v|] eqn:Ev; [|apply nth_error_None in Ev; lia]. rewrite (rep_comp _ _ _ _ (sp_rep _ _ S _ _ Ev)). apply rep_comp. apply (sp_rep _ _ S'). rewrite K'; auto.
  - unfold hevOf in X at 1. rewrite X in Y. exact Y.
Qed.
End Run.
