(** Goroutines sharing a RelinearizationKeySet: schedules without conflicts give correct products. *)
From Coq Require Import String ZArith Znumtheory List Lia Bool Permutation Arith.
From Verif Require Import Spec SpecProofs Go GoProofs Arith NegRing NTT RingOps Maps MapsProofs Params Elements KeySwitch KeySets F64 EncDec Evaluator Repr KSProofs SpecCt KSSem SpecEnc EncProofs SpecEv EvProofs RescaleProofs EvThms AddThms MulEvThms Conc SpecConc.
Import ListNotations.
Local Open Scope Z_scope.
Local Open Scope list_scope.

Lemma bind_inv {X Y} (m : res X) (k : X -> res Y) v : bind m k = Ok v -> exists a, m = Ok a /\ k a = Ok v.
Proof. destruct m; cbn; [eauto|discriminate]. Qed.
Section P.
Context (ce : ckenv) (He : env_ok (ce_env ce)).
Notation pp := (e_pp (ce_env ce)).
Context (g : nat -> Z) (A U : nat -> zpoly) (s r : string -> zpoly) (Bs Be Dm : Z) (rs0 : rlkpool).
Context (l0 l1 n : nat -> nat) (calls : nat -> ccall) (HC : forall i, call_ok ce g A U s r Bs Be Dm rs0 (l0 i) (l1 i) (n i) (calls i)).
Notation o0 i := (c_ct (cc_op0 (calls i))).
Notation o1 i := (c_ct (cc_op1 (calls i))).
Notation dec := (decomposed ce).
Definition pending (l : nat) (op : ciphertext) (pool : hoisted) (todo : list string) : Prop :=
  NoDup todo /\ (forall id, In id todo -> party op id) /\ forall id, party op id -> In id todo \/ dec l op pool id.
Definition Tinv (rs : rlkpool) (i : nat) (t : cthread) : Prop :=
  t_call t = calls i /\ ev_ok pp (t_ev t) /\
  match t_pc t with
  | CStart => True
  | CDec0 todo => pending (l0 i) (o0 i) (rs_h0 rs) todo
  | CDec1 todo => cc_same (calls i) = false /\ hoisted_at (ce_env ce) (l0 i) (o0 i) (rs_h0 rs) /\ pending (l1 i) (o1 i) (rs_h1 rs) todo
  | CMul => hoisted_at (ce_env ce) (l0 i) (o0 i) (rs_h0 rs) /\ (cc_same (calls i) = false -> hoisted_at (ce_env ce) (l1 i) (o1 i) (rs_h1 rs))
  | CRet out => product_of ce s Bs Be Dm (l0 i) (l1 i) (n i) (calls i) out
  | CPanic _ => False
  end.
Definition Rinv (rs : rlkpool) : Prop := rs_keys rs = rs_keys rs0 /\ forall i, hoist_ready pp (rs_h0 rs) (o0 i) /\ hoist_ready pp (rs_h1 rs) (o1 i).
Definition Winv (w : cworld) : Prop := Rinv (w_rs w) /\ forall i, Tinv (w_rs w) i (w_t w i).
(** only entries of the call's parties change *)
Definition local (i : nat) (rs rs' : rlkpool) : Prop :=
  forall id, ~ involves (calls i) id -> sget (rs_h0 rs') id = sget (rs_h0 rs) id /\ sget (rs_h1 rs') id = sget (rs_h1 rs) id.

Lemma levels_same i : o1 i = o0 i -> l1 i = l0 i.
Proof.
  intros E. destruct (HC i) as [[M0 M1 L0 L1 _ _ _ _ _] _ _ _ _ _]. rewrite E in M1.
  destruct (mget_ex _ seqb (o0 i) _ (ck_0 _ _ _ M0)) as (p & Ep). destruct (ck_comp _ _ _ M0 _ _ Ep) as (_ & X & _). destruct (ck_comp _ _ _ M1 _ _ Ep) as (_ & Y & _). lia.
Qed.
Lemma order_ids (o : order) (i : idset) (op : ciphertext) m : order_ok o -> NoDup (mkeys i) -> (forall x, In x (mkeys i) <-> In x (mkeys op) /\ x <> "0"%string) -> NoDup (o m (mkeys i)) /\ forall id, In id (o m (mkeys i)) <-> party op id.
Proof.
  intros Ho Hn K. split. { eapply Permutation_NoDup; [symmetry; apply Ho|exact Hn]. }
  intros id. unfold party. rewrite <- K. split; intros X; (eapply Permutation_in; [|exact X]); [|symmetry]; apply Ho.
Qed.
Lemma pending_step l op sc pool id todo ev : (l < QCount pp)%nat -> ct_ok pp l op -> hoist_ready pp pool op -> ev_ok pp ev -> pending l op pool (id :: todo) ->
  exists pool' ev', hoistInto ce [id] (mkCk op sc) pool ev = Ok (pool', ev') /\ (forall c, hoist_ready pp pool c -> hoist_ready pp pool' c) /\ ev_ok pp ev' /\ pending l op pool' todo /\
    forall x, x <> id -> sget pool' x = sget pool x.
Proof.
  intros Hl Hc Hr Hev (N0 & Hs & Ha). inversion N0 as [|? ? Hni N1]; subst.
  destruct (hoist_into ce He l op sc Hl Hc [id] pool ev) as (pool' & ev' & E & Mo & Hev' & Hd & Hu); auto. { constructor; [auto|constructor]. } { intros x [<-|[]]. apply Hs. now left. }
  exists pool', ev'. split; [exact E|]. split; [exact Mo|]. split; [exact Hev'|].
  assert (Hu' : forall x, x <> id -> sget pool' x = sget pool x) by (intros x Hx; apply Hu; intros [<-|[]]; now apply Hx).
  split; [|exact Hu']. split; [exact N1|]. split. { intros x Hx. apply Hs. now right. }
  intros x Hx. destruct (string_dec x id) as [->|Hne]; [right; apply Hd; now left|]. destruct (Ha x Hx) as [[<-|Hi]|Hi]; [now elim Hne|now left|right].
  destruct Hi as (p & s1 & s2 & k & k' & E1 & E2 & E3). exists p, s1, s2, k, k'. split; [exact E1|]. rewrite (Hu' x Hne). auto.
Qed.
(** a call's own step *)
Lemma own_step i rs t : Rinv rs -> Tinv rs i t -> exists pc' rs' ev', callStep ce (t_call t) (t_pc t) rs (t_ev t) = Ok (pc', rs', ev') /\ Rinv rs' /\ Tinv rs' i (mkThread (t_call t) pc' ev') /\ local i rs rs'.
Proof.
  intros [Hk Hr] (Ec & Hev & Hpc). destruct (HC i) as [HS Hsame Hh0 Hh1 Ho Hn]. pose proof HS as [M0 M1 L0 L1 _ _ _ _ _]. destruct t as [c pc ev]. cbn [t_call t_pc t_ev] in *. subst c.
  assert (LR : local i rs rs) by (intros id _; auto).
  destruct pc as [|[|id todo]|[|id todo]| |out|p]; cbn [callStep].
  - destruct (ctIDSet_ok (cc_o (calls i)) (o0 i) Ho) as (i0 & E0 & Q0 & K0). rewrite E0. cbn [bind]. eexists _, _, _. split; [reflexivity|]. split; [split; assumption|]. split; [|exact LR].
    destruct (order_ids _ i0 (o0 i) 1%nat Ho (proj1 Q0) K0) as [A1 A2]. split; [reflexivity|]. split; [exact Hev|]. cbn. split; [exact A1|]. split; [intros; now apply A2|]. intros id Hid. left. now apply A2.
  - destruct Hpc as (_ & _ & Hd). assert (HH : hoisted_at (ce_env ce) (l0 i) (o0 i) (rs_h0 rs)) by (intros id Hid; destruct (Hd id Hid) as [[]|X]; exact X).
    destruct (cc_same (calls i)) eqn:Es.
    + eexists _, _, _. split; [reflexivity|]. split; [split; assumption|]. split; [|exact LR]. split; [reflexivity|]. split; [exact Hev|]. cbn. split; [exact HH|]. congruence.
    + destruct (ctIDSet_ok (cc_o (calls i)) (o1 i) Ho) as (i1 & E1 & Q1 & K1). rewrite E1. cbn [bind]. eexists _, _, _. split; [reflexivity|]. split; [split; assumption|]. split; [|exact LR].
      destruct (order_ids _ i1 (o1 i) 2%nat Ho (proj1 Q1) K1) as [A1 A2]. split; [reflexivity|]. split; [exact Hev|]. cbn. split; [exact Es|]. split; [exact HH|]. split; [exact A1|]. split; [intros; now apply A2|]. intros id Hid. left. now apply A2.
  - destruct (pending_step (l0 i) (o0 i) (c_scale (cc_op0 (calls i))) (rs_h0 rs) id todo ev L0 M0) as (h' & ev' & E & Mo & Hev' & Hp & Hu); auto. { apply Hr. }
    assert (Hid : party (o0 i) id) by (apply Hpc; now left).
    replace (mkCk (o0 i) (c_scale (cc_op0 (calls i)))) with (cc_op0 (calls i)) in E by (now destruct (cc_op0 (calls i))). rewrite E. cbn [bind].
    eexists _, _, _. split; [reflexivity|]. split; [|split]. { split; [exact Hk|]. intros j. cbn. split; [apply Mo|]; apply Hr. } { split; [reflexivity|]. split; [exact Hev'|]. exact Hp. }
    intros x Hx. cbn. split; [|reflexivity]. apply Hu. intros ->. apply Hx. now left.
  - destruct Hpc as (Es & HH & _ & _ & Hd). eexists _, _, _. split; [reflexivity|]. split; [split; assumption|]. split; [|exact LR]. split; [reflexivity|]. split; [exact Hev|]. cbn. split; [exact HH|]. intros _ id Hid. destruct (Hd id Hid) as [[]|X]; exact X.
  - destruct Hpc as (Es & HH & Hpc). destruct (pending_step (l1 i) (o1 i) (c_scale (cc_op1 (calls i))) (rs_h1 rs) id todo ev L1 M1) as (h' & ev' & E & Mo & Hev' & Hp & Hu); auto. { apply Hr. }
    assert (Hid : party (o1 i) id) by (apply Hpc; now left).
    replace (mkCk (o1 i) (c_scale (cc_op1 (calls i)))) with (cc_op1 (calls i)) in E by (now destruct (cc_op1 (calls i))). rewrite E. cbn [bind].
    eexists _, _, _. split; [reflexivity|]. split; [|split]. { split; [exact Hk|]. intros j. cbn. split; [|apply Mo]; apply Hr. } { split; [reflexivity|]. split; [exact Hev'|]. cbn. auto. }
    intros x Hx. cbn. split; [reflexivity|]. apply Hu. intros ->. apply Hx. now right.
  - destruct Hpc as [HH0 HH1]. rewrite Hk. set (h1 := if cc_same (calls i) then rs_h0 rs else rs_h1 rs).
    assert (HH : hoisted_at (ce_env ce) (l1 i) (o1 i) h1). { unfold h1. destruct (cc_same (calls i)) eqn:Es; [|now apply HH1]. assert (Eo : o1 i = o0 i) by (now rewrite Hsame). rewrite (levels_same i Eo), Eo. exact HH0. }
    destruct (mul_hoisted_new ce He g A U s r Bs Be Dm (o0 i) (o1 i) (c_scale (cc_op0 (calls i))) (c_scale (cc_op1 (calls i))) (l0 i) (l1 i) (rs_keys rs0) (Some (rs_h0 rs)) (Some h1) (cc_o (calls i)) ev HS HH0 HH Ho Hev) as [G _].
    destruct (G (n i) Hn) as (out & ev' & E & Hev' & HR). destruct (cc_op0 (calls i)) as [x0 y0] eqn:X0, (cc_op1 (calls i)) as [x1 y1] eqn:X1. cbn [c_ct c_scale] in *. rewrite E. cbn [bind].
    eexists _, _, _. split; [reflexivity|]. split; [split; [assumption|]|]. { intros j. apply Hr. } split; [|exact LR]. split; [reflexivity|]. split; [exact Hev'|]. cbn. unfold product_of. rewrite X0, X1. exact HR.
  - eexists _, _, _. split; [reflexivity|]. split; [split; assumption|]. split; [|exact LR]. split; [reflexivity|]. split; [exact Hev|]. exact Hpc.
  - destruct Hpc.
Qed.
(** another call's step *)
Lemma hoisted_keep l op h h' : (forall id, party op id -> sget h' id = sget h id) -> hoisted_at (ce_env ce) l op h -> hoisted_at (ce_env ce) l op h'.
Proof. intros E H id Hid. destruct (H id Hid) as (p & s1 & s2 & k & k' & E1 & E2 & E3). exists p, s1, s2, k, k'. rewrite (E id Hid). auto. Qed.
Lemma pending_keep l op h h' todo : (forall id, party op id -> sget h' id = sget h id) -> pending l op h todo -> pending l op h' todo.
Proof.
  intros E (H1 & H2 & H3). split; [auto|]. split; [auto|]. intros id Hid. destruct (H3 id Hid) as [X|(p & s1 & s2 & k & k' & E1 & E2 & E3)]; [now left|]. right. exists p, s1, s2, k, k'. rewrite (E id Hid). auto.
Qed.
Lemma other_step i j rs rs' t : local i rs rs' -> apart (calls i) (calls j) \/ at_rest (t_pc t) -> Tinv rs j t -> Tinv rs' j t.
Proof.
  intros HL HA (Ec & Hev & Hpc). split; [exact Ec|]. split; [exact Hev|].
  destruct HA as [HA|HA]; [|destruct (t_pc t); cbn in HA; try contradiction; exact Hpc].
  assert (E : forall id, involves (calls j) id -> sget (rs_h0 rs') id = sget (rs_h0 rs) id /\ sget (rs_h1 rs') id = sget (rs_h1 rs) id). { intros id Hid. apply HL. intros Hi. exact (HA id Hi Hid). }
  assert (E0 : forall id, party (o0 j) id -> sget (rs_h0 rs') id = sget (rs_h0 rs) id) by (intros id Hid; apply E; now left).
  assert (E1 : forall id, party (o1 j) id -> sget (rs_h1 rs') id = sget (rs_h1 rs) id) by (intros id Hid; apply E; now right).
  destruct (t_pc t); auto.
  - now apply (pending_keep _ _ (rs_h0 rs)).
  - destruct Hpc as (X1 & X2 & X3). split; [auto|]. split; [now apply (hoisted_keep _ _ (rs_h0 rs))|now apply (pending_keep _ _ (rs_h1 rs))].
  - destruct Hpc as (X1 & X2). split; [now apply (hoisted_keep _ _ (rs_h0 rs))|]. intros Es. apply (hoisted_keep _ _ (rs_h1 rs)); auto.
Qed.
Lemma world_step i w : Winv w -> (forall j, j <> i -> apart (t_call (w_t w i)) (t_call (w_t w j)) \/ at_rest (t_pc (w_t w j))) -> Winv (cstep ce i w).
Proof.
  intros [HR HT] HA. destruct (own_step i (w_rs w) (w_t w i) HR (HT i)) as (pc' & rs' & ev' & E & HR' & HT' & HL). unfold cstep. rewrite E. split; [exact HR'|]. cbn [w_rs w_t]. intros j.
  destruct (Nat.eqb_spec j i) as [->|Hne]; [exact HT'|]. apply (other_step i j (w_rs w)); auto.
  specialize (HA j Hne). destruct (HT i) as [Ei _]. destruct (HT j) as [Ej _]. rewrite Ei, Ej in HA. exact HA.
Qed.
Lemma run_inv : forall sched w, Winv w -> orderly ce w sched -> Winv (crun ce sched w).
Proof. induction sched as [|i l IH]; intros w HW HO; [exact HW|]. inversion HO as [|? ? ? H1 H2]; subst. cbn [crun fold_left]. apply IH; [now apply world_step|exact H2]. Qed.
(** how many steps a call still needs at most *)
Definition todo_steps (i : nat) (pc : cpc) : nat :=
  match pc with
  | CStart => length (mkeys (o0 i)) + length (mkeys (o1 i)) + 4 | CDec0 t => length t + length (mkeys (o1 i)) + 3 | CDec1 t => length t + 2
  | CMul => 1 | CRet _ | CPanic _ => 0
  end%nat.
Lemma ids_len (o : order) (i : idset) (op : ciphertext) m : order_ok o -> NoDup (mkeys i) -> (forall x, In x (mkeys i) <-> In x (mkeys op) /\ x <> "0"%string) -> (length (o m (mkeys i)) <= length (mkeys op))%nat.
Proof. intros Ho Hn K. rewrite (Permutation_length (Ho m (mkeys i))). apply NoDup_incl_length; [exact Hn|]. intros x Hx. now apply K. Qed.
Lemma own_progress i rs t pc' rs' ev' : Rinv rs -> Tinv rs i t -> callStep ce (t_call t) (t_pc t) rs (t_ev t) = Ok (pc', rs', ev') -> (todo_steps i pc' <= todo_steps i (t_pc t) - 1)%nat.
Proof.
  intros [Hk Hr] (Ec & Hev & Hpc) E. destruct (HC i) as [HS Hsame Hh0 Hh1 Ho Hn]. destruct t as [c pc ev]. cbn [t_call t_pc t_ev] in *. subst c.
  destruct pc as [|[|id todo]|[|id todo]| |out|p]; cbn [callStep] in E.
  - destruct (ctIDSet_ok (cc_o (calls i)) (o0 i) Ho) as (i0 & E0 & Q0 & K0). rewrite E0 in E. cbn [bind] in E. injection E as <- _ _. cbn [todo_steps]. pose proof (ids_len _ i0 (o0 i) 1%nat Ho (proj1 Q0) K0). lia.
  - destruct (cc_same (calls i)). { injection E as <- _ _. cbn. lia. } destruct (ctIDSet_ok (cc_o (calls i)) (o1 i) Ho) as (i0 & E0 & Q0 & K0). rewrite E0 in E. cbn [bind] in E. injection E as <- _ _. cbn [todo_steps length]. pose proof (ids_len _ i0 (o1 i) 2%nat Ho (proj1 Q0) K0). lia.
  - apply bind_inv in E as ([h ev1] & _ & E). injection E as <- _ _. cbn [todo_steps length]. lia.
  - injection E as <- _ _. cbn. lia.
  - apply bind_inv in E as ([h ev1] & _ & E). injection E as <- _ _. cbn [todo_steps length]. lia.
  - apply bind_inv in E as ([h ev1] & _ & E). injection E as <- _ _. cbn [todo_steps]. lia.
  - injection E as <- _ _. cbn. lia.
  - injection E as <- _ _. cbn. lia.
Qed.
Lemma run_progress i : forall sched w, Winv w -> orderly ce w sched -> (todo_steps i (t_pc (w_t (crun ce sched w) i)) <= todo_steps i (t_pc (w_t w i)) - count_occ Nat.eq_dec sched i)%nat.
Proof.
  induction sched as [|j l IH]; intros w HW HO; [cbn; lia|]. inversion HO as [|? ? ? H1 H2]; subst. cbn [crun fold_left]. fold (crun ce l (cstep ce j w)).
  specialize (IH (cstep ce j w) (world_step j w HW H1) H2). etransitivity; [exact IH|].
  destruct HW as [HR HT]. destruct (own_step j (w_rs w) (w_t w j) HR (HT j)) as (pc' & rs' & ev' & E & _). pose proof (own_progress j _ _ _ _ _ HR (HT j) E) as HP.
  unfold cstep. rewrite E. cbn [w_t count_occ]. destruct (Nat.eqb_spec i j) as [->|Hne].
  - cbn [t_pc]. destruct (Nat.eq_dec j j); [lia|congruence].
  - destruct (Nat.eq_dec j i); [congruence|]. lia.
Qed.
Theorem orderly_correct evs sched : (forall i, ev_ok pp (evs i)) -> let w := mkWorld rs0 (fun i => mkThread (calls i) CStart (evs i)) in orderly ce w sched ->
  forall i, (forall p, t_pc (w_t (crun ce sched w) i) <> CPanic p) /\ (forall out, t_pc (w_t (crun ce sched w) i) = CRet out -> product_of ce s Bs Be Dm (l0 i) (l1 i) (n i) (calls i) out) /\
    ((length (mkeys (o0 i)) + length (mkeys (o1 i)) + 4 <= count_occ Nat.eq_dec sched i)%nat -> exists out, t_pc (w_t (crun ce sched w) i) = CRet out).
Proof.
  intros Hev w HO i. assert (HW : Winv w).
  { split; [split; [reflexivity|]; intros j; destruct (HC j); auto|]. intros j. split; [reflexivity|]. split; [apply Hev|]. exact I. }
  destruct (run_inv sched w HW HO) as [_ HT]. destruct (HT i) as (_ & _ & H). split; [|split].
  - intros p E. rewrite E in H. exact H.
  - intros out E. rewrite E in H. exact H.
  - intros Hc. pose proof (run_progress i sched w HW HO) as HP. cbn [w w_t t_pc] in HP. change (t_pc (w_t w i)) with CStart in HP. cbn [todo_steps] in HP.
    destruct (t_pc (w_t (crun ce sched w) i)); cbn [todo_steps] in HP; first [contradiction|lia|eauto].
Qed.
End P.

(** * a goroutine alone does what MulRelinNew does *)
Section S.
Context (ce : ckenv).
Lemma hoist_cons id L op pool ev : hoistInto ce (id :: L) op pool ev = bind (hoistInto ce [id] op pool ev) (fun '(p, e) => hoistInto ce L op p e).
Proof.
  unfold hoistInto. cbn [foldM]. destruct (ctLevel (c_ct op)) as [l|]; [|reflexivity]. cbn [bind]. destruct (mptr _ (c_ct op) id); [|reflexivity]. cbn [bind]. destruct (mptr _ pool id); [|reflexivity]. cbn [bind].
  destruct (Decompose _ _ _ _ _) as [[ad k]|]; reflexivity.
Qed.
(** goroutine i, alone, comes to a state with property Q *)
Inductive goes (c : ccall) (Q : cpc * rlkpool * evst -> Prop) : cpc * rlkpool * evst -> Prop :=
| goes_0 x : Q x -> goes c Q x
| goes_S pc rs ev y : callStep ce c pc rs ev = Ok y -> goes c Q y -> goes c Q (pc, rs, ev)
| goes_P pc rs ev p : callStep ce c pc rs ev = Panic p -> goes c Q (CPanic p, rs, ev) -> goes c Q (pc, rs, ev).
Lemma goes_run i c Q x : goes c Q x -> forall w, w_rs w = snd (fst x) -> w_t w i = mkThread c (fst (fst x)) (snd x) ->
  exists k z, let w' := crun ce (repeat i k) w in Q z /\ w_rs w' = snd (fst z) /\ w_t w' i = mkThread c (fst (fst z)) (snd z) /\ forall j, j <> i -> w_t w' j = w_t w j.
Proof.
  induction 1 as [x H|pc rs ev [[pc1 rs1] ev1] E G IH|pc rs ev p E G IH]; intros w Hr Ht; cbn [fst snd] in *.
  - exists 0%nat, x. cbn. auto.
  - destruct (IH (cstep ce i w)) as (k & z & K0 & K1 & K2 & K3). { unfold cstep. rewrite Ht. cbn [t_call t_pc t_ev]. rewrite Hr, E. reflexivity. } { unfold cstep. rewrite Ht. cbn [t_call t_pc t_ev]. rewrite Hr, E. cbn. now rewrite Nat.eqb_refl. }
    exists (S k), z. cbn [repeat crun fold_left]. fold (crun ce (repeat i k) (cstep ce i w)). split; [exact K0|]. split; [exact K1|]. split; [exact K2|]. intros j Hj. rewrite (K3 j Hj). unfold cstep. rewrite Ht. cbn [t_call t_pc t_ev]. rewrite Hr, E. cbn. destruct (Nat.eqb_spec j i); congruence.
  - destruct (IH (cstep ce i w)) as (k & z & K0 & K1 & K2 & K3). { unfold cstep. rewrite Ht. cbn [t_call t_pc t_ev]. rewrite Hr, E. reflexivity. } { unfold cstep. rewrite Ht. cbn [t_call t_pc t_ev]. rewrite Hr, E. cbn. now rewrite Nat.eqb_refl. }
    exists (S k), z. cbn [repeat crun fold_left]. fold (crun ce (repeat i k) (cstep ce i w)). split; [exact K0|]. split; [exact K1|]. split; [exact K2|]. intros j Hj. rewrite (K3 j Hj). unfold cstep. rewrite Ht. cbn [t_call t_pc t_ev]. rewrite Hr, E. cbn. destruct (Nat.eqb_spec j i); congruence.
Qed.
Lemma goes_dec0 c Q : forall L rs ev, (forall p, hoistInto ce L (cc_op0 c) (rs_h0 rs) ev = Panic p -> forall rs' ev', goes c Q (CPanic p, rs', ev')) ->
  (forall h ev', hoistInto ce L (cc_op0 c) (rs_h0 rs) ev = Ok (h, ev') -> goes c Q (CDec0 [], mkRlkSet (rs_keys rs) h (rs_h1 rs), ev')) -> goes c Q (CDec0 L, rs, ev).
Proof.
  induction L as [|id L IH]; intros rs ev HP HO. { specialize (HO _ _ eq_refl). now destruct rs. }
  rewrite hoist_cons in HP, HO. destruct (hoistInto ce [id] (cc_op0 c) (rs_h0 rs) ev) as [[h e]|p] eqn:E; cbn [bind] in HP, HO.
  - eapply goes_S. { cbn [callStep]. rewrite E. reflexivity. } apply IH; cbn [rs_h0 rs_keys rs_h1]; assumption.
  - eapply goes_P. { cbn [callStep]. rewrite E. reflexivity. } now apply HP.
Qed.
Lemma goes_dec1 c Q : forall L rs ev, (forall p, hoistInto ce L (cc_op1 c) (rs_h1 rs) ev = Panic p -> forall rs' ev', goes c Q (CPanic p, rs', ev')) ->
  (forall h ev', hoistInto ce L (cc_op1 c) (rs_h1 rs) ev = Ok (h, ev') -> goes c Q (CDec1 [], mkRlkSet (rs_keys rs) (rs_h0 rs) h, ev')) -> goes c Q (CDec1 L, rs, ev).
Proof.
  induction L as [|id L IH]; intros rs ev HP HO. { specialize (HO _ _ eq_refl). now destruct rs. }
  rewrite hoist_cons in HP, HO. destruct (hoistInto ce [id] (cc_op1 c) (rs_h1 rs) ev) as [[h e]|p] eqn:E; cbn [bind] in HP, HO.
  - eapply goes_S. { cbn [callStep]. rewrite E. reflexivity. } apply IH; cbn [rs_h0 rs_keys rs_h1]; assumption.
  - eapply goes_P. { cbn [callStep]. rewrite E. reflexivity. } now apply HP.
Qed.

Definition outcome (m : res (ckct * rlkpool * evst)) (x : cpc * rlkpool * evst) : Prop :=
  match m with Ok (out, rs, ev) => x = (CRet out, rs, ev) | Panic p => fst (fst x) = CPanic p end.
Lemma goes_mul c rs ev : order_ok (cc_o c) -> goes c (outcome (MulRelinNew ce (cc_o c) (cc_same c) (cc_op0 c) (cc_op1 c) rs ev)) (CStart, rs, ev).
Proof.
  intros Ho. destruct (ctIDSet_ok (cc_o c) (c_ct (cc_op0 c)) Ho) as (i0 & E0 & _). destruct (ctIDSet_ok (cc_o c) (c_ct (cc_op1 c)) Ho) as (i1 & E1 & _).
  eapply goes_S. { cbn [callStep]. rewrite E0. reflexivity. } unfold MulRelinNew. rewrite E0, E1. cbn [bind].
  apply goes_dec0. { intros p E rs' ev'. rewrite E. apply goes_0. now destruct (cc_same c). }
  intros h0 ev1 Eh. rewrite Eh. cbn [bind]. destruct (cc_same c) eqn:Es.
  - eapply goes_S. { cbn [callStep]. rewrite Es. reflexivity. }
    destruct (MulRelinHoistedNew ce (cc_o c) (cc_op0 c) (cc_op1 c) (Some h0) (Some h0) (rs_keys rs) ev1) as [[out ev2]|p] eqn:EM.
    + eapply goes_S. { cbn [callStep rs_h0 rs_keys]. rewrite Es, EM. reflexivity. } apply goes_0. reflexivity.
    + eapply goes_P. { cbn [callStep rs_h0 rs_keys]. rewrite Es, EM. reflexivity. } apply goes_0. reflexivity.
  - eapply goes_S. { cbn [callStep]. rewrite Es, E1. reflexivity. }
    apply goes_dec1. { cbn [rs_h1]. intros p E rs' ev'. rewrite E. now apply goes_0. } cbn [rs_h0 rs_h1 rs_keys]. intros h1 ev2 Eh1. rewrite Eh1. cbn [bind].
    eapply goes_S; [reflexivity|].
    destruct (MulRelinHoistedNew ce (cc_o c) (cc_op0 c) (cc_op1 c) (Some h0) (Some h1) (rs_keys rs) ev2) as [[out ev3]|p] eqn:EM.
    + eapply goes_S. { cbn [callStep rs_h0 rs_h1 rs_keys]. rewrite Es, EM. reflexivity. } apply goes_0. reflexivity.
    + eapply goes_P. { cbn [callStep rs_h0 rs_h1 rs_keys]. rewrite Es, EM. reflexivity. } apply goes_0. reflexivity.
Qed.
Theorem alone i w c ev : order_ok (cc_o c) -> w_t w i = mkThread c CStart ev -> exists k, let w' := crun ce (repeat i k) w in
  (forall j, j <> i -> w_t w' j = w_t w j) /\
  match MulRelinNew ce (cc_o c) (cc_same c) (cc_op0 c) (cc_op1 c) (w_rs w) ev with
  | Ok (out, rs', ev') => w_rs w' = rs' /\ w_t w' i = mkThread c (CRet out) ev'
  | Panic p => t_pc (w_t w' i) = CPanic p
  end.
Proof.
  intros Ho Ht. destruct (goes_run i c _ _ (goes_mul c (w_rs w) ev Ho) w eq_refl Ht) as (k & z & HQ & H1 & H2 & H3). exists k. split; [exact H3|].
  unfold outcome in HQ. destruct (MulRelinNew _ _ _ _ _ _ _) as [[[out rs'] ev']|p].
  - subst z. auto.
  - cbv zeta. now rewrite H2.
Qed.
End S.
