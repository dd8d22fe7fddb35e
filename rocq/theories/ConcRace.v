(** An interleaving of two calls with the same parties returns the mixed product. *)
From Coq Require Import String ZArith Znumtheory List Lia Bool Permutation Arith.
From Verif Require Import Spec SpecProofs Go GoProofs Arith NegRing NTT RingOps Maps MapsProofs Params Elements KeySwitch KeySets F64 EncDec Evaluator Repr KSProofs SpecCt KSSem SpecEnc EncProofs SpecEv EvProofs RescaleProofs EvThms AddThms MulEvThms Conc SpecConc ConcProofs RaceProofs.
Import ListNotations.
Local Open Scope Z_scope.
Local Open Scope list_scope.

Section P.
Context (ce : ckenv) (He : env_ok (ce_env ce)).
Notation pp := (e_pp (ce_env ce)).
Context (g : nat -> Z) (A U : nat -> zpoly) (s r : string -> zpoly) (Bs Be Dm : Z) (rs0 : rlkpool).
Context (l0 l1 n : nat -> nat) (calls : nat -> ccall) (HC : forall i, call_ok ce g A U s r Bs Be Dm rs0 (l0 i) (l1 i) (n i) (calls i)).
Notation o0 i := (c_ct (cc_op0 (calls i))).
Notation o1 i := (c_ct (cc_op1 (calls i))).
Notation TI := (Tinv ce s Bs Be Dm l0 l1 n calls).
Notation RI := (Rinv ce rs0 calls).
Notation steps := (todo_steps calls).
Definition running (pc : cpc) : Prop := match pc with CRet _ | CPanic _ => False | _ => True end.
Lemma step_running c pc rs ev pc' rs' ev' : running pc -> pc <> CMul -> callStep ce c pc rs ev = Ok (pc', rs', ev') -> running pc'.
Proof.
  intros Hr Hm E. destruct pc as [|[|id t]|[|id t]| |o|p]; cbn [callStep running] in *; try contradiction; try congruence.
  - apply bind_inv in E as (x & _ & E). injection E as <- _ _. exact I.
  - destruct (cc_same c); [injection E as <- _ _; exact I|]. apply bind_inv in E as (x & _ & E). injection E as <- _ _. exact I.
  - apply bind_inv in E as ([h e] & _ & E). injection E as <- _ _. exact I.
  - injection E as <- _ _; exact I.
  - apply bind_inv in E as ([h e] & _ & E). injection E as <- _ _. exact I.
Qed.
Lemma crun_cons i l w : crun ce (i :: l) w = crun ce l (cstep ce i w). Proof. reflexivity. Qed.
Lemma crun_app a b w : crun ce (a ++ b) w = crun ce b (crun ce a w). Proof. apply fold_left_app. Qed.
Lemma to_mul i : forall m w, (steps i (t_pc (w_t w i)) <= m)%nat -> RI (w_rs w) -> TI (w_rs w) i (w_t w i) -> running (t_pc (w_t w i)) ->
  exists k, let w' := crun ce (repeat i k) w in RI (w_rs w') /\ TI (w_rs w') i (w_t w' i) /\ t_pc (w_t w' i) = CMul /\ forall j, j <> i -> w_t w' j = w_t w j.
Proof.
  induction m as [|m IH]; intros w Hm HR HT Hrun.
  { exfalso. destruct (t_pc (w_t w i)); cbn in *; try contradiction; lia. }
  assert (HD : t_pc (w_t w i) = CMul \/ t_pc (w_t w i) <> CMul) by (destruct (t_pc (w_t w i)); (now left) || (right; discriminate)).
  destruct HD as [Em|Hne]. { exists 0%nat. cbn. auto. }
  destruct (own_step ce He g A U s r Bs Be Dm rs0 l0 l1 n calls HC i (w_rs w) (w_t w i) HR HT) as (pc' & rs' & ev' & E & HR' & HT' & _).
  pose proof (own_progress ce g A U s r Bs Be Dm rs0 l0 l1 n calls HC i _ _ _ _ _ HR HT E) as HP. pose proof (step_running _ _ _ _ _ _ _ Hrun Hne E) as Hr'.
  assert (Hs1 : (1 <= steps i (t_pc (w_t w i)))%nat) by (destruct (t_pc (w_t w i)); cbn in *; try contradiction; lia).
  assert (Ew : w_t (cstep ce i w) i = mkThread (t_call (w_t w i)) pc' ev') by (unfold cstep; rewrite E; cbn; now rewrite Nat.eqb_refl).
  assert (Er : w_rs (cstep ce i w) = rs') by (unfold cstep; now rewrite E).
  assert (Eo : forall j, j <> i -> w_t (cstep ce i w) j = w_t w j). { intros j Hj. unfold cstep. rewrite E. cbn. destruct (Nat.eqb_spec j i); congruence. }
  destruct (IH (cstep ce i w)) as (k & K1 & K2 & K3 & K4). { rewrite Ew. cbn [t_pc]. lia. } { now rewrite Er. } { now rewrite Er, Ew. } { now rewrite Ew. }
  exists (S k). cbn [repeat]. rewrite crun_cons. split; [exact K1|]. split; [exact K2|]. split; [exact K3|]. intros j Hj. rewrite (K4 j Hj). now apply Eo.
Qed.
Theorem race_effect evs i j : (forall k, ev_ok pp (evs k)) -> i <> j -> cc_same (calls i) = false -> cc_same (calls j) = false -> l0 j = l0 i -> l1 j = l1 i ->
  (forall id, In id (mkeys (o0 j)) <-> In id (mkeys (o0 i))) -> (forall id, In id (mkeys (o1 j)) <-> In id (mkeys (o1 i))) ->
  exists sched outi outj, let w := crun ce sched (mkWorld rs0 (fun k => mkThread (calls k) CStart (evs k))) in
    t_pc (w_t w i) = CRet outi /\ t_pc (w_t w j) = CRet outj /\
    mixed_result pp s Bs Be Dm (o0 i) (o1 i) (o0 j) (o1 j) (Nat.min (l0 i) (l1 i)) (n i) (fmul (c_scale (cc_op0 (calls i))) (c_scale (cc_op1 (calls i)))) outi /\
    product_of ce s Bs Be Dm (l0 j) (l1 j) (n j) (calls j) outj.
Proof.
  intros Hev Hij Si Sj E0 E1 K0 K1. set (w0 := mkWorld rs0 _).
  assert (HR0 : RI rs0) by (split; [reflexivity|]; intros k; destruct (HC k); auto).
  assert (HT0 : forall k, TI rs0 k (mkThread (calls k) CStart (evs k))) by (intros k; split; [reflexivity|]; split; [apply Hev|exact I]).
  destruct (to_mul i _ w0 (le_n _) HR0 (HT0 i) I) as (ki & R1 & T1 & P1 & O1). set (w1 := crun ce (repeat i ki) w0) in *.
  assert (Ej : w_t w1 j = mkThread (calls j) CStart (evs j)) by (rewrite O1 by auto; reflexivity).
  destruct (to_mul j _ w1 (le_n _) R1) as (kj & R2 & T2 & P2 & O2). { rewrite Ej. split; [reflexivity|]. split; [apply Hev|exact I]. } { rewrite Ej. exact I. }
  set (w2 := crun ce (repeat j kj) w1) in *. assert (Ei : w_t w2 i = w_t w1 i) by (apply O2; auto).
  destruct T1 as (C1 & V1 & _). pose proof T2 as (C2 & V2 & H2). rewrite P2 in H2. destruct H2 as [H20 H21]. specialize (H21 Sj). rewrite E0 in H20. rewrite E1 in H21.
  destruct (HC i) as [HS _ _ _ Ho Hn]. destruct (HC j) as [HSj _ _ _ _ _]. destruct R2 as [R2k R2h].
  destruct (race_new ce He g A U s r Bs Be Dm (o0 i) (o1 i) (o0 j) (o1 j) (c_scale (cc_op0 (calls i))) (c_scale (cc_op1 (calls i))) (l0 i) (l1 i) (n i) (rs_keys rs0) (rs_h0 (w_rs w2)) (rs_h1 (w_rs w2)) (cc_o (calls i)) (t_ev (w_t w1 i)) HS) as (outi & ev' & Eq & _ & HM); auto.
  { rewrite <- E0. apply HSj. } { rewrite <- E1. apply HSj. }
  assert (X : w_rs (cstep ce i w2) = w_rs w2 /\ t_pc (w_t (cstep ce i w2) i) = CRet outi /\ forall k, k <> i -> w_t (cstep ce i w2) k = w_t w2 k).
  { unfold cstep. rewrite Ei, C1, P1. cbn [callStep]. rewrite Si, R2k. destruct (cc_op0 (calls i)) as [x0 y0] eqn:X0, (cc_op1 (calls i)) as [x1 y1] eqn:X1. cbn [c_ct c_scale] in *. rewrite Eq. cbn [bind w_rs w_t].
    split; [reflexivity|]. split; [now rewrite Nat.eqb_refl|]. intros k Hk. destruct (Nat.eqb_spec k i); congruence. }
  destruct X as (X1 & X2 & X3). set (w3 := cstep ce i w2) in *.
  destruct (own_step ce He g A U s r Bs Be Dm rs0 l0 l1 n calls HC j (w_rs w3) (w_t w3 j)) as (pc' & rs' & ev'' & E & _ & HT' & _). { rewrite X1. split; assumption. } { rewrite X1, X3 by auto. exact T2. }
  rewrite X3, P2 in E by auto. assert (Epc : exists out, pc' = CRet out). { cbn [callStep] in E. apply bind_inv in E as ([o e] & _ & E). injection E as <- _ _. eauto. } destruct Epc as (outj & ->).
  exists (repeat i ki ++ repeat j kj ++ [i; j]), outi, outj. rewrite !crun_app. fold w1. fold w2. rewrite !crun_cons. fold w3. cbn [crun fold_left].
  assert (Y : t_pc (w_t (cstep ce j w3) i) = CRet outi /\ t_pc (w_t (cstep ce j w3) j) = CRet outj).
  { unfold cstep at 1 2. rewrite (X3 j) by auto. rewrite P2, E. cbn [w_t]. rewrite Nat.eqb_refl. destruct (Nat.eqb_spec i j); [congruence|]. auto. }
  destruct Y as [Y1 Y2]. split; [exact Y1|]. split; [exact Y2|]. split; [exact HM|]. apply HT'.
Qed.
End P.
