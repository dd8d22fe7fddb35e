(** Copies of Parameters share their map of common reference strings. *)
From Coq Require Import ZArith List String Bool Lia Permutation.
From Verif Require Import Go GoProofs Lattigo RingOps Maps MapsProofs Params ParamVars SpecVars ConcProofs.
Import ListNotations.
Local Open Scope Z_scope.

Lemma setNth_len {A} n (a : A) : forall l, List.length (setNth n a l) = List.length l.
Proof. induction n as [|n IH]; intros [|b l]; cbn; auto. Qed.
Lemma setNth_same {A} n (a : A) : forall l, (n < List.length l)%nat -> nth_error (setNth n a l) n = Some a.
Proof. induction n as [|n IH]; intros [|b l] H; cbn in *; try lia; auto. apply IH. lia. Qed.
Lemma setNth_other {A} n m (a : A) : forall l, n <> m -> nth_error (setNth n a l) m = nth_error l m.
Proof. revert m. induction n as [|n IH]; intros [|m] [|b l] H; cbn; auto; try congruence. Qed.
Lemma idx_some {A} (l : list A) i a : idx l i = Ok a <-> nth_error l i = Some a.
Proof. unfold idx. destruct (nth_error l i); split; congruence. Qed.

Definition linked (t : list pop) (st : pstate) (fams : list nat) (x : string) : Prop :=
  match sget (ps_vars st) x with
  | None => origin t x = None
  | Some v => match pv_map v with
              | None => origin t x = None
              | Some a => exists n m, nth_error fams a = Some n /\ origin t x = Some n /\ nth_error (ps_maps st) a = Some m /\ family t n = Ok (withCRS (pv_fixed v) m)
              end
  end.
Definition inv (t : list pop) (st : pstate) : Prop := exists fams, NoDup fams /\ List.length fams = List.length (ps_maps st) /\ (forall n, In n fams -> (n < List.length t)%nat) /\ forall x, linked t st fams x.

Lemma sget_set {A} (m : smap A) x y a : sget (sset m x a) y = if String.eqb y x then Some a else sget m y.
Proof. destruct (String.eqb_spec y x) as [->|H]; [apply (mget_mset_same _ seqb)|apply (mget_mset_other _ seqb); auto]. Qed.
Lemma step_inv t st op st' : inv t st -> pstep st op = Ok st' -> inv (op :: t) st'.
Proof.
  intros (fams & Hnd & Hlen & Hlt & HL) E.
  assert (FN : forall n, In n fams -> Nat.eqb (List.length t) n = false) by (intros n Hn; apply Nat.eqb_neq; specialize (Hlt n Hn); lia).
  destruct op as [x logN Q P psiQ psiP gamma smp|x y|x|x ix smp]; cbn [pstep] in E.
  - apply bind_inv in E as (pp & Ep & E). injection E as <-. exists (fams ++ [List.length t]). cbn [ps_maps ps_vars]. split; [|split; [|split]].
    + apply (Permutation_NoDup (Permutation_cons_append fams (List.length t))). constructor; auto. intros Hn. specialize (Hlt _ Hn). lia.
    + rewrite !app_length. cbn. lia.
    + intros n Hn. apply in_app_iff in Hn as [Hn|[<-|[]]]; cbn; [specialize (Hlt _ Hn); lia|lia].
    + intros z. unfold linked. cbn [ps_vars ps_maps]. rewrite sget_set. cbn [origin]. destruct (String.eqb z x) eqn:Ez.
      * cbn [pv_map pv_fixed]. exists (List.length t), (pa_CRS pp). rewrite <- Hlen. rewrite (nth_error_app2 fams) by lia. rewrite Nat.sub_diag. rewrite (nth_error_app2 (ps_maps st)) by lia. replace (List.length fams - List.length (ps_maps st))%nat with O by lia.
        split; [reflexivity|]. split; [reflexivity|]. split; [reflexivity|]. cbn [family]. rewrite Nat.eqb_refl, Ep. destruct pp; reflexivity.
      * specialize (HL z). unfold linked in HL. destruct (sget (ps_vars st) z) as [v|]; [|exact HL]. destruct (pv_map v) as [a|]; [|exact HL]. destruct HL as (n & m & H1 & H2 & H3 & H4). exists n, m.
        split; [rewrite nth_error_app1; [auto|apply nth_error_Some; congruence]|]. split; [auto|]. split; [rewrite nth_error_app1; [auto|apply nth_error_Some; congruence]|]. cbn [family]. rewrite FN by (eapply nth_error_In; eauto). exact H4.
  - apply bind_inv in E as (v & Ev & E). injection E as <-. unfold mptr in Ev. destruct (sget (ps_vars st) y) as [v'|] eqn:Ey; [|discriminate]. injection Ev as ->.
    exists fams. cbn [ps_maps ps_vars]. split; [auto|]. split; [auto|]. split; [intros n Hn; specialize (Hlt n Hn); cbn; lia|].
    intros z. unfold linked. cbn [ps_vars ps_maps origin]. rewrite sget_set. pose proof (HL y) as Hy. unfold linked in Hy. rewrite Ey in Hy. destruct (String.eqb z x).
    + destruct (pv_map v) as [a0|]; [|exact Hy]. destruct Hy as (n & m & H1 & H2 & H3 & H4). exists n, m. repeat split; auto. cbn [family]. rewrite FN by (eapply nth_error_In; eauto). exact H4.
    + specialize (HL z). unfold linked in HL. destruct (sget (ps_vars st) z) as [w|]; [|exact HL]. destruct (pv_map w) as [a0|]; [|exact HL]. destruct HL as (n & m & H1 & H2 & H3 & H4). exists n, m. repeat split; auto. cbn [family]. rewrite FN by (eapply nth_error_In; eauto). exact H4.
  - injection E as <-. exists fams. cbn [ps_maps ps_vars]. split; [auto|]. split; [auto|]. split; [intros n Hn; specialize (Hlt n Hn); cbn; lia|].
    intros z. unfold linked. cbn [ps_vars ps_maps origin]. rewrite sget_set. destruct (String.eqb z x); [reflexivity|].
    specialize (HL z). unfold linked in HL. destruct (sget (ps_vars st) z) as [w|]; [|exact HL]. destruct (pv_map w) as [a0|]; [|exact HL]. destruct HL as (n & m & H1 & H2 & H3 & H4). exists n, m. repeat split; auto. cbn [family]. rewrite FN by (eapply nth_error_In; eauto). exact H4.
  - apply bind_inv in E as (v & Ev & E). unfold mptr in Ev. destruct (sget (ps_vars st) x) as [v'|] eqn:Ex; [|discriminate]. injection Ev as ->. destruct (pv_map v) as [a|] eqn:Ea; [|discriminate].
    apply bind_inv in E as (rows & Er & E). apply bind_inv in E as (m0 & Em & E). injection E as <-. apply idx_some in Em.
    pose proof (HL x) as Hx. unfold linked in Hx. rewrite Ex, Ea in Hx. destruct Hx as (n0 & m1 & X1 & X2 & X3 & X4). rewrite Em in X3. injection X3 as <-.
    exists fams. cbn [ps_maps ps_vars]. split; [auto|]. split; [now rewrite setNth_len|]. split; [intros n Hn; specialize (Hlt n Hn); cbn; lia|].
    intros z. unfold linked. cbn [ps_vars ps_maps origin]. specialize (HL z). unfold linked in HL. destruct (sget (ps_vars st) z) as [w|]; [|exact HL]. destruct (pv_map w) as [b|]; [|exact HL]. destruct HL as (n & m & H1 & H2 & H3 & H4).
    destruct (Nat.eq_dec a b) as [<-|Hab].
    + rewrite X1 in H1. injection H1 as <-. rewrite Em in H3. injection H3 as <-. exists n0, (zset m0 ix rows). split; [auto|]. split; [auto|]. split; [apply setNth_same, nth_error_Some; congruence|].
      cbn [family]. rewrite FN by (eapply nth_error_In; eauto). rewrite X2, Nat.eqb_refl, H4. cbn [bind]. unfold AddCRS. 
      rewrite X4 in H4. injection H4 as G1 G2 G3 G4 G5 G6.
      assert (GE : genCRS (withCRS (pv_fixed w) m0) (Beta (withCRS (pv_fixed w) m0) (maxLevel (withCRS (pv_fixed w) m0))) (smp ix) = Ok rows).
      { rewrite <- Er. unfold genCRS, MFormQP, Beta, Alpha, maxLevel, levelP, QCount, PCount, ringQ, ringP, withCRS. cbn [pa_logN pa_Q pa_P pa_psiQ pa_psiP pa_gamma pa_CRS]. now rewrite G1, G2, G3, G4, G5, G6. }
      rewrite GE. reflexivity.
    + exists n, m. split; [auto|]. split; [auto|]. split; [rewrite setNth_other; auto|]. cbn [family]. rewrite FN by (eapply nth_error_In; eauto). rewrite X2. destruct (Nat.eqb_spec n0 n) as [<-|]; [|exact H4].
      exfalso. apply Hab. eapply (proj1 (NoDup_nth_error fams) Hnd); [apply nth_error_Some; congruence|congruence].
Qed.
Lemma run_inv ops : forall t st st', inv t st -> prun ops st = Ok st' -> inv (rev ops ++ t) st'.
Proof.
  induction ops as [|op ops IH]; intros t st st' HI E; cbn [prun] in E; [injection E as <-; exact HI|]. apply bind_inv in E as (s1 & E1 & E). cbn [rev]. rewrite <- app_assoc. cbn [app]. eapply IH; [eapply step_inv; eauto|exact E].
Qed.
Lemma inv0 : inv [] ps0.
Proof. exists []. split; [constructor|]. split; [reflexivity|]. split; [intros n []|]. intros x. reflexivity. Qed.
Lemma view_linked t st fams x n : linked t st fams x -> origin t x = Some n -> view st x = family t n.
Proof.
  unfold linked, view, mptr. intros H Ho. destruct (sget (ps_vars st) x) as [v|]; [|congruence]. cbn [bind]. destruct (pv_map v) as [a|]; [|congruence]. destruct H as (k & m & _ & H2 & H3 & H4). apply idx_some in H3. rewrite H3. cbn [bind]. congruence.
Qed.
Lemma shared ops st : prun ops ps0 = Ok st -> forall x n, origin (rev ops) x = Some n -> view st x = family (rev ops) n /\ exists pp, family (rev ops) n = Ok pp.
Proof.
  intros E x n Ho. destruct (run_inv ops [] ps0 st inv0 E) as (fams & _ & _ & _ & HL). rewrite app_nil_r in HL. split; [exact (view_linked _ _ _ _ _ (HL x) Ho)|].
  specialize (HL x). unfold linked in HL. destruct (sget (ps_vars st) x) as [v|]; [|congruence]. destruct (pv_map v) as [a|]; [|congruence]. destruct HL as (k & m & _ & H2 & H3 & H4). rewrite Ho in H2. injection H2 as <-. eauto.
Qed.

(** one AddCRS, seen through every variable *)
Lemma add_seen ops st y ix smp st' : prun ops ps0 = Ok st -> prun (ops ++ [PAdd y ix smp]) ps0 = Ok st' ->
  exists n pp pp', origin (rev ops) y = Some n /\ view st y = Ok pp /\ AddCRS pp ix smp = Ok pp' /\
    (forall x, origin (rev ops) x = Some n -> view st' x = Ok pp') /\
    (forall x, origin (rev ops) x <> Some n -> view st' x = view st x).
Proof.
  intros E E'. assert (E1 : pstep st (PAdd y ix smp) = Ok st'). { revert E E'. generalize ps0. induction ops as [|op ops IH]; intros s E E'; cbn [prun app] in *; [injection E as <-; apply bind_inv in E' as (s1 & E1 & E'); injection E' as <-; exact E1|]. destruct (pstep s op) as [s1|]; [|discriminate]. cbn [bind] in *. eauto. }
  destruct (run_inv ops [] ps0 st inv0 E) as (fams & Hnd & Hlen & Hlt & HL). rewrite app_nil_r in *. pose proof (run_inv _ [] ps0 st' inv0 E') as HI. rewrite rev_app_distr, app_nil_r in HI. cbn [rev app] in HI. destruct HI as (fams' & Hnd' & _ & _ & HL').
  pose proof (HL y) as Hy. unfold linked in Hy. cbn [pstep] in E1. apply bind_inv in E1 as (v & Ev & E1). unfold mptr in Ev. destruct (sget (ps_vars st) y) as [v0|] eqn:Ey; [|discriminate]. injection Ev as ->. destruct (pv_map v) as [a|] eqn:Ea; [|discriminate].
  destruct Hy as (n & m & X1 & X2 & X3 & X4). pose proof (view_linked _ _ _ _ _ (HL y) X2) as Vy. rewrite X4 in Vy.
  assert (Fn : family (PAdd y ix smp :: rev ops) n = AddCRS (withCRS (pv_fixed v) m) ix smp).
  { cbn [family]. assert (Nat.eqb (List.length (rev ops)) n = false) as -> by (apply Nat.eqb_neq; assert (n < List.length (rev ops))%nat by (apply Hlt; eapply nth_error_In; eauto); lia). rewrite X2, Nat.eqb_refl, X4. reflexivity. }
  pose proof (view_linked _ _ _ _ _ (HL' y) X2) as Vy'. rewrite Fn in Vy'.
  assert (exists pp', AddCRS (withCRS (pv_fixed v) m) ix smp = Ok pp') as (pp' & EA).
  { specialize (HL' y). unfold linked in HL'. apply bind_inv in E1 as (rows & Er & E1). apply bind_inv in E1 as (m1 & Em & E1). injection E1 as <-. cbn [ps_vars ps_maps] in HL'. rewrite Ey, Ea in HL'. destruct HL' as (k & m2 & _ & Y2 & _ & Y4). cbn [origin] in Y2. rewrite X2 in Y2. injection Y2 as <-. rewrite Fn in Y4. eauto. }
  exists n, (withCRS (pv_fixed v) m), pp'. split; [exact X2|]. split; [exact Vy|]. split; [exact EA|]. split.
  - intros x Hx. rewrite (view_linked _ _ _ _ n (HL' x) Hx). rewrite Fn. exact EA.
  - intros x Hx. apply bind_inv in E1 as (rows & Er & E1). apply bind_inv in E1 as (m1 & Em & E1). injection E1 as <-. unfold view. cbn [ps_vars ps_maps]. specialize (HL x). unfold linked in HL. unfold mptr. destruct (sget (ps_vars st) x) as [w|]; [|reflexivity]. cbn [bind].
    destruct (pv_map w) as [b|]; [|reflexivity]. destruct HL as (k & m2 & H1 & H2 & H3 & _). unfold idx. rewrite setNth_other; [reflexivity|]. intros <-. congruence.
Qed.
(** AddCRS succeeds on a copy exactly when it succeeds on the value it holds; on a zero value it panics *)
Lemma add_total ops st y ix smp : prun ops ps0 = Ok st ->
  match origin (rev ops) y with
  | None => exists p, prun (ops ++ [PAdd y ix smp]) ps0 = Panic p
  | Some n => exists pp, view st y = Ok pp /\ ((exists pp', AddCRS pp ix smp = Ok pp') <-> exists st', prun (ops ++ [PAdd y ix smp]) ps0 = Ok st')
  end.
Proof.
  intros E. assert (E1 : prun (ops ++ [PAdd y ix smp]) ps0 = pstep st (PAdd y ix smp)).
  { revert E. generalize ps0. induction ops as [|op ops IH]; intros s E; cbn [prun app] in *; [injection E as ->; destruct (pstep st (PAdd y ix smp)); reflexivity|]. destruct (pstep s op) as [s1|]; [|discriminate]. cbn [bind] in *. eauto. }
  destruct (run_inv ops [] ps0 st inv0 E) as (fams & Hnd & Hlen & Hlt & HL). rewrite app_nil_r in *. pose proof (HL y) as Hy. unfold linked in Hy.
  destruct (sget (ps_vars st) y) as [v|] eqn:Ey; [|rewrite Hy; rewrite E1; cbn [pstep]; unfold mptr; rewrite Ey; cbn [bind]; eauto].
  destruct (pv_map v) as [a|] eqn:Ea; [|rewrite Hy, E1; cbn [pstep]; unfold mptr; rewrite Ey; cbn [bind]; rewrite Ea; eauto].
  destruct Hy as (n & m & X1 & X2 & X3 & X4). pose proof (view_linked _ _ _ _ _ (HL y) X2) as Vy. rewrite X4 in Vy. rewrite X2. exists (withCRS (pv_fixed v) m). split; [exact Vy|]. rewrite E1. cbn [pstep]. unfold mptr. rewrite Ey. cbn [bind]. rewrite Ea. unfold AddCRS.
  change (genCRS (withCRS (pv_fixed v) m) (Beta (withCRS (pv_fixed v) m) (maxLevel (withCRS (pv_fixed v) m))) (smp ix)) with (genCRS (pv_fixed v) (Beta (pv_fixed v) (maxLevel (pv_fixed v))) (smp ix)).
  destruct (genCRS _ _ _) as [rows|]; cbn [bind]; [|split; intros [? H]; discriminate]. apply idx_some in X3. rewrite X3. cbn [bind]. split; intros _; eauto.
Qed.
