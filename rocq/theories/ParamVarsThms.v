(** The parameters after genTestParams, once and twice; a case. *)
From Coq Require Import ZArith List String Bool Lia.
From Verif Require Import Go GoProofs Lattigo RingOps Maps MapsProofs Params ParamVars SpecVars ConcProofs ParamVarsProofs LRSetup Shipped KeyWitness.
Import ListNotations.
Local Open Scope Z_scope.
Local Open Scope string_scope.
Local Open Scope list_scope.

Lemma prun_app a b st : prun (a ++ b) st = bind (prun a st) (prun b).
Proof. revert st. induction a as [|op a IH]; intros st; [reflexivity|]. cbn [prun app]. destruct (pstep st op); [apply IH|reflexivity]. Qed.
Lemma with_with f m m' : withCRS (withCRS f m) m' = withCRS f m'. Proof. reflexivity. Qed.
Lemma adds_run x v a smp rots : pv_map v = Some a -> forall k st m pp, sget (ps_vars st) x = Some v -> nth_error (ps_maps st) a = Some m -> addCRSs smp k rots (withCRS (pv_fixed v) m) = Ok pp ->
  exists m', prun (map (fun '(k, rot) => PAdd x rot (smp k)) (combine (seq k (List.length rots)) rots)) st = Ok (mkPS (ps_vars st) (setNth a m' (ps_maps st))) /\ pp = withCRS (pv_fixed v) m'.
Proof.
  intros Ha. induction rots as [|rot rots IH]; intros k st m pp Ex Em H.
  - cbn in H. injection H as <-. exists m. split; [|reflexivity]. cbn. destruct st as [vs ms]. cbn [ps_vars ps_maps] in *. do 2 f_equal. revert ms Em. clear. induction a as [|a IH]; intros [|b ms] E; cbn in *; try discriminate; [now injection E as ->|f_equal; auto].
  - cbn [addCRSs] in H. apply bind_inv in H as (p1 & E1 & H). unfold AddCRS in E1. apply bind_inv in E1 as (rows & Er & E1). injection E1 as <-.
    cbn [List.length seq combine map prun pstep]. unfold mptr. rewrite Ex. cbn [bind]. rewrite Ha.
    change (genCRS (withCRS (pv_fixed v) m) (Beta (withCRS (pv_fixed v) m) (maxLevel (withCRS (pv_fixed v) m))) (smp k rot)) with (genCRS (pv_fixed v) (Beta (pv_fixed v) (maxLevel (pv_fixed v))) (smp k rot)) in Er.
    rewrite Er. cbn [bind]. unfold idx. rewrite Em. cbn [bind].
    destruct (IH (S k) (mkPS (ps_vars st) (setNth a (zset m rot rows) (ps_maps st))) (zset m rot rows) pp) as (m' & E' & HP).
    + exact Ex. + cbn [ps_maps]. apply setNth_same, nth_error_Some. congruence. + exact H.
    + exists m'. split; [|exact HP]. rewrite E'. cbn [ps_vars ps_maps]. do 2 f_equal. generalize (ps_maps st). clear. induction a as [|a IH]; intros [|b l]; cbn; auto. now rewrite IH.
Qed.
Lemma setup_run d tc kg rk en de ev rots smp st v a m pp : sget (ps_vars st) d = Some v -> pv_map v = Some a -> nth_error (ps_maps st) a = Some m -> addCRSs smp 0 rots (withCRS (pv_fixed v) m) = Ok pp -> tc <> d -> kg <> d -> ~ In tc [kg; rk; en; de; ev] ->
  exists m', prun (setupOps d tc kg rk en de ev rots smp) st = Ok (mkPS (sset (sset (sset (sset (sset (sset (ps_vars st) tc v) kg v) rk v) en v) de v) ev v) (setNth a m' (ps_maps st))) /\ pp = withCRS (pv_fixed v) m'.
Proof.
  intros Ed Ha Em HA Hd Hkd Hn. unfold setupOps. cbn [prun pstep]. unfold mptr. rewrite Ed. cbn [bind]. rewrite prun_app.
  destruct (adds_run tc v a smp rots Ha 0 (mkPS (sset (ps_vars st) tc v) (ps_maps st)) m pp) as (m' & E & HP); auto; [cbn [ps_vars]; apply (mget_mset_same _ seqb)|].
  rewrite E. cbn [bind ps_vars ps_maps]. exists m'. split; [|exact HP]. cbn [In] in Hn. cbn [prun pstep ps_vars ps_maps]. unfold mptr.
  repeat (rewrite sget_set; try (replace (String.eqb tc kg) with false by (symmetry; apply String.eqb_neq; intuition)); try (replace (String.eqb tc rk) with false by (symmetry; apply String.eqb_neq; intuition)); try (replace (String.eqb tc en) with false by (symmetry; apply String.eqb_neq; intuition)); try (replace (String.eqb tc de) with false by (symmetry; apply String.eqb_neq; intuition));
    try (replace (String.eqb d kg) with false by (symmetry; apply String.eqb_neq; intuition congruence)); try (replace (String.eqb d tc) with false by (symmetry; apply String.eqb_neq; intuition congruence)); rewrite ?String.eqb_refl; cbn [bind ps_vars ps_maps]).
  rewrite Ed. cbn [bind ps_vars ps_maps].
  repeat (rewrite sget_set; try (replace (String.eqb tc kg) with false by (symmetry; apply String.eqb_neq; intuition)); try (replace (String.eqb tc rk) with false by (symmetry; apply String.eqb_neq; intuition)); try (replace (String.eqb tc en) with false by (symmetry; apply String.eqb_neq; intuition)); try (replace (String.eqb tc de) with false by (symmetry; apply String.eqb_neq; intuition)); rewrite ?String.eqb_refl; cbn [bind ps_vars ps_maps]).
  reflexivity.
Qed.
Lemma setup_views logN Q P psiQ psiP gamma smp0 rots smp smp2 pp0 pp : NewParameters logN Q P psiQ psiP gamma smp0 = Ok pp0 -> addCRSs smp 0 rots pp0 = Ok pp ->
  let once := PNew "params" logN Q P psiQ psiP gamma smp0 :: setupOps "params" "testContext.params" "kgen" "rlkSet" "encryptor" "decryptor" "evaluator" rots smp in
  let again := setupOps "params" "testContext2.params" "kgen2" "rlkSet2" "encryptor2" "decryptor2" "evaluator2" rots smp2 in
  (exists st, prun once ps0 = Ok st /\ forall x, In x first_ctx -> view st x = Ok pp) /\
  (forall pp2, addCRSs smp2 0 rots pp = Ok pp2 -> exists st, prun (once ++ again) ps0 = Ok st /\ forall x, In x (first_ctx ++ second_ctx) -> view st x = Ok pp2).
Proof.
  intros E0 E1. cbv zeta. set (v := mkPV (withCRS pp0 []) (Some 0%nat)).
  set (s0 := mkPS [("params", v)] [pa_CRS pp0]).
  assert (W0 : withCRS (pv_fixed v) (pa_CRS pp0) = pp0) by (destruct pp0; reflexivity).
  destruct (setup_run "params" "testContext.params" "kgen" "rlkSet" "encryptor" "decryptor" "evaluator" rots smp s0 v 0%nat (pa_CRS pp0) pp) as (m1 & R1 & HP1); try reflexivity; try discriminate; [now rewrite W0|cbn; intuition discriminate|].
  set (s1 := mkPS _ (setNth 0 m1 (ps_maps s0))) in R1. split.
  - exists s1. split; [cbn [prun pstep]; rewrite E0; cbn [bind]; exact R1|]. intros x Hx. rewrite HP1. cbn [first_ctx In] in Hx. repeat (destruct Hx as [<-|Hx]; [reflexivity|]). contradiction.
  - intros pp2 E2. destruct (setup_run "params" "testContext2.params" "kgen2" "rlkSet2" "encryptor2" "decryptor2" "evaluator2" rots smp2 s1 v 0%nat m1 pp2) as (m2 & R2 & HP2); try reflexivity; try discriminate; [now rewrite <- HP1|cbn; intuition discriminate|].
    eexists. split; [rewrite prun_app; cbn [prun pstep]; rewrite E0; cbn [bind]; change (mkPS _ _) with s0; rewrite R1; cbn [bind]; exact R2|]. intros x Hx. rewrite HP2. cbn [first_ctx second_ctx app In] in Hx. repeat (destruct Hx as [<-|Hx]; [reflexivity|]). contradiction.
Qed.
