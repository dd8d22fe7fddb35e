(** The logistic-regression programs on the evaluator: they return what they return on exact slots, up to the error of [errOps]. *)
From Coq Require Import Reals String ZArith List Lia Lra Bool.
From Coq.Floats Require Import SpecFloat.
From Verif Require Import Spec Go GoProofs Arith NegRing NTT F64 BasisExt RingOps Maps MapsProofs Params Elements KeySwitch KeySets KeyGen EncDec Evaluator KSProofs Repr SpecKeys SpecCt SpecEnc SpecEv SpecRot SpecSlots LR LREval LRShadow LRRel SpecLREnc LREncProofs.
Import ListNotations.
Local Open Scope Z_scope.

(** * levels and scales against values with errors *)
Definition RCs (a : nat * f64) (b : aval) : Prop := a_l b = fst a /\ a_s b = snd a.
Definition RPs (a : f64) (b : apt) : Prop := ap_s b = a.
Lemma scale_refines h nz Q top thr : ops_refine eq RCs RPs (scaleOps Q top thr) (errOps h nz Q top thr).
Proof.
  constructor.
  - intros [l s] a [l' s'] b [Ha Ha'] [Hb Hb'] log ? x log' <- E. cbn [fst snd] in *. subst. cbn [o_mul scaleOps errOps fst snd] in E |- *. destruct (rsteps Q _ _ thr) as [n|]; [|discriminate].
    injection E as <- <-. eexists _, _. split; [reflexivity|]. split; [split; reflexivity|reflexivity].
  - intros [l s] a [Ha Ha'] log ? x log' <- E. cbn [fst snd] in *. subst. cbn [o_mul scaleOps errOps fst snd] in E |- *. destruct (rsteps Q _ _ thr) as [n|]; [|discriminate].
    injection E as <- <-. eexists _, _. split; [reflexivity|]. split; [split; reflexivity|reflexivity].
  - intros [l s] a p q [Ha Ha'] Hp log ? x log' <- E. cbn [fst snd] in *. unfold RPs in Hp. subst. cbn [o_mulp scaleOps errOps fst snd] in E |- *. destruct (rsteps Q _ _ thr) as [n|]; [|discriminate].
    injection E as <- <-. eexists _, _. split; [reflexivity|]. split; [split; reflexivity|reflexivity].
  - intros [l s] a [l' s'] b [Ha Ha'] [Hb Hb'] log ? x log' <- E. cbn [fst snd] in *. subst. cbn [o_add scaleOps errOps fst snd] in E |- *. destruct (cmpb _ _); [|discriminate].
    injection E as <- <-. eexists _, _. split; [reflexivity|]. split; [split; reflexivity|reflexivity].
  - intros [l s] a k [Ha Ha']. apply ref_ret. split; auto.
  - apply ref_ret. split; reflexivity.
Qed.

(** * values with errors against exact slots *)
Definition RCx (a : aval) (x : Z -> R) : Prop := forall i, a_m a i = x i.
Definition RPx (a : apt) (x : Z -> R) : Prop := forall i, ap_m a i = x i.
Definition RSx (log : list nat) (u : unit) : Prop := True.
Lemma exact_refines h nz Q top thr n : n = Z.of_nat h -> ops_refine RSx RCx RPx (errOps h nz Q top thr) (exactOps 0%R Rplus Rmult n).
Proof.
  intros ->. constructor.
  - intros a x b y Ha Hb log u z log' _ E. cbn [o_mul errOps] in E. destruct (rsteps Q _ _ thr) as [k|]; [|discriminate]. injection E as <- <-. eexists _, _. split; [reflexivity|]. split; [|exact I]. intros i. cbn [a_m]. now rewrite Ha, Hb.
  - intros a x Ha log u z log' _ E. cbn [o_mul errOps] in E. destruct (rsteps Q _ _ thr) as [k|]; [|discriminate]. injection E as <- <-. eexists _, _. split; [reflexivity|]. split; [|exact I]. intros i. cbn [a_m]. now rewrite Ha.
  - intros a x b y Ha Hb log u z log' _ E. cbn [o_mulp errOps] in E. destruct (rsteps Q _ _ thr) as [k|]; [|discriminate]. injection E as <- <-. eexists _, _. split; [reflexivity|]. split; [|exact I]. intros i. cbn [a_m]. now rewrite Ha, Hb.
  - intros a x b y Ha Hb log u z log' _ E. cbn [o_add errOps] in E. destruct (cmpb _ _); [|discriminate]. injection E as <- <-. eexists _, _. split; [reflexivity|]. split; [|exact I]. intros i. cbn [a_m]. now rewrite Ha, Hb.
  - intros a x k Ha log u z log' _ E. injection E as <- <-. eexists _, _. split; [reflexivity|]. split; [|exact I]. intros i. cbn [a_m]. now rewrite Ha.
  - intros log u z log' _ E. injection E as <- <-. eexists _, _. split; [reflexivity|]. split; [|exact I]. intros i. reflexivity.
Qed.

(** * the noted levels *)
Lemma log_refines {St} (E : heops St ckct (poly * f64)) : ops_refine (fun x y => fst x = y) eq eq (logOps E) E.
Proof.
  constructor.
  - intros a ? b ? <- <- [st log] ? c [st' log'] <- H. cbn [o_mul logOps fst snd] in H |- *. destruct (o_mul E false a b st) as [[x s1]|] eqn:Ex; cbn in H; [|discriminate]. injection H as <- <- <-. eexists _, _. split; [reflexivity|]. auto.
  - intros a ? <- [st log] ? c [st' log'] <- H. cbn [o_mul logOps fst snd] in H |- *. destruct (o_mul E true a a st) as [[x s1]|] eqn:Ex; cbn in H; [|discriminate]. injection H as <- <- <-. eexists _, _. split; [reflexivity|]. auto.
  - intros a ? b ? <- <- [st log] ? c [st' log'] <- H. cbn [o_mulp logOps fst snd] in H |- *. destruct (o_mulp E a b st) as [[x s1]|] eqn:Ex; cbn in H; [|discriminate]. injection H as <- <- <-. eexists _, _. split; [reflexivity|]. auto.
  - intros a ? b ? <- <- [st log] ? c [st' log'] <- H. cbn [o_add logOps fst snd] in H |- *. destruct (o_add E a b st) as [[x s1]|] eqn:Ex; cbn in H; [|discriminate]. injection H as <- <- <-. eexists _, _. split; [reflexivity|]. auto.
  - intros a ? k <- [st log] ? c [st' log'] <- H. cbn [o_rot logOps fst snd] in H |- *. destruct (o_rot E a k st) as [[x s1]|] eqn:Ex; cbn in H; [|discriminate]. injection H as <- <- <-. eexists _, _. split; [reflexivity|]. auto.
  - intros [st log] ? c [st' log'] <- H. cbn [o_zero logOps fst snd] in H |- *. destruct (o_zero E st) as [[x s1]|] eqn:Ex; cbn in H; [|discriminate]. injection H as <- <- <-. eexists _, _. split; [reflexivity|]. auto.
Qed.
Lemma level_ok pp l ct : ct_ok pp l (c_ct ct) -> level_of ct = l.
Proof.
  intros [K1 K2 K3]. unfold level_of. destruct (mget_ex _ seqb _ _ K2) as (p & E). destruct (K3 _ _ E) as (_ & H & _). rewrite E, H. lia.
Qed.

Section P.
Context (ce : ckenv) (g : nat -> Z) (A U : nat -> zpoly) (s r : string -> zpoly) (Bs Be Dm nr : Z) (ids : list string) (keys : rlkset) (rks : rotset).
Context (orders : nat -> order) (rnd : nat -> small * small * small) (pk : pubkey) {Msg : Type} (encode : poly -> Msg -> poly) (zero_msg : Msg) (Bu B : Z) (ez : R) (st : lrst).
Context (HS : lr_setting ce g A U s r Bs Be Dm nr ids keys rks orders rnd pk encode zero_msg Bu B ez st).
Notation pp := (e_pp (ce_env ce)).
Notation sc := (ce_scale ce).
Notation nz := (lr_noise pp (Z.of_nat (List.length ids)) Bs Be Dm nr Bu B ez).
Notation hn := (pa_N pp / 2)%nat.
Notation top := (maxLevel pp).
Notation SO := (scaleOps (pa_Q pp) top sc).
Notation EA := (errOps hn nz (pa_Q pp) top sc).
Notation EE := (evalOps ce orders rnd rks pk encode zero_msg).
Notation RC := (RCe ce s ids).
Notation RP := (RPe ce).
Definition RSl (log : list nat) (x : lrst * list nat) : Prop := lr_ok pp sc ids keys (fst x) /\ snd x = log.
Lemma log_eval_refines : ops_refine RSl RC RP EA (logOps EE).
Proof.
  destruct HS as [He Hh HK Ho HZ Hst]. destruct (eval_refines ce He g A U s r Bs Be Dm nr ids keys rks HK orders Ho rnd pk encode zero_msg Bu B ez HZ Hh) as [R1 R2 R3 R4 R5 R6].
  assert (LV : forall a c, RC a c -> level_of c = a_l a) by (intros a c H; apply (level_ok pp); apply H).
  constructor.
  - intros a c b d Ha Hb log [st0 log0] a1 log1 [H0 H1] E. cbn [fst snd] in H0, H1. subst log0. destruct (R1 a c b d Ha Hb log st0 a1 log1 H0 E) as (x & st1 & E1 & Hx & Hs1).
    cbn [o_mul logOps fst snd]. rewrite E1. cbn [bind]. eexists _, _. split; [reflexivity|]. split; [exact Hx|]. split; [exact Hs1|]. cbn [snd]. rewrite (LV _ _ Ha), (LV _ _ Hb), (LV _ _ Hx).
    cbn [o_mul errOps] in E. destruct (rsteps _ _ _ _) as [n|] eqn:En; [|discriminate]. apply rsteps_le in En. injection E as <- <-. cbn [a_l]. f_equal. lia.
  - intros a c Ha log [st0 log0] a1 log1 [H0 H1] E. cbn [fst snd] in H0, H1. subst log0. destruct (R2 a c Ha log st0 a1 log1 H0 E) as (x & st1 & E1 & Hx & Hs1).
    cbn [o_mul logOps fst snd]. rewrite E1. cbn [bind]. eexists _, _. split; [reflexivity|]. split; [exact Hx|]. split; [exact Hs1|]. cbn [snd]. rewrite (LV _ _ Ha), (LV _ _ Hx).
    cbn [o_mul errOps] in E. destruct (rsteps _ _ _ _) as [n|] eqn:En; [|discriminate]. apply rsteps_le in En. injection E as <- <-. cbn [a_l]. f_equal. lia.
  - intros a c b d Ha Hb log [st0 log0] a1 log1 [H0 H1] E. cbn [fst snd] in H0, H1. subst log0. destruct (R3 a c b d Ha Hb log st0 a1 log1 H0 E) as (x & st1 & E1 & Hx & Hs1).
    cbn [o_mulp logOps fst snd]. rewrite E1. cbn [bind]. eexists _, _. split; [reflexivity|]. split; [exact Hx|]. split; [exact Hs1|]. cbn [snd]. rewrite (LV _ _ Ha), (LV _ _ Hx).
    cbn [o_mulp errOps] in E. destruct (rsteps _ _ _ _) as [n|] eqn:En; [|discriminate]. apply rsteps_le in En. injection E as <- <-. cbn [a_l]. f_equal. lia.
  - intros a c b d Ha Hb log [st0 log0] a1 log1 [H0 H1] E. cbn [fst snd] in H0, H1. subst log0. destruct (R4 a c b d Ha Hb log st0 a1 log1 H0 E) as (x & st1 & E1 & Hx & Hs1).
    cbn [o_add logOps fst snd]. rewrite E1. cbn [bind]. eexists _, _. split; [reflexivity|]. split; [exact Hx|]. split; [exact Hs1|]. cbn [snd].
    cbn [o_add errOps] in E. destruct (cmpb _ _); [|discriminate]. now injection E as _ <-.
  - intros a c k Ha log [st0 log0] a1 log1 [H0 H1] E. cbn [fst snd] in H0, H1. subst log0. destruct (R5 a c k Ha log st0 a1 log1 H0 E) as (x & st1 & E1 & Hx & Hs1).
    cbn [o_rot logOps fst snd]. rewrite E1. cbn [bind]. eexists _, _. split; [reflexivity|]. split; [exact Hx|]. split; [exact Hs1|]. cbn [snd]. now injection E as _ <-.
  - intros log [st0 log0] a1 log1 [H0 H1] E. cbn [fst snd] in H0, H1. subst log0. destruct (R6 log st0 a1 log1 H0 E) as (x & st1 & E1 & Hx & Hs1).
    cbn [o_zero logOps fst snd]. rewrite E1. cbn [bind]. eexists _, _. split; [reflexivity|]. split; [exact Hx|]. split; [exact Hs1|]. cbn [snd]. now injection E as _ <-.
Qed.

(** * whole programs *)
Notation X := (realOps pp).
Lemma real_refines : ops_refine RSx RCx RPx EA X.
Proof. apply exact_refines. symmetry. rewrite Nat2Z.inj_div. reflexivity. Qed.
Context (K : lrconst (Z -> R) (Z -> R)) (KE : lrconst ckct (poly * f64)) (e : R) (HKE : consts_held pp sc s ids e K KE).
Notation KA := (errConst top sc e K).
Notation KS := (scaleConst top sc K).
Lemma kS : const_refine RCs RPs KS KA.
Proof. apply (const_map eq eq); [intros; subst; split; reflexivity|intros; subst; reflexivity|apply const_refl]. Qed.
Lemma kE : const_refine RC RP KA KE.
Proof. eapply const_mapl; [| |exact HKE]; intros a b H; exact H. Qed.
Lemma kX : const_refine RCx RPx KA K.
Proof. eapply (const_mapl eq eq); [| |apply const_refl]; intros a b <- i; reflexivity. Qed.

Theorem run_correct numRow numCol numIter nf z v0 b0 test mz mv mb mt lv sv lb sb lr sr log :
  fresh pp sc s ids e mz z -> fresh pp sc s ids e mv v0 -> fresh pp sc s ids e mb b0 -> fresh pp sc s ids e mt test ->
  lrRun SO KS numRow numCol numIter nf (top, sc) ((top, sc), (top, sc)) (top, sc) [] = Ok (((lv, sv), (lb, sb)), (lr, sr), log) ->
  exists v b t st' xv xb xr av ab ar,
    lrRun EE KE numRow numCol numIter nf z (v0, b0) test st = Ok ((v, b), t, st') /\
    lrRun (logOps EE) KE numRow numCol numIter nf z (v0, b0) test (st, []) = Ok ((v, b), t, (st', log)) /\
    lrRun X K numRow numCol numIter nf mz (mv, mb) mt tt = Ok ((xv, xb), xr, tt) /\
    lrRun EA KA numRow numCol numIter nf (fa top sc e mz) (fa top sc e mv, fa top sc e mb) (fa top sc e mt) [] = Ok ((av, ab), ar, log) /\
    encrypts pp s ids lv sv xv (a_e av) v /\ encrypts pp s ids lb sb xb (a_e ab) b /\ encrypts pp s ids lr sr xr (a_e ar) t /\ (forall i, a_m ar i = xr i).
Proof.
  intros Hz Hv Hb Ht ES.
  assert (Fs : forall m, RCs (top, sc) (fa top sc e m)) by (intros; split; reflexivity).
  assert (Fx : forall m, RCx (fa top sc e m) m) by (intros m i; reflexivity).
  destruct (ref_lrRun eq RCs RPs SO EA (scale_refines _ _ _ _ _) KS KA kS numRow numCol numIter nf (top, sc) (fa top sc e mz) ((top, sc), (top, sc)) (fa top sc e mv, fa top sc e mb) (top, sc) (fa top sc e mt) (Fs _) (conj (Fs _) (Fs _)) (Fs _) [] [] _ _ eq_refl ES)
    as ([[av ab] ar] & log' & EA1 & [[[Lv Sv] [Lb Sb]] [Lr Sr]] & <-). cbn [fst snd] in *.
  destruct (ref_lrRun RSl RC RP EA (logOps EE) log_eval_refines KA KE kE numRow numCol numIter nf (fa top sc e mz) z (fa top sc e mv, fa top sc e mb) (v0, b0) (fa top sc e mt) test Hz (conj Hv Hb) Ht [] (st, []) _ _ (conj (ls_st _ _ _ _ _ _ _ _ _ _ _ _ _ _ _ _ _ _ _ _ _ _ HS) eq_refl) EA1)
    as ([[v b] t] & [st' log'] & EE1 & [[Rv Rb] Rt] & [_ <-]). cbn [fst snd] in *.
  destruct (ref_lrRun _ eq eq (logOps EE) EE (log_refines EE) KE KE (const_refl KE) numRow numCol numIter nf z z (v0, b0) (v0, b0) test test eq_refl (conj eq_refl eq_refl) eq_refl (st, []) st _ _ eq_refl EE1)
    as ([[v' b'] t'] & st2 & EE2 & [[Ev Eb] Et] & Es). cbn [fst snd] in *. subst v' b' t' st2.
  destruct (ref_lrRun RSx RCx RPx EA X real_refines KA K kX numRow numCol numIter nf (fa top sc e mz) mz (fa top sc e mv, fa top sc e mb) (mv, mb) (fa top sc e mt) mt (Fx _) (conj (Fx _) (Fx _)) (Fx _) [] tt _ _ I EA1)
    as ([[xv xb] xr] & [] & EX & [[Xv Xb] Xr] & _). cbn [fst snd] in *.
  assert (EX' : forall a x c l0 s0, RCx a x -> RC a c -> a_l a = l0 -> a_s a = s0 -> encrypts pp s ids l0 s0 x (a_e a) c).
  { intros a x c l0 s0 Hx [C1 C2 C3 C4 (M & C5 & C6)] <- <-. constructor; auto. exists M. split; [auto|]. intros i Hi. rewrite <- Hx. auto. }
  exists v, b, t, st', xv, xb, xr, av, ab, ar. repeat (split; [assumption|]). split; [apply EX'; auto|]. split; [apply EX'; auto|]. split; [apply EX'; auto|exact Xr].
Qed.

Theorem run_batch_correct numRow numCol bs be numIter nf v0 b0 test mv mb mt lv sv lb sb lr sr log :
  batches_held pp sc s ids e bs be -> fresh pp sc s ids e mv v0 -> fresh pp sc s ids e mb b0 -> fresh pp sc s ids e mt test ->
  lrRunBatch SO KS numRow numCol (mapBatches (fun _ => (top, sc)) (fun _ => sc) bs) numIter nf ((top, sc), (top, sc)) (top, sc) [] = Ok (((lv, sv), (lb, sb)), (lr, sr), log) ->
  exists v b t st' xv xb xr av ab ar,
    lrRunBatch EE KE numRow numCol be numIter nf (v0, b0) test st = Ok ((v, b), t, st') /\
    lrRunBatch (logOps EE) KE numRow numCol be numIter nf (v0, b0) test (st, []) = Ok ((v, b), t, (st', log)) /\
    lrRunBatch X K numRow numCol bs numIter nf (mv, mb) mt tt = Ok ((xv, xb), xr, tt) /\
    lrRunBatch EA KA numRow numCol (mapBatches (fa top sc e) (fp sc e) bs) numIter nf (fa top sc e mv, fa top sc e mb) (fa top sc e mt) [] = Ok ((av, ab), ar, log) /\
    encrypts pp s ids lv sv xv (a_e av) v /\ encrypts pp s ids lb sb xb (a_e ab) b /\ encrypts pp s ids lr sr xr (a_e ar) t /\ (forall i, a_m ar i = xr i).
Proof.
  intros Hz Hv Hb Ht ES.
  assert (Fs : forall m, RCs (top, sc) (fa top sc e m)) by (intros; split; reflexivity).
  assert (Fx : forall m, RCx (fa top sc e m) m) by (intros m i; reflexivity).
  assert (Bs1 : Forall2 (Forall2 (RD RCs RPs)) (mapBatches (fun _ => (top, sc)) (fun _ => sc) bs) (mapBatches (fa top sc e) (fp sc e) bs)).
  { apply (f2_map _ eq); [|apply f2_same; auto]. intros l ? <-. apply (f2_map _ eq); [|apply f2_same; auto]. intros [[a b] c] ? <-. split; [apply Fs|]. split; [reflexivity|]. apply (f2_map _ eq); [|apply f2_same; auto]. intros; subst; reflexivity. }
  assert (Bs2 : Forall2 (Forall2 (RD RC RP)) (mapBatches (fa top sc e) (fp sc e) bs) be).
  { eapply f2_mapl; [|exact Hz]. intros l l' Hl. eapply f2_mapl; [|exact Hl]. intros x y (H1 & H2 & H3). split; [exact H1|]. split; [exact H2|]. eapply f2_mapl; [|exact H3]. intros a b H; exact H. }
  assert (Bs3 : Forall2 (Forall2 (RD RCx RPx)) (mapBatches (fa top sc e) (fp sc e) bs) bs).
  { apply (f2_mapl _ eq); [|apply f2_same; auto]. intros l ? <-. apply (f2_mapl _ eq); [|apply f2_same; auto]. intros [[a b] c] ? <-. split; [apply Fx|]. split; [intros i; reflexivity|]. apply (f2_mapl _ eq); [|apply f2_same; auto]. intros a0 ? <- i; reflexivity. }
  assert (Bs4 : Forall2 (Forall2 (RD eq eq)) be be).
  { apply f2_same. intros l. apply f2_same. intros x. split; [auto|]. split; [auto|]. apply f2_same. auto. }
  destruct (ref_lrRunBatch eq RCs RPs SO EA (scale_refines _ _ _ _ _) KS KA kS numRow numCol _ _ numIter nf ((top, sc), (top, sc)) (fa top sc e mv, fa top sc e mb) (top, sc) (fa top sc e mt) Bs1 (conj (Fs _) (Fs _)) (Fs _) [] [] _ _ eq_refl ES)
    as ([[av ab] ar] & log' & EA1 & [[[Lv Sv] [Lb Sb]] [Lr Sr]] & <-). cbn [fst snd] in *.
  destruct (ref_lrRunBatch RSl RC RP EA (logOps EE) log_eval_refines KA KE kE numRow numCol _ _ numIter nf (fa top sc e mv, fa top sc e mb) (v0, b0) (fa top sc e mt) test Bs2 (conj Hv Hb) Ht [] (st, []) _ _ (conj (ls_st _ _ _ _ _ _ _ _ _ _ _ _ _ _ _ _ _ _ _ _ _ _ HS) eq_refl) EA1)
    as ([[v b] t] & [st' log'] & EE1 & [[Rv Rb] Rt] & [_ <-]). cbn [fst snd] in *.
  destruct (ref_lrRunBatch _ eq eq (logOps EE) EE (log_refines EE) KE KE (const_refl KE) numRow numCol _ _ numIter nf (v0, b0) (v0, b0) test test Bs4 (conj eq_refl eq_refl) eq_refl (st, []) st _ _ eq_refl EE1)
    as ([[v' b'] t'] & st2 & EE2 & [[Ev Eb] Et] & Es). cbn [fst snd] in *. subst v' b' t' st2.
  destruct (ref_lrRunBatch RSx RCx RPx EA X real_refines KA K kX numRow numCol _ _ numIter nf (fa top sc e mv, fa top sc e mb) (mv, mb) (fa top sc e mt) mt Bs3 (conj (Fx _) (Fx _)) (Fx _) [] tt _ _ I EA1)
    as ([[xv xb] xr] & [] & EX & [[Xv Xb] Xr] & _). cbn [fst snd] in *.
  assert (EX' : forall a x c l0 s0, RCx a x -> RC a c -> a_l a = l0 -> a_s a = s0 -> encrypts pp s ids l0 s0 x (a_e a) c).
  { intros a x c l0 s0 Hx [C1 C2 C3 C4 (M & C5 & C6)] <- <-. constructor; auto. exists M. split; [auto|]. intros i Hi. rewrite <- Hx. auto. }
  exists v, b, t, st', xv, xb, xr, av, ab, ar. repeat (split; [assumption|]). split; [apply EX'; auto|]. split; [apply EX'; auto|]. split; [apply EX'; auto|exact Xr].
Qed.
End P.
