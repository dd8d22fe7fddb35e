(** Proofs of C73. *)
From Coq Require Import String ZArith Znumtheory List Lia Setoid Morphisms Bool Permutation.
From Verif Require Import Spec SpecProofs Go GoProofs Lattigo LattigoProofs Arith Fermat NegRing NegRingProofs NTT NTTProofs F64 F64Proofs BasisExt BasisExtProofs ModDownProofs DecomposeProofs RingOps RingOpsProofs Maps MapsProofs Params Elements KeySwitch KeySets EncDec Utils Evaluator KSProofs KSMulProofs Crt ParamsProofs KSAlg KSNorm Repr SpecCt KSSem SpecEnc EncProofs EncThms CkEncThms SpecEv EvProofs RescaleProofs EvThms F64More EvFloat ConstProofs ConstThms ElemThms AddProofs AddThms Alias AliasConst AliasAdd SpecInPlace.
Import ListNotations.
Local Open Scope Z_scope.
Local Open Scope list_scope.

Section C.
Context (ce : ckenv).
Notation pp := (e_pp (ce_env ce)).
Context (He : env_ok (ce_env ce)).
Notation N := (pa_N pp).
Notation rQ := (ringQ pp).
Notation qq j := (nth j (pa_Q pp) 0).
Let Hpp : params_ok pp := eo_pp _ He.
Let HrQ : ring_ok rQ := po_rQ _ Hpp.
Let HN : (0 < N)%nat := deg_pos _.

(** ** a ciphertext cut to its first n limbs *)
Definition cut (n : nat) (ct : ciphertext) : ciphertext := map (fun kp => (fst kp, mkPoly (p_ntt (snd kp)) (firstn n (p_co (snd kp))))) ct.
Lemma cut_keys n ct : mkeys (cut n ct) = mkeys ct.
Proof. unfold cut, mkeys. rewrite map_map. reflexivity. Qed.
Lemma cut_get n ct id : sget (cut n ct) id = option_map (fun p => mkPoly (p_ntt p) (firstn n (p_co p))) (sget ct id).
Proof. unfold cut. induction ct as [|[k p] ct IH]; [reflexivity|]. cbn. destruct (String.eqb id k); [reflexivity|exact IH]. Qed.
Lemma cut_limb n ct id j : (j < n)%nat -> forall x, limb (cut n ct) id j x = limb ct id j x.
Proof. intros Hj x. unfold limb. rewrite cut_get. destruct (sget ct id) as [p|]; [|reflexivity]. cbn [option_map p_co]. now rewrite nth_firstn_lt. Qed.
Lemma cut_ok l l' ct : (l' <= l)%nat -> ct_ok pp l ct -> ct_ok pp l' (cut (l' + 1) ct).
Proof.
  intros Hl [H1 H2 H3]. constructor; rewrite ?cut_keys; auto. intros id p E. rewrite cut_get in E. destruct (sget ct id) as [p0|] eqn:E0; [|discriminate]. cbn in E. injection E as <-.
  destruct (H3 id p0 E0) as (A & B & C). unfold plen in *. cbn [p_ntt p_co]. split; [auto|]. split; [rewrite firstn_length; lia|]. intros j Hj. rewrite nth_firstn_lt by lia. apply C. lia.
Qed.
Lemma cut_all l ct : ct_ok pp l ct -> cut (l + 1) ct = ct.
Proof.
  intros Hc. pose proof (ck_nd _ _ _ Hc). apply mget_eq; [apply cut_keys|now rewrite cut_keys|]. intros k _. rewrite cut_get. destruct (sget ct k) as [p|] eqn:E; [|reflexivity].
  destruct (ck_comp _ _ _ Hc k p E) as (_ & L & _). cbn. unfold plen in L. destruct p as [n c]. cbn in *. now rewrite firstn_all2 by lia.
Qed.
Lemma drop_cut o ct sc l l' d : order_ok o -> ct_ok pp l ct -> (l' <= l)%nat -> d = (l - l')%nat -> (if (l' <? l)%nat then DropLevel o (mkCk ct sc) d else Ok (mkCk ct sc)) = Ok (mkCk (cut (l' + 1) ct) sc).
Proof.
  intros Ho Hc Hl ->. destruct (Nat.ltb_spec l' l) as [Hlt|Hge]. 2:{ assert (l' = l) as -> by lia. now rewrite (cut_all l ct Hc). }
  unfold DropLevel. cbn [c_ct c_scale]. rewrite (ct_level (ce_env ce) l ct Hc). cbn [bind]. destruct (Nat.ltb_spec (l + 1) (l - l')) as [|_]; [lia|]. replace (l + 1 - (l - l'))%nat with (l' + 1)%nat by lia.
  destruct (trunc_fold (l' + 1) (o 0%nat (mkeys ct)) ct) as (c' & F & HK & HG).
  { apply (Permutation_NoDup (Permutation_sym (Ho 0%nat (mkeys ct)))). apply Hc. }
  { intros id Hid. apply (proj1 (order_in o 0%nat _ _ Ho)) in Hid. destruct (mget_ex _ seqb _ _ Hid) as (p & E). exists p. split; [auto|]. destruct (ck_comp _ _ _ Hc id p E) as (_ & L & _). lia. }
  rewrite F. cbn [bind]. do 2 f_equal. apply mget_eq; [now rewrite cut_keys|rewrite HK; apply Hc|]. intros k Hk. rewrite HG, cut_get. rewrite HK in Hk. destruct (in_dec string_dec k _) as [|Hx]; [reflexivity|].
  exfalso. apply Hx. now apply (proj2 (order_in o 0%nat _ _ Ho)).
Qed.
(** ** multiplication in place *)
Lemma in_place l c ct sc o : (l < QCount pp)%nat -> ct_ok pp l ct -> finite c -> order_ok o -> exists sc', MultByConstAt ce o None (KFloat c) (mkCk ct sc) = Ok (mkCk (mc_ct ce l c ct) sc').
Proof.
  intros Hl Hc Fc Ho. exists (fmul sc (cscale ce l c)). apply (mult_at ce He o o None (KFloat c) (mkCk ct sc) _ l l Ho Ho Hl Hc). { split; [auto|split; [auto|intros id; reflexivity]]. }
  cbn [rd]. unfold MultByConst. cbn [c_ct c_scale]. rewrite (ct_level (ce_env ce) l ct Hc). cbn [bind]. rewrite Nat.min_id, (getConst_real ce l c Hl). cbn [bind].
  rewrite (mult_loop ce He l (kfst ce c f0 (cscale ce l c)) (ksnd ce c f0 (cscale ce l c))); auto; try apply Hc.
  - intros j Hj. destruct (multConsts_ok ce He c f0 (cscale ce l c) j ltac:(lia) Fc I (cscale_finite ce He l c Hl)) as (a & b & E1 & _). unfold kfst, ksnd. now rewrite E1.
  - intros id Hi. destruct (mget_ex _ seqb ct id Hi) as (a & Ea). exists a, a. destruct (ck_comp _ _ _ Hc id a Ea) as (_ & La & _). repeat split; auto; lia.
Qed.
(** ** the evaluation *)
Definition srcOk (l : nat) (R T : ciphertext) (tmp : option ciphertext) : Prop := match tmp with None => T = R | Some t => agree l T t end.
Definition evalLoop (op : Z -> list Z -> list Z -> list Z) (l : nat) (ids0 ids1 : idset) (tmp0 tmp1 : option ciphertext) (out : ciphertext) (id : string) : res ciphertext :=
  if negb (idHas ids0 id) then bind (sptr (rd tmp1 out) id) (fun b => ctUpd out id (fun p => CopyValuesLvl rQ l b p))
  else if negb (idHas ids1 id) then bind (sptr (rd tmp0 out) id) (fun a => ctUpd out id (fun p => CopyValuesLvl rQ l a p))
  else bind (sptr (rd tmp0 out) id) (fun a => bind (sptr (rd tmp1 out) id) (fun b => ctUpd out id (fun p => lvl2 rQ op l a b p))).
Lemma eval_core op l o ids0 ids1 tmp0 tmp1 T0 T1 R l0 l1 : (l < QCount pp)%nat -> order_ok o -> ct_ok pp l R -> ct_ok pp l0 T0 -> ct_ok pp l1 T1 -> srcOk l R T0 tmp0 -> srcOk l R T1 tmp1 ->
  (forall id, idHas ids0 id = true <-> In id (mkeys T0) /\ id <> "0"%string) -> (forall id, idHas ids1 id = true <-> In id (mkeys T1) /\ id <> "0"%string) ->
  (forall id, In id (mkeys R) -> In id (mkeys T0) \/ In id (mkeys T1)) ->
  bind (sptr (rd tmp0 R) "0"%string) (fun a0 => bind (sptr (rd tmp1 R) "0"%string) (fun b0 => bind (ctUpd R "0"%string (fun p => lvl2 rQ op l a0 b0 p)) (fun out =>
    bind (ctIDSet o out) (fun oids => foldM (evalLoop op l ids0 ids1 tmp0 tmp1) (o 2%nat (mkeys oids)) out)))) = Ok (upd_all (mkeys R) (comb ce op l T0 T1) R).
Proof.
  intros Hl Ho HR HT0 HT1 S0 S1 B0 B1 HK. pose proof (ck_nd _ _ _ HR) as A1. pose proof (ck_0 _ _ _ HR) as In0.
  assert (Hz : forall id, In id (mkeys R) -> exists p, sget R id = Some p /\ p_ntt p = false /\ plen p = (l + 1)%nat).
  { intros id Hi. destruct (mget_ex _ seqb R id Hi) as (p & E). exists p. split; [exact E|]. destruct (ck_comp _ _ _ HR id p E) as (X & Y & _). auto. }
  set (t0 := rd tmp0 R). set (t1 := rd tmp1 R).
  assert (G0 : agree l T0 t0). { unfold t0, srcOk in *. destruct tmp0 as [t|]; [exact S0|]. rewrite S0. apply (agree_refl ce l l R HR). lia. }
  assert (G1 : agree l T1 t1). { unfold t1, srcOk in *. destruct tmp1 as [t|]; [exact S1|]. rewrite S1. apply (agree_refl ce l l R HR). lia. }
  assert (C0 : forall c id, sget c id = sget R id -> sget (rd tmp0 c) id = sget t0 id) by (intros c id E; unfold t0; destruct tmp0; [reflexivity|exact E]).
  assert (C1 : forall c id, sget c id = sget R id -> sget (rd tmp1 c) id = sget t1 id) by (intros c id E; unfold t1; destruct tmp1; [reflexivity|exact E]).
  assert (Z0 : In "0"%string (mkeys T0)) by apply HT0. assert (Z1 : In "0"%string (mkeys T1)) by apply HT1.
  set (G := comb ce op l T0 T1).
  destruct (G0 _ Z0) as (a0' & a0 & _ & Ea0 & _). destruct (G1 _ Z1) as (b0' & b0 & _ & Eb0 & _). 
  assert (EA : sptr t0 "0"%string = Ok a0) by (unfold sptr, mptr; now rewrite Ea0). assert (EB : sptr t1 "0"%string = Ok b0) by (unfold sptr, mptr; now rewrite Eb0). rewrite EA, EB. cbn [bind]. destruct (Hz _ In0) as (p0 & E0 & N0 & L0). 
  assert (EU : forall f, ctUpd R "0"%string f = bind (f p0) (fun p => Ok (sset R "0"%string p))) by (intros f; unfold ctUpd, mptr; rewrite E0; reflexivity). rewrite EU.
  rewrite (step_op ce He op l T0 T1 t0 t1 "0"%string a0 b0 p0) by (auto; lia). cbn [bind]. fold G.
  assert (Eout : sset R "0"%string (G "0"%string) = upd_all ["0"%string] G R).
  { apply mget_eq. - rewrite (mkeys_mset_in _ seqb), upd_all_keys; auto. - apply mset_nodup; [exact seqb|auto].
    - intros k Hk. rewrite (mget_mset _ seqb), upd_all_get. cbn [inb existsb]. destruct (String.eqb_spec k "0") as [->|]; [rewrite E0; reflexivity|]. cbn. destruct (sget R k); reflexivity. }
  rewrite Eout. set (out1 := upd_all ["0"%string] G R). destruct (ctIDSet_ok o out1 Ho) as (io & -> & Oko & Ko). cbn [bind].
  assert (K1' : mkeys out1 = mkeys R) by apply upd_all_keys.
  assert (EF : foldM (evalLoop op l ids0 ids1 tmp0 tmp1) (o 2%nat (mkeys io)) out1 = Ok (upd_all (o 2%nat (mkeys io)) G out1)).
  { apply fold_upd0; [now rewrite K1'|apply order_nodup; [auto|apply Oko]| |].
    - intros c id Hi _ Ec. rewrite order_in in Hi by auto. apply Ko in Hi as [Hi Hne]. rewrite K1' in Hi. pose proof (HK id Hi) as Hi2.
      destruct (Hz id Hi) as (p & Ep & Np & Lp). assert (Ec2 : sget c id = sget R id). { rewrite Ec. unfold out1. rewrite upd_all_get, Ep. cbn [inb existsb]. destruct (String.eqb_spec id "0"); [contradiction|reflexivity]. }
      specialize (B0 id). specialize (B1 id). unfold evalLoop, sptr, mptr. rewrite (C0 c id Ec2), (C1 c id Ec2). rewrite Ep in Ec2.
      destruct (idHas ids0 id) eqn:I0; cbn [negb].
      + pose proof (proj1 (proj1 B0 eq_refl)) as J0. destruct (G0 id J0) as (a' & a & _ & Ea & _). destruct (idHas ids1 id) eqn:I1; cbn [negb].
        * pose proof (proj1 (proj1 B1 eq_refl)) as J1. destruct (G1 id J1) as (b' & b & _ & Eb & _). rewrite Ea, Eb. cbn [bind]. unfold ctUpd, mptr. rewrite Ec2. cbn [bind]. rewrite (step_op ce He op l T0 T1 t0 t1 id a b p) by (auto; lia). reflexivity.
        * assert (J1 : ~ In id (mkeys T1)). { intros X. assert (false = true) by (apply B1; auto). discriminate. } rewrite Ea. cbn [bind]. unfold ctUpd, mptr. rewrite Ec2. cbn [bind]. rewrite (step_copy ce He op l T0 T1 t0 id a (G id) p) by (auto; lia). reflexivity.
      + assert (J0 : ~ In id (mkeys T0)). { intros X. assert (false = true) by (apply B0; auto). discriminate. } assert (J1 : In id (mkeys T1)) by tauto.
        destruct (G1 id J1) as (b' & b & _ & Eb & _). rewrite Eb. cbn [bind]. unfold ctUpd, mptr. rewrite Ec2. cbn [bind]. rewrite (step_copy ce He op l T1 T0 t1 id b (G id) p) by (auto; lia). reflexivity.
    - intros id Hi. rewrite order_in in Hi by auto. now apply Ko in Hi. }
  rewrite EF. f_equal.
  apply mget_eq; [rewrite !upd_all_keys; exact K1'|rewrite upd_all_keys, K1'; exact A1|]. intros k Hk. rewrite upd_all_keys, K1' in Hk. rewrite !upd_all_get. unfold out1. rewrite upd_all_get. destruct (sget R k) as [p|] eqn:Ep; auto. f_equal.
  rewrite (proj2 (inb_In k (mkeys R)) Hk). destruct (inb k (o 2%nat (mkeys io))) eqn:Eb; auto. cbn [inb existsb]. destruct (String.eqb_spec k "0") as [->|Hne]; [reflexivity|]. exfalso.
  assert (In k (o 2%nat (mkeys io))) as X; [|apply inb_In in X; congruence]. rewrite order_in by auto. apply Ko. rewrite K1'. auto.
Qed.
End C.
