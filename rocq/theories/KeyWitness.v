(** Parameters, samples and keys showing that the hypotheses of the key theorems can be met. *)
From Coq Require Import String ZArith Znumtheory List Lia Bool.
From Verif Require Import Spec SpecProofs Go GoProofs Lattigo LattigoProofs Arith NegRing NegRingProofs NTT NTTProofs F64 BasisExt BasisExtProofs ModDownProofs RingOps RingOpsProofs Maps MapsProofs Params Elements KeySwitch KeySets KeyGen KSProofs ParamsProofs Crt Galois KeyGenProofs ParamsSpec SpecKeys Shipped KeySpec.
Import ListNotations.
Local Open Scope Z_scope.

(** the constant polynomial 1 in NTT form *)
Definition onesQP (pp : params) : qp :=
  mkQP (mkPoly true (repeat (repeat 1 (pa_N pp)) (QCount pp))) (mkPoly true (repeat (repeat 1 (pa_N pp)) (PCount pp))).
Lemma nth_rep {A} (x d : A) n i : (i < n)%nat -> nth i (repeat x n) d = x.
Proof. revert i. induction n as [|n IH]; intros [|i] Hi; cbn; try lia; auto. apply IH. lia. Qed.
Lemma nttf_one logN psi i : nttf logN psi pone i = 1.
Proof.
  unfold nttf, peval. pose proof (deg_pos logN). rewrite (sumn_single _ 0); [|auto|intros [|k] _ Hk; [lia|reflexivity]]. cbn [pone pconst Z.of_nat]. rewrite Z.pow_0_r. reflexivity.
Qed.
Lemma ones_nrep r : ring_ok r -> nrep r (length (r_mods r)) (repeat (repeat 1 (r_N r)) (length (r_mods r))) pone.
Proof.
  intros Hr. split; [lia|]. split; [now rewrite repeat_length|]. intros j Hj. rewrite nth_rep by auto. split; [apply repeat_length|]. intros i Hi.
  rewrite nth_rep by auto. pose proof (ring_q1 r j Hr Hj). split; [lia|]. now rewrite nttf_one.
Qed.
Lemma ones_shp N n : shp N (repeat (repeat 1 N) n).
Proof.
  apply Forall_forall. intros l Hl. apply repeat_spec in Hl as ->. split; [apply repeat_length|]. apply Forall_forall. intros x Hx. apply repeat_spec in Hx as ->. rewrite W_val. lia.
Qed.
Lemma ones_qrep pp : params_ok pp -> qrep pp (maxLevel pp) (onesQP pp) pone /\ qshp pp (onesQP pp).
Proof.
  intros Hpp. split.
  - split; cbn [onesQP qQ qP p_co]; [rewrite (lvQ1 pp Hpp); apply (ones_nrep (ringQ pp) (po_rQ _ Hpp))|apply (ones_nrep (ringP pp) (po_rP _ Hpp))].
  - unfold qshp, onesQP, plen. cbn [qQ qP p_co]. rewrite !repeat_length. repeat split; apply ones_shp.
Qed.
(** the constant c in NTT form *)
Definition constQP (pp : params) (c : Z) : qp :=
  mkQP (mkPoly true (repeat (repeat c (pa_N pp)) (QCount pp))) (mkPoly true (repeat (repeat c (pa_N pp)) (PCount pp))).
Lemma const_sample pp c : params_ok pp -> Forall (fun q => 0 <= c < q) (pa_Q pp ++ pa_P pp) ->
  uniform_sample pp (constQP pp c) /\ qrep pp (maxLevel pp) (constQP pp c) (pconst c).
Proof.
  intros Hpp HF. apply Forall_app in HF as [HQ HP].
  assert (G : forall r, ring_ok r -> Forall (fun q => 0 <= c < q) (r_mods r) -> residues (r_mods r) (r_N r) (repeat (repeat c (r_N r)) (length (r_mods r))) /\
     nrep r (length (r_mods r)) (repeat (repeat c (r_N r)) (length (r_mods r))) (pconst c)).
  { intros r Hr HF. assert (HB : forall j i, (j < length (r_mods r))%nat -> (i < r_N r)%nat -> 0 <= nth i (nth j (repeat (repeat c (r_N r)) (length (r_mods r))) []) 0 < nth j (r_mods r) 0).
    { intros j i Hj Hi. rewrite nth_rep by auto. rewrite nth_rep by auto. rewrite Forall_forall in HF. apply HF, nth_In, Hj. }
    split; [split; [apply repeat_length|]; intros j Hj; split; [rewrite nth_rep by auto; apply repeat_length|intros i Hi; apply HB; auto]|].
    split; [lia|]. split; [now rewrite repeat_length|]. intros j Hj. split; [rewrite nth_rep by auto; apply repeat_length|]. intros i Hi. split; [apply HB; auto|].
    rewrite nth_rep by auto. rewrite nth_rep by auto. unfold nttf, peval. pose proof (deg_pos (r_logN r)). rewrite (sumn_single _ 0); [|auto|intros [|k] _ Hk; [lia|reflexivity]].
    cbn [pconst Z.of_nat]. rewrite Z.pow_0_r, Z.mul_1_r. reflexivity. }
  destruct (G (ringQ pp) (po_rQ _ Hpp) HQ) as [Q1 Q2]. destruct (G (ringP pp) (po_rP _ Hpp) HP) as [P1 P2].
  split; split; auto. rewrite (lvQ1 pp Hpp). exact Q2.
Qed.
(** parameters whose every default CRS row is the constant polynomial 1 *)
Lemma params_with_crs logN Q P psiQ psiP gamma : params_ok (mkParams logN Q P psiQ psiP gamma []) ->
  exists crs, let pp := mkParams logN Q P psiQ psiP gamma crs in
    NewParameters logN Q P psiQ psiP gamma (fun _ _ => onesQP (mkParams logN Q P psiQ psiP gamma [])) = Ok pp /\ params_ok pp /\
    (forall ix, In ix (crsIndices logN) -> crs_is pp ix (fun _ => pone)) /\
    (forall ix, mhas Z.eqb (pa_CRS pp) ix = true <-> In ix (crsIndices logN)).
Proof.
  intros H. destruct (NewParameters_ok logN Q P psiQ psiP gamma (fun _ _ => onesQP (mkParams logN Q P psiQ psiP gamma [])) H) as (crs & E & Hok & Hiff & _ & Hcrs).
  { intros _ _. exists pone. apply ones_qrep, H. }
  exists crs. cbv zeta. split; [exact E|]. split; [exact Hok|]. split.
  - intros ix Hix. apply Hcrs; [auto|]. intros _. now apply ones_qrep.
  - intros ix. rewrite Hiff. unfold getCRS, mptr, mhas. destruct (mget Z.eqb _ ix) as [v|]; split; intros X; try discriminate; auto; [now exists v|destruct X; discriminate].
Qed.
Definition zeros (N : nat) : small := repeat (true, 0) N.
Definition ones (N : nat) : small := repeat (true, 1) N.
Lemma ones_ok N B : 1 <= B -> small_ok N B (ones N).
Proof. intros HB. split; [apply repeat_length|]. apply Forall_forall. intros x Hx. apply repeat_spec in Hx as ->. cbn. lia. Qed.
Definition bound_b (pp : params) (B : Z) : bool := (0 <=? B) && forallb (fun q => 2 * B <? q) (pa_Q pp ++ pa_P pp).
Lemma bound_b_ok pp B : bound_b pp B = true -> bound_ok pp B.
Proof.
  unfold bound_b, bound_ok. rewrite andb_true_iff, Z.leb_le, forallb_forall. intros [H1 H2]. split; [auto|]. apply Forall_forall. intros q Hq. specialize (H2 q Hq). now apply Z.ltb_lt in H2.
Qed.
(** one witness for all key theorems: shipped-size parameters, a secret key and shapes *)
Lemma key_witness pp0 B : params_ok pp0 -> pa_CRS pp0 = [] -> bound_b pp0 B = true -> 1 <= B ->
  exists pp sk, params_ok pp /\ pa_Q pp = pa_Q pp0 /\ pa_P pp = pa_P pp0 /\ pa_logN pp = pa_logN pp0 /\ pa_gamma pp = pa_gamma pp0 /\
    bound_ok pp B /\ sk_is pp sk (smallpoly (ones (pa_N pp))) /\ errs_ok pp B (fun _ => ones (pa_N pp)) /\
    (forall ix, In ix (crsIndices (pa_logN pp)) -> crs_is pp ix (fun _ => pone)) /\
    (forall ix, mhas Z.eqb (pa_CRS pp) ix = true <-> In ix (crsIndices (pa_logN pp))) /\
    (exists g, gadget pp g) /\ pshp pp (qQ (newQP pp)) /\ qshp pp (newQP pp).
Proof.
  intros Hok HC HB H1. destruct pp0 as [logN Q P pq pP gm c]. cbn in HC. subst c. destruct (params_with_crs logN Q P pq pP gm Hok) as (crs & _ & Hpp & Hcrs & Hm).
  set (pp := mkParams logN Q P pq pP gm crs) in *. assert (HBp : bound_ok pp B) by (apply bound_b_ok; exact HB).
  destruct (genSecretKey_ok pp Hpp (ones (pa_N pp)) B "a" HBp (ones_ok _ _ H1)) as (sk & _ & _ & Hs).
  exists pp, sk. do 5 (split; [auto; reflexivity|]). split; [auto|]. split; [auto|]. split; [intros t _; now apply ones_ok|]. split; [exact Hcrs|]. split; [exact Hm|].
  split; [now apply gadget_exists|]. pose proof (newQP_shp pp) as Hn. split; [apply Hn|exact Hn].
Qed.
