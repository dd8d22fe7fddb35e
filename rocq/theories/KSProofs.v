(** Correctness of the gadget products: Decompose, ExternalProduct, ExternalProductHoisted. *)
From Coq Require Import ZArith Znumtheory List Lia Setoid Morphisms Bool Permutation.
From Verif Require Import Go GoProofs Lattigo LattigoProofs Arith NegRing NegRingProofs NTT NTTProofs F64 BasisExt BasisExtProofs ModDownProofs DecomposeProofs RingOps RingOpsProofs Maps Params Elements KeySwitch.
From Verif Require Export Repr.
Import ListNotations.
Local Open Scope Z_scope.

Lemma wrote_len {n dst d} : wrote n dst d -> plen d = plen dst.
Proof. now intros (_ & ? & _). Qed.
Lemma qrep_qrepb pp l x A : qrep pp l x A -> qrepb pp l x A.
Proof. intros [H1 H2]. split; now apply nrep_nrepb. Qed.
Lemma qrep_le pp l l' x A : (l' <= l)%nat -> qrep pp l x A -> qrep pp l' x A.
Proof. intros Hl [H1 H2]. split; auto. eapply nrep_le; [|exact H1]. lia. Qed.
Lemma qrepb_le pp l l' x A : (l' <= l)%nat -> qrepb pp l x A -> qrepb pp l' x A.
Proof. intros Hl [H1 H2]. split; auto. eapply nrepb_le; [|exact H1]. lia. Qed.

Lemma primes_coprime p q : prime p -> prime q -> p <> q -> rel_prime p q.
Proof.
  intros Hp Hq Hne. apply prime_rel_prime; auto. intros Hd. apply prime_div_prime in Hd; auto.
Qed.
Lemma primes_pairwise l : Forall prime l -> NoDup l -> pairwise_coprime l.
Proof.
  induction l as [|a l IH]; intros HF HN; [constructor|]. inversion_clear HF. inversion_clear HN.
  constructor; [|now apply IH]. apply Forall_forall. intros b Hb. rewrite Forall_forall in H0.
  apply primes_coprime; auto. now intros ->.
Qed.
Lemma good_all Q P : good_moduli Q P -> pairwise_coprime (Q ++ P).
Proof. intros []. apply primes_pairwise; auto. apply Forall_app. auto. Qed.
Lemma NoDup_appl {T} (a b : list T) : NoDup (a ++ b) -> NoDup a.
Proof.
  induction a as [|x a IH]; intros H; [constructor|]. cbn in H. inversion_clear H. constructor; auto.
  intros Hx. apply H0. apply in_app_iff. now left.
Qed.
Lemma good_pairwise Q P : good_moduli Q P -> pairwise_coprime Q.
Proof. intros []. apply primes_pairwise; auto. eapply NoDup_appl; eauto. Qed.
Lemma good_coprime Q P p q : good_moduli Q P -> In q Q -> In p P -> rel_prime q p.
Proof.
  intros [] Hq Hp. rewrite Forall_forall in *. apply primes_coprime; auto.
  intros ->. apply in_split in Hq as (a & b & ->). rewrite <- app_assoc in gm_nd. cbn in gm_nd.
  apply NoDup_remove_2 in gm_nd. apply gm_nd. rewrite !in_app_iff. auto.
Qed.

Section Env.
Context (env : kenv) (He : env_ok env).
Notation pp := (e_pp env).
Notation N := (pa_N pp).
Notation rQ := (ringQ pp).
Notation rP := (ringP pp).
Notation Bt := (Beta pp).
Notation lvP := (levelP pp).
Lemma Hpp : params_ok pp. Proof. exact (eo_pp env He). Qed.
Lemma HrQ : ring_ok rQ. Proof. exact (po_rQ _ Hpp). Qed.
Lemma HrP : ring_ok rP. Proof. exact (po_rP _ Hpp). Qed.
Lemma lvP1 : (lvP + 1 = PCount pp)%nat. Proof. unfold levelP. pose proof (po_P _ Hpp). lia. Qed.
Lemma HNpos : (0 < N)%nat. Proof. apply deg_pos. Qed.

Lemma Beta_val l : (l < QCount pp)%nat -> Bt l = ((l + 1 + Alpha pp - 1) / Alpha pp)%nat.
Proof.
  intros Hl. unfold Beta. pose proof (po_alpha _ Hpp) as Ha. pose proof (po_Q52 _ Hpp) as Hq.
  change (2 ^ 52) with 4503599627370496 in Hq.
  rewrite ceil_div_f_exact by (change (2 ^ 53) with 9007199254740992; lia).
  rewrite <- (Nat2Z.id ((l + 1 + Alpha pp - 1) / Alpha pp)). f_equal. rewrite Nat2Z.inj_div. f_equal; lia.
Qed.
Lemma Beta_lt l i : (l < QCount pp)%nat -> (i < Bt l)%nat <-> (i * Alpha pp <= l)%nat.
Proof.
  intros Hl. rewrite Beta_val by auto. pose proof (po_alpha _ Hpp) as Ha. set (a := Alpha pp) in *.
  pose proof (Nat.div_mod (l + 1 + a - 1) a ltac:(lia)) as H. pose proof (Nat.mod_upper_bound (l + 1 + a - 1) a ltac:(lia)).
  set (d := ((l + 1 + a - 1) / a)%nat) in *. split; intros Hi; nia.
Qed.
Lemma Beta_pos l : (l < QCount pp)%nat -> (0 < Bt l)%nat.
Proof. intros Hl. apply Beta_lt; auto. lia. Qed.
Lemma Beta_mono l l' : (l <= l')%nat -> (l' < QCount pp)%nat -> (Bt l <= Bt l')%nat.
Proof.
  intros H H'. destruct (Nat.eq_dec (Bt l) 0) as [|Hne]; [lia|].
  assert (Bt l - 1 < Bt l')%nat; [|lia]. apply Beta_lt; auto.
  assert ((Bt l - 1) * Alpha pp <= l)%nat by (apply Beta_lt; lia). lia.
Qed.
Lemma Beta_cover l j : (l < QCount pp)%nat -> (j <= l)%nat -> (j / Alpha pp < Bt l)%nat.
Proof.
  intros Hl Hj. apply Beta_lt; auto. pose proof (po_alpha _ Hpp) as Ha.
  pose proof (Nat.div_mod j (Alpha pp) ltac:(lia)). nia.
Qed.

(** * RingQP operations *)
Lemma MulQP_ok l a b dst X Y : (l < QCount pp)%nat -> qrepb pp l a (pscale W X) -> qrep pp l b Y -> qshp pp dst ->
  exists d, MulQP pp l lvP a b dst = Ok d /\ qrep pp l d (pmul N X Y) /\ qshp pp d.
Proof.
  intros Hl [A1 A2] [B1 B2] [[D1 D2] [D3 D4]]. unfold MulQP, qp2.
  destruct (MulMont_ok rQ HrQ l (qQ a) (qQ b) (qQ dst) _ _ (pmul N X Y) A1 B1 ltac:(lia) (montprod_l _ _ _ _)) as (x & E & Hw & Hx).
  rewrite E. cbn [bind]. rewrite <- lvP1 in A2, B2.
  destruct (MulMont_ok rP HrP lvP (qP a) (qP b) (qP dst) _ _ (pmul N X Y) A2 B2 ltac:(pose proof lvP1; lia) (montprod_l _ _ _ _)) as (y & E' & Hw' & Hy).
  rewrite E'. cbn [bind]. exists (mkQP x y). split; [reflexivity|]. rewrite lvP1 in Hy, Hw'.
  split; [split; auto|]. split; cbn [qQ qP].
  { split; [rewrite (wrote_len Hw); exact D1|]. exact (nrep_shp rQ _ _ _ _ HrQ D2 Hw Hx). }
  { split; [rewrite (wrote_len Hw'); exact D3|]. exact (nrep_shp rP _ _ _ _ HrP D4 Hw' Hy). }
Qed.
Lemma MulAddQP_ok l a b dst X Y Z0 : (l < QCount pp)%nat -> qrepb pp l a (pscale W X) -> qrep pp l b Y -> qrep pp l dst Z0 -> qshp pp dst ->
  exists d, MulAddQP pp l lvP a b dst = Ok d /\ qrep pp l d (padd Z0 (pmul N X Y)) /\ qshp pp d.
Proof.
  intros Hl [A1 A2] [B1 B2] [C1 C2] [[D1 D2] [D3 D4]]. unfold MulAddQP, qp2.
  destruct (MulMontAdd_ok rQ HrQ l (qQ a) (qQ b) (qQ dst) _ _ _ (pmul N X Y) A1 B1 C1 (montprod_l _ _ _ _)) as (x & E & Hw & Hx).
  rewrite E. cbn [bind]. rewrite <- lvP1 in A2, B2, C2.
  destruct (MulMontAdd_ok rP HrP lvP (qP a) (qP b) (qP dst) _ _ _ (pmul N X Y) A2 B2 C2 (montprod_l _ _ _ _)) as (y & E' & Hw' & Hy).
  rewrite E'. cbn [bind]. exists (mkQP x y). split; [reflexivity|]. rewrite lvP1 in Hy, Hw'.
  split; [split; auto|]. split; cbn [qQ qP].
  { split; [rewrite (wrote_len Hw); exact D1|]. exact (nrep_shp rQ _ _ _ _ HrQ D2 Hw Hx). }
  { split; [rewrite (wrote_len Hw'); exact D3|]. exact (nrep_shp rP _ _ _ _ HrP D4 Hw' Hy). }
Qed.
Lemma MFormQP_ok l a dst X : (l < QCount pp)%nat -> qrep pp l a X -> qshp pp dst ->
  exists d, MFormQP pp l lvP a dst = Ok d /\ qrep pp l d (pscale W X) /\ qshp pp d.
Proof.
  intros Hl [A1 A2] [[D1 D2] [D3 D4]]. unfold MFormQP, qp1.
  destruct (MFormLvl_ok rQ HrQ l (qQ a) (qQ dst) _ A1 ltac:(lia)) as (x & E & Hw & Hx).
  rewrite E. cbn [bind]. rewrite <- lvP1 in A2.
  destruct (MFormLvl_ok rP HrP lvP (qP a) (qP dst) _ A2 ltac:(pose proof lvP1; lia)) as (y & E' & Hw' & Hy).
  rewrite E'. cbn [bind]. exists (mkQP x y). split; [reflexivity|]. rewrite lvP1 in Hy, Hw'.
  split; [split; auto|]. split; cbn [qQ qP].
  { split; [rewrite (wrote_len Hw); exact D1|]. exact (nrep_shp rQ _ _ _ _ HrQ D2 Hw Hx). }
  { split; [rewrite (wrote_len Hw'); exact D3|]. exact (nrep_shp rP _ _ _ _ HrP D4 Hw' Hy). }
Qed.
Lemma NTTQP_ok l a dst X bQ bP : (l < QCount pp)%nat -> prep rQ bQ (l + 1) (p_co (qQ a)) X -> prep rP bP (PCount pp) (p_co (qP a)) X -> qshp pp dst ->
  exists d, NTTQP pp l lvP a dst = Ok d /\ qrep pp l d X /\ qshp pp d.
Proof.
  intros Hl A1 A2 [[D1 D2] [D3 D4]]. unfold NTTQP, qp1.
  destruct (NTTLvl_ok rQ HrQ bQ l (qQ a) (qQ dst) _ A1 ltac:(lia)) as (x & E & Hw & Hx).
  rewrite E. cbn [bind]. rewrite <- lvP1 in A2.
  destruct (NTTLvl_ok rP HrP bP lvP (qP a) (qP dst) _ A2 ltac:(pose proof lvP1; lia)) as (y & E' & Hw' & Hy).
  rewrite E'. cbn [bind]. exists (mkQP x y). split; [reflexivity|]. rewrite lvP1 in Hy, Hw'.
  split; [split; auto|]. split; cbn [qQ qP].
  { split; [rewrite (wrote_len Hw); exact D1|]. exact (nrep_shp rQ _ _ _ _ HrQ D2 Hw Hx). }
  { split; [rewrite (wrote_len Hw'); exact D3|]. exact (nrep_shp rP _ _ _ _ HrP D4 Hw' Hy). }
Qed.

(** * digits *)
(** D i is the integer polynomial that block i of the decomposition of co represents *)
Definition digit1 (l : nat) (co : list (list Z)) (i : nat) (D : zpoly) : Prop :=
  exists outQ outP Y,
    DecomposeAndSplit (e_dec env) l lvP (Alpha pp) i (Gamma pp) co = Ok (outQ, outP) /\
    digit_result (pa_Q pp) (pa_P pp) (Alpha pp) i l lvP N co outQ outP Y /\ D = lpoly Y.
Definition digits (l : nat) (co : list (list Z)) (D : nat -> zpoly) : Prop :=
  forall i, (i < Bt l)%nat -> digit1 l co i (D i).
(** product of the primes of block i *)
Definition blockP (l i : nat) : Z := prodZ (block (pa_Q pp) (Alpha pp) i l).

Definition digit_input (l : nat) (co : list (list Z)) : Prop :=
  (l < length co)%nat /\ shp N co /\ forall j x, (j <= l)%nat -> (x < N)%nat -> nth x (nth j co []) 0 <= nth j (pa_Q pp) 0.

Lemma digit1_exists l co i : (l < QCount pp)%nat -> digit_input l co -> (i < Bt l)%nat -> exists D, digit1 l co i D.
Proof.
  intros Hl (H1 & H2 & H3) Hi. pose proof Hpp as P0. unfold digit1.
  rewrite (eo_dec _ He).
  destruct (DecomposeAndSplit_ok (pa_Q pp) (pa_P pp) (pa_gamma pp) (Alpha pp) i l lvP N co) as (oq & op & Y & E & HD).
  - apply P0.
  - apply P0.
  - apply P0.
  - destruct (po_div _ P0) as [->|H]; [now left|right]. split; [rewrite H; reflexivity|]. rewrite H. pose proof lvP1. lia.
  - pose proof lvP1. fold (PCount pp). lia.
  - apply Beta_lt; auto.
  - exact Hl.
  - apply P0.
  - pose proof (po_P _ P0). fold (PCount pp). change (2 ^ 52) with 4503599627370496. lia.
  - auto.
  - eapply Forall_impl; [|exact H2]. cbn. tauto.
  - eapply Forall_impl; [|exact H2]. cbn. tauto.
  - auto.
  - exists (lpoly Y), oq, op, Y. auto.
Qed.
Lemma choose_fun {T} (d : T) n (R : nat -> T -> Prop) : (forall i, (i < n)%nat -> exists t, R i t) -> exists f, forall i, (i < n)%nat -> R i (f i).
Proof.
  induction n as [|n IH]; intros H; [exists (fun _ => d); lia|].
  destruct IH as [f Hf]; [auto|]. destruct (H n ltac:(lia)) as [t Ht].
  exists (fun i => if Nat.eqb i n then t else f i). intros i Hi. destruct (Nat.eqb_spec i n) as [->|Hne]; auto. apply Hf. lia.
Qed.
Lemma digits_exist l co : (l < QCount pp)%nat -> digit_input l co -> exists D, digits l co D.
Proof. intros Hl Hc. apply (choose_fun pzero). intros i Hi. now apply digit1_exists. Qed.
Lemma near_abs Y Q : 0 < Q -> near_range Y Q -> Z.abs Y <= 2 * Q.
Proof. intros HQ [H1 H2]. change (2 ^ 42) with 4398046511104 in *. lia. Qed.
Lemma blockP_pos l i : 0 < blockP l i.
Proof.
  unfold blockP, block. apply prodZ_pos. apply Forall_firstn, Forall_skipn.
  eapply Forall_impl; [|apply (gm_Q _ _ (po_good _ Hpp))]. intros q []; lia.
Qed.
(** a digit is congruent to the input modulo the primes of its block, and small *)
Lemma digits_norm l co D i : digits l co D -> (i < Bt l)%nat -> pnorm_le N (D i) (2 * blockP l i).
Proof.
  intros HD Hi x Hx. destruct (HD i Hi) as (oq & op & Y & E & (H1 & H2 & H3 & H4 & _) & ->).
  unfold lpoly. apply near_abs; [apply blockP_pos|]. now apply H4.
Qed.
Lemma digits_cong l co D A j b : (l < QCount pp)%nat -> digits l co D -> prep rQ b (l + 1) co A -> (j <= l)%nat ->
  peq N (nth j (pa_Q pp) 0) (D (j / Alpha pp)%nat) A.
Proof.
  intros Hl HD HA Hj x Hx. pose proof (po_alpha _ Hpp) as Ha.
  destruct (HD (j / Alpha pp)%nat (Beta_cover l j Hl Hj)) as (oq & op & Y & E & (H1 & H2 & H3 & H4 & H5 & _) & ->).
  pose proof (Nat.div_mod j (Alpha pp) ltac:(lia)). pose proof (Nat.mod_upper_bound j (Alpha pp) ltac:(lia)).
  assert (Ha1 : (j / Alpha pp * Alpha pp <= j)%nat) by (rewrite Nat.mul_comm; lia).
  assert (Ha2 : (j < (j / Alpha pp + 1) * Alpha pp)%nat) by (rewrite Nat.mul_add_distr_r, (Nat.mul_comm _ (Alpha pp)); lia).
  unfold lpoly. rewrite (H5 j x) by auto.
  destruct HA as (_ & _ & HA). apply (HA j ltac:(lia)). exact Hx.
Qed.

Lemma digit_single l co i D dst : (l < QCount pp)%nat -> digit1 l co i D -> qshp pp dst ->
  exists d, DecomposeSingleNTT env l (Alpha pp) i co dst = Ok d /\ qrep pp l d D /\ qshp pp d.
Proof.
  intros Hl (oq & op & Y & E & (H1 & H2 & H3 & H4 & H5 & H6 & H7) & ->) [[D1 D2] [D3 D4]].
  unfold DecomposeSingleNTT. rewrite E. cbn [bind].
  destruct (write_ok l oq (qQ dst)) as (x & Ex & Hwx & Hx); [auto|lia|].
  destruct (write_ok lvP op (qP dst)) as (y & Ey & Hwy & Hy); [auto|pose proof lvP1; lia|].
  rewrite Ex. cbn [bind]. rewrite Ey. cbn [bind].
  assert (HA : prep rQ (fun _ => W) (l + 1) (p_co x) (lpoly Y)).
  { split; [cbn; unfold QCount in Hl; lia|]. destruct Hwx as (_ & HL & _). split; [unfold plen in *; lia|].
    intros j Hj. rewrite Hx by lia. destruct (limb_of_nth _ _ _ _ (H6 j ltac:(lia))) as [HL1 HL2].
    split; [rewrite HL1; exact H1|]. intros i0 Hi0. apply HL2. rewrite H1. exact Hi0. }
  assert (HB : prep rP (fun _ => W) (PCount pp) (p_co y) (lpoly Y)).
  { split; [apply le_n|]. destruct Hwy as (_ & HL & _). split; [unfold plen in *; lia|]. pose proof lvP1.
    intros j Hj. rewrite Hy by lia. destruct (limb_of_nth _ _ _ _ (H7 j ltac:(lia))) as [HL1 HL2].
    split; [rewrite HL1; exact H1|]. intros i0 Hi0. apply HL2. rewrite H1. exact Hi0. }
  apply NTTQP_ok with (bQ := fun _ => W) (bP := fun _ => W); auto.
  split; cbn.
  - split; [rewrite (wrote_len Hwx); exact D1|]. exact (prep_shp rQ _ _ _ _ _ D2 Hwx HA (fun _ _ => Z.le_refl _)).
  - rewrite lvP1 in Hwy. split; [rewrite (wrote_len Hwy); exact D3|].
    exact (prep_shp rP _ _ _ _ _ D4 Hwy HB (fun _ _ => Z.le_refl _)).
Qed.

(** * canonical limbs *)
Definition nlimbs (r : ringd) (n : nat) (S0 : zpoly) : list (list Z) :=
  map (fun j => map (fun i => nttf (r_logN r) (psij r j) S0 i mod qj r j) (seq 0 (r_N r))) (seq 0 n).
Lemma nlimbs_nrep r n S0 : ring_ok r -> (n <= length (r_mods r))%nat -> nrep r n (nlimbs r n S0) S0.
Proof.
  intros Hr Hn. split; [auto|]. unfold nlimbs. split; [now rewrite map_length, seq_length|].
  intros j Hj. rewrite nth_map_seq by auto. split; [now rewrite map_length, seq_length|].
  intros i Hi. rewrite nth_map_seq by auto. destruct (ring_q1 r j Hr ltac:(lia)).
  split; [apply Z.mod_pos_bound; lia|apply cong_mod; lia].
Qed.
Lemma lrep_unique M q l l' A B : lrep M q q l A -> lrep M q q l' B -> peq M q A B -> l = l'.
Proof.
  intros [H1 H2] [H3 H4] HE. apply (nth_ext _ _ 0 0); [lia|]. intros i Hi.
  destruct (H2 i ltac:(lia)) as [Ha Hb]. destruct (H4 i ltac:(lia)) as [Hc Hd].
  apply (cong_small q); auto. rewrite Hb, Hd. apply HE. lia.
Qed.
Lemma nrep_unique r n co co' S0 j : nrep r n co S0 -> nrep r n co' S0 -> (j < n)%nat -> nth j co [] = nth j co' [].
Proof. intros (_ & _ & H) (_ & _ & H') Hj. eapply lrep_unique; eauto. reflexivity. Qed.
Lemma prep_unique r n co co' A B j : prep r (fun q => q) n co A -> prep r (fun q => q) n co' B ->
  (j < n)%nat -> peq (r_N r) (qj r j) A B -> nth j co [] = nth j co' [].
Proof. intros (_ & _ & H) (_ & _ & H') Hj HE. eapply lrep_unique; [apply H|apply H'|]; auto. Qed.

Lemma moddown_limbs_ext lvl mods row p1 p1' up : (lvl < length p1)%nat -> (lvl < length p1')%nat ->
  (forall j, (j <= lvl)%nat -> nth j p1 [] = nth j p1' []) -> moddown_limbs lvl mods row p1 up = moddown_limbs lvl mods row p1' up.
Proof.
  intros H1 H2 HE. unfold moddown_limbs. 
  assert (G : forall k, (k <= lvl + 1)%nat -> forall a, (a + k = lvl + 1)%nat -> 
    mapM (fun i => let* q := idx mods i in let* inv := idx row i in let* xs := idx p1 i in let* ys := idx up i in
      Ok (map (fun '(x, y) => moddown_word x y q inv) (combine xs ys))) (seq a k) =
    mapM (fun i => let* q := idx mods i in let* inv := idx row i in let* xs := idx p1' i in let* ys := idx up i in
      Ok (map (fun '(x, y) => moddown_word x y q inv) (combine xs ys))) (seq a k)).
  { induction k as [|k IH]; intros Hk a Ha; [reflexivity|]. cbn [seq mapM].
    rewrite (IH ltac:(lia) (S a)) by lia. rewrite (idx_nth p1 a []), (idx_nth p1' a []) by lia.
    rewrite (HE a) by lia. reflexivity. }
  apply G; lia.
Qed.

Lemma bigP_pos : 0 < bigP pp.
Proof.
  unfold bigP. apply prodZ_pos. eapply Forall_impl; [|apply (gm_P _ _ (po_good _ Hpp))]. intros q []; lia.
Qed.
Lemma P_pairwise : pairwise_coprime (pa_P pp).
Proof. eapply good_pairwise. apply (good_moduli_sym _ _ (po_good _ Hpp)). Qed.

(** * the division by P at the end of a gadget product *)
Definition is_ep (l : nat) (S0 C : zpoly) : Prop :=
  forall c1 c, qrep pp l c1 S0 -> qshp pp c1 -> (l < plen c)%nat ->
    exists c1' c', finishEP env l c1 c = Ok (c1', c') /\ qshp pp c1' /\ wrote (l + 1) c c' /\
      prep rQ (fun q => q) (l + 1) (p_co c') C.

Lemma finishEP_ok l S0 : (l < QCount pp)%nat ->
  exists C R, is_ep l S0 C /\ peq N 0 (pscale (bigP pp) C) (psub S0 R) /\ pnorm_le N R (2 * bigP pp).
Proof.
  intros Hl. pose proof lvP1 as HlP. pose proof bigP_pos as HP.
  set (zQ := mkPoly false (nlimbs rQ (l + 1) S0)). set (zP := mkPoly false (nlimbs rP (lvP + 1) S0)).
  assert (NQ : nrep rQ (l + 1) (p_co zQ) S0) by (apply nlimbs_nrep; [apply HrQ|cbn; unfold QCount in Hl; lia]).
  assert (NP : nrep rP (lvP + 1) (p_co zP) S0) by (apply nlimbs_nrep; [apply HrP|cbn; rewrite HlP; reflexivity]).
  assert (LQ : plen zQ = (l + 1)%nat) by (unfold plen; cbn; unfold nlimbs; now rewrite map_length, seq_length).
  assert (LP : plen zP = (lvP + 1)%nat) by (unfold plen; cbn; unfold nlimbs; now rewrite map_length, seq_length).
  destruct (InvNTTLazyLvl_ok rQ HrQ (e_lz env) l zQ zQ S0 NQ ltac:(lia)) as (X & EX & WX & RX).
  destruct (InvNTTLazyLvl_ok rP HrP (e_lz env) lvP zP zP S0 NP ltac:(lia)) as (Y & EY & WY & RY).
  destruct (lvl1_ok rQ (InvNTTLazy (e_lz env) (pa_logN pp)) l zQ zQ HrQ) as (X' & EX' & _ & FX); [cbn; unfold QCount in Hl; lia|lia|lia|].
  destruct (lvl1_ok rP (InvNTTLazy (e_lz env) (pa_logN pp)) lvP zP zP HrP) as (Y' & EY' & _ & FY); [cbn; unfold PCount in HlP; lia|lia|lia|].
  unfold InvNTTLazyLvl in EX, EY. cbn [r_logN ringQ ringP] in EX, EY.
  rewrite EX in EX'. injection EX' as <-. rewrite EY in EY'. injection EY' as <-.
  assert (LY : plen Y = (lvP + 1)%nat) by (rewrite (wrote_len WY); lia).
  assert (SX : forall j, (j < l + 1)%nat -> lrep N (nth j (pa_Q pp) 0) (2 * nth j (pa_Q pp) 0) (nth j (p_co X) []) S0) by apply RX.
  assert (SY : forall j, (j < lvP + 1)%nat -> lrep N (nth j (pa_P pp) 0) (2 * nth j (pa_P pp) 0) (nth j (p_co Y) []) S0) by apply RY.
  assert (WY2 : Forall words (p_co Y) /\ Forall (fun ll => length ll = N) (p_co Y)).
  { assert (HF : shp N (p_co Y)).
    { apply Forall_of_nth with (d := []). intros j Hj. fold (plen Y) in Hj. split; [apply (SY j); lia|].
      eapply lrep_words; [|apply (SY j); lia]. destruct (ring_q1 rP j HrP) as [HW1 HW]; [cbn; fold (PCount pp); lia|]. cbn [r_mods ringP ringQ] in HW1, HW. lia. }
    split; eapply Forall_impl; try exact HF; cbn; tauto. }
  destruct (ModDownQPtoQ_ok (pa_Q pp) (pa_P pp) (e_ext env) l lvP N (p_co X) (p_co Y)) as (out & R & EO & HR1 & HR2 & HR3 & HO1 & HO2).
  { apply Hpp. } { rewrite (eo_ext _ He). apply NewFastBasisExtender_ok, Hpp. } { exact Hl. }
  { pose proof (po_P _ Hpp). lia. } { fold (PCount pp). lia. }
  { split; [fold (plen X); rewrite (wrote_len WX); lia|]. intros j Hj. split; [apply (SX j Hj)|]. intros x Hx. apply (SX j Hj). exact Hx. }
  { fold (plen Y). lia. } { apply WY2. } { apply WY2. }
  assert (EPP : prodZ (firstn (lvP + 1) (pa_P pp)) = bigP pp).
  { rewrite HlP. unfold bigP, PCount. now rewrite firstn_all. }
  rewrite EPP in HR2, HO2.
  assert (HD : forall x, (x < N)%nat -> (bigP pp | S0 x - nth x R 0)).
  { intros x Hx. change (cong (bigP pp) (S0 x) (nth x R 0)). apply crt_cong; [apply P_pairwise|].
    apply Forall_of_nth with (d := 0). intros j Hj. fold (PCount pp) in Hj.
    rewrite (HR3 j x) by lia. symmetry. apply (SY j ltac:(lia)). exact Hx. }
  exists (fun x => (S0 x - nth x R 0) / bigP pp), (lpoly R).
  assert (HC : forall x, (x < N)%nat -> bigP pp * ((S0 x - nth x R 0) / bigP pp) = S0 x - nth x R 0).
  { intros x Hx. destruct (HD x Hx) as [m Hm]. rewrite Hm, Z.div_mul by lia. ring. }
  split; [|split].
  - intros c1 c [Q1 Q2] [[D1 D2] [D3 D4]] Hc. unfold finishEP.
    rewrite <- HlP in Q2.
    destruct (InvNTTLazyLvl_ok rQ HrQ (e_lz env) l (qQ c1) (qQ c1) S0 Q1 ltac:(lia)) as (x & Ex & Wx & Rx).
    destruct (InvNTTLazyLvl_ok rP HrP (e_lz env) lvP (qP c1) (qP c1) S0 Q2 ltac:(lia)) as (y & Ey & Wy & Ry).
    rewrite Ex. cbn [bind]. rewrite Ey. cbn [bind].
    destruct (lvl1_ok rQ (InvNTTLazy (e_lz env) (pa_logN pp)) l (qQ c1) (qQ c1) HrQ) as (x' & Ex' & _ & Fx); [cbn; unfold QCount in Hl; lia|lia|lia|].
    destruct (lvl1_ok rP (InvNTTLazy (e_lz env) (pa_logN pp)) lvP (qP c1) (qP c1) HrP) as (y' & Ey' & _ & Fy); [cbn; unfold PCount in HlP; lia|lia|lia|].
    unfold InvNTTLazyLvl in Ex, Ey. cbn [r_logN ringQ ringP] in Ex, Ey.
    rewrite Ex in Ex'. injection Ex' as <-. rewrite Ey in Ey'. injection Ey' as <-.
    assert (EyY : p_co y = p_co Y).
    { apply (nth_ext _ _ [] []); [fold (plen y); fold (plen Y); rewrite (wrote_len Wy); lia|].
      fold (plen y). rewrite (wrote_len Wy), D3, <- HlP. intros j Hj. rewrite Fy, FY by lia. f_equal. eapply nrep_unique; eauto. }
    assert (ExX : forall j, (j <= l)%nat -> nth j (p_co x) [] = nth j (p_co X) []).
    { intros j Hj. rewrite Fx, FX by lia. f_equal. eapply nrep_unique; eauto. lia. }
    rewrite EyY. unfold ModDownQPtoQ in *.
    destruct (ModUpPtoQ (e_ext env) lvP l (p_co Y)) as [up|] eqn:EU; [|discriminate EO]. cbn [bind] in *.
    destruct (idx (modDownPtoQ (e_ext env)) lvP) as [row|] eqn:ER; [|discriminate EO]. cbn [bind] in *.
    rewrite (moddown_limbs_ext l _ row (p_co x) (p_co X) up), EO; auto;
      [|fold (plen x); rewrite (wrote_len Wx); lia|fold (plen X); rewrite (wrote_len WX); lia].
    cbn [bind]. destruct (write_ok l out c) as (c' & Ec' & Wc & Fc); [auto|auto|]. rewrite Ec'. cbn [bind].
    exists (mkQP x y), c'. split; [reflexivity|]. split; [|split; [auto|]].
    + split; cbn [qQ qP].
      * split; [rewrite (wrote_len Wx); auto|]. refine (prep_shp rQ _ _ _ _ _ D2 Wx Rx _).
        intros j Hj. destruct (ring_q1 rQ j HrQ) as [HW1 HW]; [cbn; unfold QCount in Hl; lia|]. cbn [r_mods ringP ringQ] in HW1, HW |- *. lia.
      * split; [rewrite (wrote_len Wy); auto|]. refine (prep_shp rP _ _ _ _ _ D4 Wy Ry _).
        intros j Hj. destruct (ring_q1 rP j HrP) as [HW1 HW]; [cbn; unfold PCount in HlP; lia|]. cbn [r_mods ringP ringQ] in HW1, HW |- *. lia.
    + split; [cbn; unfold QCount in Hl; lia|]. split; [fold (plen c'); rewrite (wrote_len Wc); lia|].
      intros j Hj. cbn. rewrite Fc by lia. destruct (HO2 j ltac:(lia)) as [HL HX].
      split; [rewrite HL; exact HR1|]. intros i Hi. destruct (HX i ltac:(rewrite HR1; exact Hi)) as [HB HCg]. split; [exact HB|].
      apply (cong_mul_cancel _ (bigP pp)).
      { apply rel_prime_sym. unfold bigP. apply rel_prime_prodZ. apply Forall_of_nth with (d := 0). intros jj Hjj.
        apply (good_coprime (pa_Q pp) (pa_P pp)); [apply Hpp|apply nth_In; unfold QCount in Hl; lia|now apply nth_In]. }
      rewrite HC by exact Hi. rewrite HCg. apply cong_sub; [|reflexivity]. apply (SX j Hj). exact Hi.
  - intros x Hx. apply cong_0. unfold pscale, psub, lpoly. now apply HC.
  - intros x Hx. apply near_abs; [exact HP|exact (HR2 x Hx)].
Qed.

Lemma qrep_peq l x A B : peq N 0 A B -> qrep pp l x A -> qrep pp l x B.
Proof.
  intros HE [H1 H2]. split; (eapply nrep_peq; [| |eassumption]); try apply HrQ; try apply HrP; intros; now apply peq_0.
Qed.
Lemma is_ep_peq l A B C : peq N 0 A B -> is_ep l A C -> is_ep l B C.
Proof. intros HE H c1 c Hq Hs Hc. apply H; auto. eapply qrep_peq; [|exact Hq]. now symmetry. Qed.
Lemma nlimbs_shp r n S0 : ring_ok r -> (n <= length (r_mods r))%nat -> shp (r_N r) (nlimbs r n S0).
Proof.
  intros Hr Hn. destruct (nlimbs_nrep r n S0 Hr Hn) as (_ & HL & H).
  assert (HL2 : length (nlimbs r n S0) = n) by (unfold nlimbs; now rewrite map_length, seq_length).
  apply Forall_of_nth with (d := []). intros j Hj. rewrite HL2 in Hj. split; [apply (H j Hj)|].
  eapply lrep_words; [|apply (H j Hj)]. destruct (ring_q1 r j Hr ltac:(lia)). lia.
Qed.
Lemma qrep_exists l S0 : (l < QCount pp)%nat -> exists x, qrep pp l x S0 /\ qshp pp x.
Proof.
  intros Hl. exists (mkQP (mkPoly false (nlimbs rQ (QCount pp) S0)) (mkPoly false (nlimbs rP (PCount pp) S0))). split; split; cbn [qQ qP p_co].
  - eapply nrep_le; [|apply nlimbs_nrep; [apply HrQ|apply le_n]]. lia.
  - apply nlimbs_nrep; [apply HrP|apply le_n].
  - unfold plen; cbn [p_co]. split; [unfold nlimbs; now rewrite map_length, seq_length|]. apply (nlimbs_shp rQ); [apply HrQ|apply le_n].
  - unfold plen; cbn [p_co]. split; [unfold nlimbs; now rewrite map_length, seq_length|]. apply (nlimbs_shp rP); [apply HrP|apply le_n].
Qed.
Lemma prep_det r b n co A B j : prep r b n co A -> prep r b n co B -> (j < n)%nat -> peq (r_N r) (qj r j) A B.
Proof.
  intros (_ & _ & H) (_ & _ & H') Hj i Hi. destruct (H j Hj) as [_ G]. destruct (H' j Hj) as [_ G'].
  destruct (G i Hi) as [_ <-]. now destruct (G' i Hi) as [_ <-].
Qed.
Lemma is_ep_unique l S0 C C' j : (l < QCount pp)%nat -> is_ep l S0 C -> is_ep l S0 C' -> (j <= l)%nat -> peq N (nth j (pa_Q pp) 0) C C'.
Proof.
  intros Hl H H' Hj. destruct (qrep_exists l S0 Hl) as (x & Hx & Hs).
  destruct (H x (qQ x) Hx Hs) as (a & b & E & _ & _ & R); [destruct Hs as [[-> _] _]; auto|].
  destruct (H' x (qQ x) Hx Hs) as (a' & b' & E' & _ & _ & R'); [destruct Hs as [[-> _] _]; auto|].
  rewrite E in E'. injection E' as <- <-. apply (prep_det rQ _ _ _ _ _ j R R'). lia.
Qed.

(** * gadget products *)
Definition rows (l : nat) (ah : swk) (D : nat -> zpoly) : Prop :=
  forall t, (t < Bt l)%nat -> (t < length ah)%nat /\ qrep pp l (nth t ah dqp) (D t).
Definition rowsb (l : nat) (bg : swk) (B : nat -> zpoly) : Prop :=
  forall t, (t < Bt l)%nat -> (t < length bg)%nat /\ qrepb pp l (nth t bg dqp) (pscale W (B t)).
Definition gsum (l : nat) (B D : nat -> zpoly) : zpoly := psumL (fun t => pmul N (B t) (D t)) (seq 0 (Bt l)).
Definition keep (k k' : kpool) : Prop :=
  k_q0 k' = k_q0 k /\ k_q1 k' = k_q1 k /\ k_q2 k' = k_q2 k /\ k_s1 k' = k_s1 k /\ k_s2 k' = k_s2 k /\ k_s3 k' = k_s3 k.
Lemma keep_refl k : keep k k. Proof. repeat split. Qed.
Lemma keep_trans a b c : keep a b -> keep b c -> keep a c.
Proof. unfold keep. intros (-> & -> & -> & -> & -> & ->). auto. Qed.

Lemma psumL_seq_S M (f : nat -> zpoly) i : peq N M (psumL f (seq 0 (i + 1))) (padd (psumL f (seq 0 i)) (f i)).
Proof. rewrite seq_app. rewrite psumL_app. cbn. intros x Hx. unfold padd, pzero. apply cong_eq. ring. Qed.

Lemma accMul_ok l i b d c1 B D : (l < QCount pp)%nat -> qrepb pp l b (pscale W (B i)) -> qrep pp l d (D i) -> qshp pp c1 ->
  (i <> O -> qrep pp l c1 (psumL (fun t => pmul N (B t) (D t)) (seq 0 i))) ->
  exists c1', accMul env l i b d c1 = Ok c1' /\ qshp pp c1' /\ qrep pp l c1' (psumL (fun t => pmul N (B t) (D t)) (seq 0 (i + 1))).
Proof.
  intros Hl Hb Hd Hs Hc. unfold accMul. destruct (Nat.eqb_spec i 0) as [->|Hne].
  - destruct (MulQP_ok l b d c1 _ _ Hl Hb Hd Hs) as (x & E & Hx & Hxs). exists x. split; [auto|split; [auto|]].
    eapply qrep_peq; [|exact Hx]. cbn. intros j Hj. unfold padd, pzero. apply cong_eq. ring.
  - destruct (MulAddQP_ok l b d c1 _ _ _ Hl Hb Hd (Hc Hne) Hs) as (x & E & Hx & Hxs). exists x. split; [auto|split; [auto|]].
    eapply qrep_peq; [|exact Hx]. symmetry. apply psumL_seq_S.
Qed.

Lemma pool_set_c01 k c0 c1 : pool_ok pp k -> qshp pp c0 -> qshp pp c1 -> pool_ok pp (set_c01 c0 c1 k).
Proof. intros [] ? ?. constructor; auto. Qed.

Lemma EPH_ok l ah bg D B C c k : (l < QCount pp)%nat -> rows l ah D -> rowsb l bg B -> is_ep l (gsum l B D) C ->
  pool_ok pp k -> (l < plen c)%nat ->
  exists c' k', ExternalProductHoisted env l ah bg c k = Ok (c', k') /\ wrote (l + 1) c c' /\
    prep rQ (fun q => q) (l + 1) (p_co c') C /\ pool_ok pp k' /\ keep k k'.
Proof.
  intros Hl HD HB HC Hk Hc. unfold ExternalProductHoisted.
  destruct (foldM_seq_inv (fun c1 i => let* b := idx bg i in let* d := idx ah i in accMul env l i b d c1)
    (fun i c1 => qshp pp c1 /\ (i <> O -> qrep pp l c1 (psumL (fun t => pmul N (B t) (D t)) (seq 0 i)))) (Bt l) (k_c1 k)) as (c1 & E & Hs & HS).
  - intros i st Hi [Hs HS]. destruct (HD i Hi) as [Hd1 Hd2]. destruct (HB i Hi) as [Hb1 Hb2].
    rewrite (idx_nth bg i dqp) by auto. cbn [bind]. rewrite (idx_nth ah i dqp) by auto. cbn [bind].
    destruct (accMul_ok l i _ _ st B D Hl Hb2 Hd2 Hs HS) as (st' & E & Hs' & HS'). exists st'. split; [auto|]. split; auto.
  - split; [apply Hk|]. congruence.
  - rewrite E. cbn [bind]. specialize (HS ltac:(pose proof (Beta_pos l Hl); lia)).
    destruct (HC c1 c HS Hs Hc) as (c1' & c' & E' & Hs' & Hw & Hp). rewrite E'. cbn [bind].
    exists c', (set_c01 (k_c0 k) c1' k). split; [auto|]. split; [auto|]. split; [auto|].
    split; [|repeat split]. apply pool_set_c01; auto. apply Hk.
Qed.

(** the input of a decomposition and its digits, whatever the scratch space holds *)
Definition dsrc (l : nat) (a : poly) (D : nat -> zpoly) : Prop :=
  forall k, pool_ok pp k -> exists ai k', toInvNTT env l a k = Ok (ai, k') /\ digits l (p_co ai) D /\ pool_ok pp k' /\ keep k k'.
Lemma dsrc_coeff l a D : p_ntt a = false -> digits l (p_co a) D -> dsrc l a D.
Proof. intros Hf HD k Hk. exists a, k. unfold toInvNTT. rewrite Hf. repeat (split; auto). Qed.

Lemma EP_ok l a bg D B C c k : (l < QCount pp)%nat -> dsrc l a D -> rowsb l bg B -> is_ep l (gsum l B D) C ->
  pool_ok pp k -> (l < plen c)%nat ->
  exists c' k', ExternalProduct env l a bg c k = Ok (c', k') /\ wrote (l + 1) c c' /\
    prep rQ (fun q => q) (l + 1) (p_co c') C /\ pool_ok pp k' /\ keep k k'.
Proof.
  intros Hl HD HB HC Hk0 Hc. unfold ExternalProduct. destruct (HD k Hk0) as (ai & k1 & E0 & HD1 & Hk & Hkeep). rewrite E0. cbn [bind].
  match goal with |- context [foldM ?f (seq 0 (Bt l)) ?s] =>
    destruct (foldM_seq_inv f (fun i '(c0, c1) => qshp pp c0 /\ qshp pp c1 /\ (i <> O -> qrep pp l c1 (psumL (fun t => pmul N (B t) (D t)) (seq 0 i)))) (Bt l) s)
      as ([c0 c1] & E & Hs0 & Hs & HS) end.
  - intros i [c0 c1] Hi (Hs0 & Hs & HS). destruct (HB i Hi) as [Hb1 Hb2].
    destruct (digit_single l _ i _ c0 Hl (HD1 i Hi) Hs0) as (d & Ed & Hd & Hds). rewrite Ed. cbn [bind].
    rewrite (idx_nth bg i dqp) by auto. cbn [bind].
    destruct (accMul_ok l i _ _ c1 B D Hl Hb2 Hd Hs HS) as (st' & E & Hs' & HS'). rewrite E. cbn [bind]. exists (d, st'). split; [auto|]. split; [exact Hds|]. split; [exact Hs'|]. intros _. exact HS'.
  - split; [apply Hk|]. split; [apply Hk|]. congruence.
  - rewrite E. cbn [bind]. specialize (HS ltac:(pose proof (Beta_pos l Hl); lia)).
    destruct (HC c1 c HS Hs Hc) as (c1' & c' & E' & Hs' & Hw & Hp). rewrite E'. cbn [bind].
    exists c', (set_c01 c0 c1' k1). split; [auto|]. split; [auto|]. split; [auto|].
    split; [|exact Hkeep]. apply pool_set_c01; auto.
Qed.

Lemma nth_skipnl {T} n (l : list T) d i : nth i (skipn n l) d = nth (n + i) l d.
Proof. revert l. induction n as [|n IH]; intros [|a l]; cbn; auto. destruct i; reflexivity. Qed.
Lemma swkSet_ok v i x : (i < length v)%nat ->
  exists v', swkSet v i x = Ok v' /\ length v' = length v /\ forall t d, nth t v' d = if Nat.eqb t i then x else nth t v d.
Proof.
  intros Hi. unfold swkSet. destruct (Nat.ltb_spec i (length v)); [|lia]. eexists. split; [reflexivity|]. split.
  - rewrite app_length, firstn_length. cbn [length]. rewrite skipn_length. lia.
  - intros t d. destruct (Nat.eqb_spec t i) as [->|Hne].
    + rewrite app_nth2; rewrite firstn_length; [|lia]. replace (i - Nat.min i (length v))%nat with O by lia. reflexivity.
    + destruct (lt_dec t i).
      * rewrite app_nth1 by (rewrite firstn_length; lia). apply nth_firstn. auto.
      * rewrite app_nth2; rewrite firstn_length; [|lia]. replace (t - Nat.min i (length v))%nat with (S (t - i - 1))%nat by lia. cbn [nth].
        rewrite nth_skipnl. f_equal. lia.
Qed.
Lemma swk_ok_nth v t : swk_ok pp v -> (t < length v)%nat -> qshp pp (nth t v dqp).
Proof. intros [_ H] Ht. rewrite Forall_forall in H. apply H. now apply nth_In. Qed.
Lemma swk_ok_set v v' i x : swk_ok pp v -> length v' = length v -> (forall t d, nth t v' d = if Nat.eqb t i then x else nth t v d) -> qshp pp x -> swk_ok pp v'.
Proof.
  intros [H1 H2] HL Hn Hx. split; [congruence|]. apply Forall_of_nth with (d := dqp). intros t Ht. rewrite Hn.
  destruct (Nat.eqb t i); auto. apply swk_ok_nth; [split; auto|congruence].
Qed.
Lemma Beta_max l : (l < QCount pp)%nat -> (Bt l <= Bt (maxLevel pp))%nat.
Proof. intros Hl. unfold maxLevel. apply Beta_mono; lia. Qed.

Lemma Decompose_ok l a D ad k : (l < QCount pp)%nat -> dsrc l a D -> swk_ok pp ad -> pool_ok pp k ->
  exists ad' k', Decompose env l a ad k = Ok (ad', k') /\ rows l ad' D /\ swk_ok pp ad' /\ pool_ok pp k' /\ keep k k'.
Proof.
  intros Hl HD Had Hk0. unfold Decompose. destruct (HD k Hk0) as (ai & k1 & E0 & HD1 & Hk & Hkeep). rewrite E0. cbn [bind].
  pose proof (Beta_max l Hl) as Hm.
  match goal with |- context [foldM ?f (seq 0 (Bt l)) ?s] =>
    destruct (foldM_seq_inv f (fun i v => swk_ok pp v /\ forall t, (t < i)%nat -> qrep pp l (nth t v dqp) (D t)) (Bt l) s) as (v & E & Hv & HR) end.
  - intros i v Hi [Hv HR]. assert (Hiv : (i < length v)%nat) by (destruct Hv as [-> _]; lia).
    rewrite (idx_nth v i dqp) by auto. cbn [bind].
    destruct (digit_single l _ i _ (nth i v dqp) Hl (HD1 i Hi)) as (d & Ed & Hd & Hds); [now apply swk_ok_nth|]. rewrite Ed. cbn [bind].
    destruct (swkSet_ok v i d Hiv) as (v' & Ev & HL & Hn). exists v'. split; [auto|]. split; [eapply swk_ok_set; eauto|].
    intros t Ht. rewrite Hn. destruct (Nat.eqb_spec t i) as [->|Hne]; auto. apply HR. lia.
  - split; auto. lia.
  - rewrite E. cbn [bind]. exists v, k1. split; [auto|]. split; [|auto]. intros t Ht. split; [destruct Hv as [-> _]; lia|auto].
Qed.

(** * the digits only depend on limbs 0..l *)
Lemma mapM_ext_in {A B} (f g : A -> res B) l : (forall a, In a l -> f a = g a) -> mapM f l = mapM g l.
Proof.
  induction l as [|a l IH]; intros H; cbn; auto. rewrite (H a) by (now left). rewrite IH; auto. intros; apply H; now right.
Qed.
Lemma foldM_ext_in {A St} (f g : St -> A -> res St) l : (forall a s, In a l -> f s a = g s a) -> forall s, foldM f l s = foldM g l s.
Proof.
  induction l as [|a l IH]; intros H s; cbn; auto. rewrite (H a) by (now left). destruct (g s a); cbn; auto. apply IH. intros; apply H; now right.
Qed.
Lemma recon_ext off k col col' Q0 tb : (forall i, (i < k)%nat -> nth_error col (off + i) = nth_error col' (off + i)) -> recon off k col Q0 tb = recon off k col' Q0 tb.
Proof.
  intros H. unfold recon. f_equal. apply foldM_ext_in. intros a s Ha. apply in_seq in Ha. unfold recon_step, idx. rewrite (H a) by lia. reflexivity.
Qed.
Lemma Split_ext d l lP alpha i g co co' : (0 < alpha)%nat -> (i * alpha <= l)%nat ->
  (forall j, (j <= l)%nat -> nth_error co j = nth_error co' j) -> DecomposeAndSplit d l lP alpha i g co = DecomposeAndSplit d l lP alpha i g co'.
Proof.
  intros Ha Hi HE. unfold DecomposeAndSplit. destruct (Nat.eqb_spec alpha 0); [lia|]. rewrite decompLvl_val by auto.
  set (k := Nat.min alpha (l + 1 - i * alpha)). destruct (Z.of_nat k - 2 =? -1).
  - unfold idx. now rewrite (HE (i * alpha)%nat) by auto.
  - destruct (idxZ (dec_params d) (g * Z.of_nat alpha - 2)) as [t1|]; [|reflexivity]. cbn [bind].
    destruct (idx t1 i) as [t2|]; [|reflexivity]. cbn [bind].
    destruct (idxZ t2 (Z.of_nat k - 2)) as [pr|]; [|reflexivity]. cbn [bind].
    replace (Z.to_nat (Z.of_nat k - 2 + 2)) with k by lia.
    assert (EN : ncoef co = ncoef co').
    { unfold ncoef. rewrite <- !nth_default_eq. unfold nth_default. now rewrite (HE O) by lia. }
    rewrite EN. erewrite mapM_ext_in; [reflexivity|]. intros x _. cbn beta.
    rewrite (recon_ext _ _ (column co x) (column co' x)); [reflexivity|]. intros j Hj. unfold column.
    rewrite !nth_error_map, HE; [reflexivity|]. unfold k in Hj. lia.
Qed.
Lemma digits_ext l co co' D : (l < QCount pp)%nat -> (l < length co)%nat -> (l < length co')%nat ->
  (forall j, (j <= l)%nat -> nth j co [] = nth j co' []) -> digits l co D -> digits l co' D.
Proof.
  intros Hl L1 L2 HE HD i Hi. destruct (HD i Hi) as (oq & op & Y & E & (H1 & H2 & H3 & H4 & H5 & H6) & ->).
  exists oq, op, Y. split; [|split; [|reflexivity]].
  - rewrite <- E. symmetry. apply Split_ext.
    + pose proof (po_alpha _ Hpp); lia.
    + now apply Beta_lt.
    + intros j Hj. rewrite !(nth_error_nth' _ []) by lia. now rewrite HE.
  - split; [auto|]. split; [auto|]. split; [auto|]. split; [auto|]. split; [|auto]. intros j x A1 A2 A3 A4. rewrite <- HE by auto. auto.
Qed.

(** source of digits: a coefficient-form polynomial representing A (words up to q) *)
Definition plimbs (r : ringd) (n : nat) (A : zpoly) : list (list Z) :=
  map (fun j => map (fun i => A i mod qj r j) (seq 0 (r_N r))) (seq 0 n).
Lemma plimbs_prep r n A : ring_ok r -> (n <= length (r_mods r))%nat -> prep r (fun q => q) n (plimbs r n A) A.
Proof.
  intros Hr Hn. split; [auto|]. unfold plimbs. split; [now rewrite map_length, seq_length|].
  intros j Hj. rewrite nth_map_seq by auto. split; [now rewrite map_length, seq_length|].
  intros i Hi. rewrite nth_map_seq by auto. destruct (ring_q1 r j Hr ltac:(lia)).
  split; [apply Z.mod_pos_bound; lia|apply cong_mod; lia].
Qed.
Lemma prep_input l co A b : (l < QCount pp)%nat -> shp N co -> prep rQ b (l + 1) co A -> (forall q, b q <= q + 1) -> digit_input l co.
Proof.
  intros Hl Hs (H1 & H2 & H3) Hb. split; [lia|]. split; [auto|]. intros j x Hj Hx.
  destruct (H3 j ltac:(lia)) as [_ G]. destruct (G x Hx) as [G1 _]. specialize (Hb (qj rQ j)). cbn in *. lia.
Qed.
(** canonical digits of the reduced representation of A *)
Lemma cdigits_exist l A : (l < QCount pp)%nat -> exists D, digits l (plimbs rQ (l + 1) A) D.
Proof.
  intros Hl. apply digits_exist; auto. pose proof (plimbs_prep rQ (l + 1) A HrQ) as HP.
  specialize (HP ltac:(cbn; unfold QCount in Hl; lia)). eapply prep_input; [exact Hl| |exact HP|cbn; lia].
  apply Forall_of_nth with (d := []). unfold plimbs. rewrite map_length, seq_length. intros j Hj.
  destruct HP as (_ & _ & HP). split; [apply (HP j Hj)|]. eapply lrep_words; [|apply (HP j Hj)].
  destruct (ring_q1 rQ j HrQ) as [HW1 HW]; [cbn; unfold QCount in Hl; lia|]. cbn [r_mods ringQ] in *. lia.
Qed.
Lemma cdigits_src l A p D : (l < QCount pp)%nat -> p_ntt p = false -> prep rQ (fun q => q) (l + 1) (p_co p) A ->
  digits l (plimbs rQ (l + 1) A) D -> dsrc l p D.
Proof.
  intros Hl Hf HP HD. apply dsrc_coeff; auto.
  assert (HQ : prep rQ (fun q => q) (l + 1) (plimbs rQ (l + 1) A) A) by (apply plimbs_prep; [apply HrQ|cbn; unfold QCount in Hl; lia]).
  eapply digits_ext; [exact Hl| | | |exact HD].
  - destruct HQ as (_ & HQ & _). lia.
  - destruct HP as (_ & HP & _). lia.
  - intros j Hj. eapply prep_unique; [exact HQ|exact HP|lia|reflexivity].
Qed.
(** an NTT-form input: the scratch polynomial receives the reduced coefficients *)
Lemma dsrc_ntt l p A D : (l < QCount pp)%nat -> p_ntt p = true -> nrep rQ (l + 1) (p_co p) A ->
  digits l (plimbs rQ (l + 1) A) D -> dsrc l p D.
Proof.
  intros Hl Hf HP HD k Hk. unfold toInvNTT. rewrite Hf.
  destruct (InvNTTLvl_ok rQ HrQ l p (k_inv k) A HP) as (d & E & Hw & Hd); [destruct (kp_inv _ _ Hk) as [-> _]; lia|].
  rewrite E. cbn [bind]. exists d, (set_inv d k). split; [reflexivity|].
  assert (HQ : prep rQ (fun q => q) (l + 1) (plimbs rQ (l + 1) A) A) by (apply plimbs_prep; [apply HrQ|cbn; unfold QCount in Hl; lia]).
  split; [|split; [|repeat split]].
  - eapply digits_ext; [exact Hl| | | |exact HD].
    + destruct HQ as (_ & HQ & _). lia.
    + destruct Hd as (_ & Hd & _). lia.
    + intros j Hj. eapply prep_unique; [exact HQ|exact Hd|lia|reflexivity].
  - pose proof (kp_inv _ _ Hk) as HI0. destruct Hk. constructor; auto. cbn [k_inv set_inv]. destruct HI0 as [P1 P2]. split; [rewrite (wrote_len Hw); auto|].
    refine (prep_shp rQ _ _ _ _ _ P2 Hw Hd _). intros j Hj.
    destruct (ring_q1 rQ j HrQ) as [HW1 HW]; [cbn; unfold QCount in Hl; lia|]. cbn [r_mods ringQ] in *. lia.
Qed.
End Env.
