(** MultByConst on memory: its eight-word blocks compute the word-by-word model of Alias.v. *)
From Coq Require Import String ZArith List Lia Bool Permutation.
From Verif Require Import Go GoProofs Lattigo F64 NTT RingOps RingOpsProofs Maps MapsProofs Params Elements KeySwitch EncDec KeyGen Utils Evaluator Alias AliasConst SpecMem Unsafe UnsafeProofs.
Import ListNotations.
Local Open Scope Z_scope.
Local Open Scope list_scope.

Lemma apart_app a b : all_apart (a ++ b) -> all_apart a /\ all_apart b /\ lists_apart a b.
Proof.
  unfold all_apart. induction a as [|s a IH]; cbn [app]; intros H.
  - split; [constructor|]. split; [exact H|]. intros ? ? [].
  - inversion H as [|? ? H1 H2]; subst. destruct (IH H2) as (I1 & I2 & I3). rewrite Forall_app in H1. destruct H1 as [F1 F2]. split; [now constructor|]. split; [exact I2|].
    intros x y [<-|Hx] Hy; [rewrite Forall_forall in F2; now apply F2|now apply I3].
Qed.
Lemma ct_arrays_in (L : smap (list warray)) u ss i s : sget L u = Some ss -> nth_error ss i = Some s -> In s (ct_arrays L).
Proof. intros E Ei. unfold ct_arrays. apply in_concat. exists ss. split; [|now apply nth_error_In in Ei]. apply (mget_pair _ seqb) in E. apply in_map_iff. exists (u, ss). auto. Qed.
Lemma ct_apart (L : smap (list warray)) : all_apart (ct_arrays L) -> forall u ss i s u' ss' i' s', sget L u = Some ss -> nth_error ss i = Some s -> sget L u' = Some ss' -> nth_error ss' i' = Some s' -> (u <> u' \/ i <> i') -> apart s s'.
Proof.
  induction L as [|[k t] L IH]; intros HA u ss i s u' ss' i' s' E Ei E' Ei' Hne; [discriminate|].
  unfold ct_arrays in HA. cbn [map concat snd] in HA. apply apart_app in HA as (A1 & A2 & A3). fold (ct_arrays L) in *. cbn [mget] in E, E'.
  destruct (String.eqb_spec u k) as [->|Hu], (String.eqb_spec u' k) as [->|Hu'].
  - injection E as <-. injection E' as <-. destruct Hne as [Hne|Hne]; [congruence|]. now apply (all_apart_disj t A1 i i').
  - injection E as <-. apply A3; [now apply nth_error_In in Ei|now apply (ct_arrays_in L u' ss' i')].
  - injection E' as <-. apply apart_sym, A3; [now apply nth_error_In in Ei'|now apply (ct_arrays_in L u ss i)].
  - now apply (IH A2 u ss i s u' ss' i' s').
Qed.
Lemma holds_ct_frame m m' L ct ts : holds_ct m L ct -> lists_apart (ct_arrays L) ts -> same_outside ts m m' -> holds_ct m' L ct.
Proof.
  intros [K H] Ha Hs. split; [exact K|]. intros u ss p E1 E2. apply (holds_limbs_frame m m' ss (p_co p) ts); [now apply (H u)| |exact Hs]. intros s t Hs' Ht. apply Ha; [|exact Ht]. apply In_nth_error in Hs' as [i Hi]. now apply (ct_arrays_in L u ss i).
Qed.
Lemma key_same {A B} (L : smap A) (M : smap B) u : mkeys L = mkeys M -> (exists a, sget L u = Some a) <-> (exists b, sget M u = Some b).
Proof.
  intros H. split; intros [x Hx]; apply (mget_key _ seqb) in Hx; apply (mget_ex _ seqb); [rewrite <- H|rewrite H]; exact Hx.
Qed.

Section S.
Context (n : nat).
Lemma mulBlocksM_ok a k q c xs zs vx vz (src : option (list Z)) m0 : a_len xs = n -> a_len zs = n -> (a + 8 * k <= n)%nat ->
  (src = None /\ xs = zs /\ vx = vz \/ src = Some vx /\ apart xs zs) -> holds m0 xs vx -> holds m0 zs vz ->
  exists vz' m', mulWords q c (seq a (8 * k)) src vz = Ok vz' /\ mulBlocksM m0 a (a + 8 * k) q c xs zs = Ok m' /\ holds m' zs vz' /\ same_outside [zs] m0 m'.
Proof.
  intros Hx Hz Hk Hs [Lx Wx] [Lz Wz].
  assert (Er : rd src vz = vx) by (destruct Hs as [(-> & _ & ->)|[-> _]]; reflexivity).
  rewrite mulWords_ok by (rewrite ?Er; lia). rewrite Er. unfold mulBlocksM.
  destruct (blocks_ok (fun m j => let* x := addr xs j in let* z := addr zs j in Ok (fold_left (fun m l => store m (lane z l) (MRed (m (lane x l)) c q (MRedParams q))) lanes m))
    (fun m j l => MRed (m (lane (a_base xs + Z.of_nat j) l)) c q (MRedParams q)) (fun i => MRed (nth i vx 0) c q (MRedParams q)) (a_base zs) a k m0) as (m' & E & M1 & M2).
  - intros m t Ht. rewrite !addr_ok by lia. reflexivity.
  - intros m t l Ht Hl Hm. f_equal. rewrite <- Wx by lia. rewrite Hm; [unfold lane; f_equal; lia|]. unfold lane. destruct Hs as [(_ & -> & _)|[_ Ha]]; [lia|]. unfold apart in Ha. lia.
  - eexists _, m'. split; [reflexivity|]. split; [exact E|]. split.
    + split; [now rewrite span_length|]. rewrite span_length. intros i Hi. rewrite span_nth by auto. destruct (Nat.leb_spec a i), (Nat.ltb_spec i (a + 8 * k)); cbn [andb]; [apply M1; lia|rewrite M2 by lia; now apply Wz..].
    + intros b Hb. apply M2. intros Hin. apply (Hb zs (or_introl eq_refl)). unfold within. lia.
Qed.
Lemma holds_put m ss co i z : holds_limbs m ss co -> (forall s, nth_error ss i = Some s -> holds m s z) -> (i < length ss)%nat -> holds_limbs m ss (firstn i co ++ z :: skipn (i + 1) co).
Proof.
  intros H. revert i. induction H as [|s l ss co H1 H2 IH]; intros i Hz Hi; [cbn in Hi; lia|]. destruct i as [|i]; cbn [firstn app skipn Nat.add].
  - constructor; [now apply Hz|exact H2].
  - constructor; [exact H1|]. apply IH; [exact Hz|cbn in Hi; lia].
Qed.
Context (L0 LO : smap (list warray)) (src : option ciphertext).
Hypothesis (S0 : sized n (ct_arrays L0)) (SO : sized n (ct_arrays LO)) (AO : all_apart (ct_arrays LO)).
Hypothesis Hsrc : src = None /\ L0 = LO \/ src <> None /\ lists_apart (ct_arrays L0) (ct_arrays LO).
Definition rel (m : memory) (out : ciphertext) : Prop := holds_ct m LO out /\ forall ct0, src = Some ct0 -> holds_ct m L0 ct0.
Lemma sized_ct L u ss i s : sized n (ct_arrays L) -> sget L u = Some ss -> nth_error ss i = Some s -> a_len s = n.
Proof. intros HS E Ei. unfold sized in HS. rewrite Forall_forall in HS. apply HS. now apply (ct_arrays_in L u ss i). Qed.
Lemma half_sim ids q c i a k : (a + 8 * k <= n)%nat -> forall out out' m, rel m out -> mulHalf ids q c i (seq a (8 * k)) src out = Ok out' ->
  exists m', mulHalfM ids q c i a (a + 8 * k) L0 LO m = Ok m' /\ rel m' out' /\ same_outside (ct_arrays LO) m m'.
Proof.
  intros Hk. induction ids as [|u ids IH]; intros out out' m [HO HS] E.
  - injection E as <-. exists m. split; [reflexivity|]. split; [now split|now intros b _].
  - unfold mulHalf in E. cbn [foldM] in E. match type of E with bind ?x _ = _ => destruct x as [o1|] eqn:E1 end; [|discriminate]. cbn [bind] in E. fold (mulHalf ids q c i (seq a (8 * k)) src o1) in E.
    match type of E1 with bind ?xx _ = _ => destruct xx as [x|] eqn:Ex end; [|discriminate]. cbn [bind] in E1. unfold putLimb, ctUpd in E1.
    destruct (sptr out u) as [p|] eqn:Ep; [|discriminate]. cbn [bind] in E1. destruct (idx (p_co p) i) as [z|] eqn:Ez; [|discriminate]. cbn [bind] in E1. destruct (mulWords q c (seq a (8 * k)) x z) as [z'|] eqn:Ew; [|discriminate]. cbn [bind] in E1. injection E1 as <-.
    assert (Ep' : sget out u = Some p) by (unfold mptr in Ep; destruct (sget out u); congruence). destruct HO as [KO HO].
    destruct (proj2 (key_same LO out u KO) (ex_intro _ p Ep')) as [ss Ess]. pose proof (HO u ss p Ess Ep') as Hh. apply idx_inv in Ez.
    assert (Hi : (i < length ss)%nat) by (rewrite (holds_len _ _ _ Hh); apply nth_error_Some; congruence). destruct (nth_error_lt ss i Hi) as [zs Ezs].
    assert (Hz : holds m zs z) by (rewrite <- (nth_error_nth _ _ [] Ez); now apply (holds_nth m ss)).
    assert (HX : exists ss0 xs vx, sget L0 u = Some ss0 /\ nth_error ss0 i = Some xs /\ holds m xs vx /\ (x = None /\ xs = zs /\ vx = z \/ x = Some vx /\ apart xs zs)).
    { destruct Hsrc as [[-> ->]|[Hn Ha]].
      - injection Ex as <-. exists ss, zs, z. split; [exact Ess|]. split; [exact Ezs|]. split; [exact Hz|]. left. auto.
      - destruct src as [ct0|]; [|congruence]. destruct (HS ct0 eq_refl) as [K0 H0]. destruct (sptr ct0 u) as [a0|] eqn:Ea; [|discriminate]. cbn [bind] in Ex. destruct (idx (p_co a0) i) as [vx|] eqn:Evx; [|discriminate]. injection Ex as <-.
        assert (Ea' : sget ct0 u = Some a0) by (unfold mptr in Ea; destruct (sget ct0 u); congruence). destruct (proj2 (key_same L0 ct0 u K0) (ex_intro _ a0 Ea')) as [ss0 Ess0]. pose proof (H0 u ss0 a0 Ess0 Ea') as Hh0. apply idx_inv in Evx.
        assert (Hi0 : (i < length ss0)%nat) by (rewrite (holds_len _ _ _ Hh0); apply nth_error_Some; congruence). destruct (nth_error_lt ss0 i Hi0) as [xs Exs].
        exists ss0, xs, vx. split; [exact Ess0|]. split; [exact Exs|]. split; [rewrite <- (nth_error_nth _ _ [] Evx); now apply (holds_nth m ss0)|]. right. split; [reflexivity|]. apply Ha; [now apply (ct_arrays_in L0 u ss0 i)|now apply (ct_arrays_in LO u ss i)]. }
    destruct HX as (ss0 & xs & vx & Ess0 & Exs & Hx & Hcase).
    destruct (mulBlocksM_ok a k q c xs zs vx z x m) as (vz' & m1 & Em & Eb & B1 & B2); auto; [now apply (sized_ct L0 u ss0 i)|now apply (sized_ct LO u ss i)|].
    assert (vz' = z') by congruence. subst vz'.
    assert (Hin : In zs (ct_arrays LO)) by now apply (ct_arrays_in LO u ss i).
    assert (HR : rel m1 (sset out u (setLimb p i z'))).
    { split.
      - split; [rewrite (mkeys_mset_in _ seqb); [exact KO|now apply (mget_key _ seqb) in Ep']|]. intros u' ss' p' Es' Ep1. destruct (String.eqb_spec u' u) as [->|Hne].
        + rewrite (mget_mset_same _ seqb) in Ep1. injection Ep1 as <-. assert (ss' = ss) by congruence. subst ss'. unfold setLimb. cbn [p_co].
          assert (Hall : forall j s, nth_error ss j = Some s -> j <> i -> apart s zs). { intros j s Ej Hj. apply (ct_apart LO AO u ss j s u ss i zs); auto. }
          (* limbs other than i are untouched *)
          assert (G : forall ss1 co1 b0, holds_limbs m ss1 co1 -> (forall j s, nth_error ss1 j = Some s -> b0 + j <> i -> apart s zs)%nat -> (forall j s, nth_error ss1 j = Some s -> b0 + j = i -> s = zs)%nat ->
                    (b0 <= i)%nat -> (i - b0 < length ss1)%nat -> holds_limbs m1 ss1 (firstn (i - b0) co1 ++ z' :: skipn (i - b0 + 1) co1)).
          { clear - B1 B2. intros ss1 co1 b0 H. revert b0. induction H as [|s l ss1 co1 H1 H2 IH]; intros b0 HA HE Hb Hl; [cbn in Hl; lia|].
            destruct (Nat.eq_dec b0 i) as [->|Hne].
            - rewrite Nat.sub_diag. cbn [firstn app skipn Nat.add]. constructor; [rewrite (HE 0%nat s eq_refl) by lia; exact B1|].
              apply (holds_limbs_frame m m1 ss1 co1 [zs]); [exact H2| |exact B2]. intros s' t Hs' [<-|[]]. apply In_nth_error in Hs' as [j Hj]. apply (HA (S j) s'); [exact Hj|lia].
            - replace (i - b0)%nat with (S (i - S b0)) by lia. cbn [firstn app skipn Nat.add]. constructor.
              + apply (holds_frame m m1 s l [zs]); [exact H1| |exact B2]. intros t [<-|[]]. apply (HA 0%nat s eq_refl). lia.
              + apply IH; [intros j s' Hj; specialize (HA (S j) s' Hj); intros; apply HA; lia|intros j s' Hj Hji; apply (HE (S j) s' Hj); lia|lia|cbn in Hl; lia]. }
          specialize (G ss (p_co p) 0%nat Hh). rewrite Nat.sub_0_r in G. apply G; [intros j s Ej Hj; apply (Hall j); auto|intros j s Ej Hj; cbn in Hj; subst j; congruence|lia|exact Hi].
        + rewrite (mget_mset_other _ seqb) in Ep1 by auto. apply (holds_limbs_frame m m1 ss' (p_co p') [zs]); [now apply (HO u')| |exact B2]. intros s t Hs [<-|[]]. apply In_nth_error in Hs as [j Hj]. apply (ct_apart LO AO u' ss' j s u ss i zs); auto.
      - intros ct0 Ect. destruct Hsrc as [[Hn _]|[_ Ha]]; [congruence|]. apply (holds_ct_frame m m1 L0 ct0 [zs]); [now apply HS| |exact B2]. intros s t Hs [<-|[]]. now apply Ha. }
    destruct (IH _ _ m1 HR E) as (m' & E' & R' & F'). exists m'. split; [|split; [exact R'|]].
    + unfold mulHalfM in *. cbn [foldM]. unfold mptr. rewrite Ess0. cbn [bind]. rewrite (idx_some _ _ _ Exs). cbn [bind]. rewrite Ess. cbn [bind]. rewrite (idx_some _ _ _ Ezs). cbn [bind]. rewrite Eb. cbn [bind]. exact E'.
    + apply (same_trans _ m m1 m'); [|exact F']. apply (same_mono [zs]); [intros s [<-|[]]; exact Hin|exact B2].
Qed.
End S.

Lemma MultByConstM_ok ce n o L0 LO src c out r m : pa_N (e_pp (ce_env ce)) = (16 * n)%nat -> sized (16 * n) (ct_arrays L0) -> sized (16 * n) (ct_arrays LO) -> all_apart (ct_arrays LO) ->
  (src = None /\ L0 = LO \/ src <> None /\ lists_apart (ct_arrays L0) (ct_arrays LO)) -> holds_ct m L0 (c_ct (rd src out)) -> holds_ct m LO (c_ct out) ->
  MultByConstAt ce o src c out = Ok r ->
  exists m', MultByConstM ce o L0 c LO m = Ok m' /\ holds_ct m' LO (c_ct r) /\ same_outside (ct_arrays LO) m m'.
Proof.
  intros HN S0 SO AO Hsrc H0 HO E. unfold MultByConstAt in E. unfold MultByConstM.
  assert (HLv : forall L ct, holds_ct m L ct -> (let* p := sptr L "0"%string in match length p with O => Panic PIndex | S l => Ok l end) = ctLevel ct).
  { intros L ct [K H]. unfold ctLevel, mptr. destruct (sget L "0"%string) as [ss|] eqn:Es.
    - destruct (proj1 (key_same L ct "0"%string K) (ex_intro _ ss Es)) as [p Ep]. rewrite Ep. cbn [bind]. now rewrite (holds_len _ _ _ (H _ _ _ Es Ep)).
    - destruct (sget ct "0"%string) as [p|] eqn:Ep; [|reflexivity]. destruct (proj2 (key_same L ct "0"%string K) (ex_intro _ p Ep)). congruence. }
  rewrite (HLv L0 _ H0), (HLv LO _ HO). destruct (ctLevel (c_ct (rd src out))) as [l0|]; [|discriminate]. cbn [bind] in *. destruct (ctLevel (c_ct out)) as [l1|]; [|discriminate]. cbn [bind] in *.
  destruct (getConstAndScale ce (Nat.min l0 l1) c) as [[[re im] s]|]; [|discriminate]. cbn [bind] in *.
  match type of E with bind ?x _ = _ => destruct x as [r1|] eqn:E1 end; [|discriminate]. cbn [bind] in E. injection E as <-. cbn [c_ct].
  rewrite HN in *. assert (Hh : (16 * n / 2 = 8 * n)%nat) by (replace (16 * n)%nat with (8 * n * 2)%nat by lia; now rewrite Nat.div_mul by lia). rewrite Hh in *.
  assert (Hsrc' : option_map c_ct src = None /\ L0 = LO \/ option_map c_ct src <> None /\ lists_apart (ct_arrays L0) (ct_arrays LO)).
  { destruct Hsrc as [[-> ->]|[Hn Ha]]; [left; auto|right]. split; [now destruct src|exact Ha]. }
  assert (HR : rel L0 LO (option_map c_ct src) m (c_ct out)). { split; [exact HO|]. intros ct0 Ec. destruct src as [c0|]; [|discriminate]. cbn in Ec, H0. injection Ec as <-. exact H0. }
  destruct H0 as [K0 _]. rewrite K0. clear HO HLv.
  revert HR E1. generalize (seq 0 (Nat.min l0 l1 + 1)). generalize (c_ct out) at 1 2 as cur. intros cur L. revert cur m.
  induction L as [|i L IH]; intros cur m HR E1.
  - cbn in E1. injection E1 as <-. exists m. split; [reflexivity|]. split; [apply HR|now intros b _].
  - cbn [foldM] in E1 |- *. destruct (idx (pa_Q _) i) as [q|]; [|discriminate]. cbn [bind] in *. destruct (idx (pa_psiQ _) i) as [psi|]; [|discriminate]. cbn [bind] in *. destruct (multConsts ce re im s q psi) as [[lo hi]|]; [|discriminate]. cbn [bind] in *.
    match type of E1 with bind (bind ?x _) _ = _ => destruct x as [o1|] eqn:Eo1 end; [|discriminate]. cbn [bind] in E1. match type of E1 with bind ?x _ = _ => destruct x as [o2|] eqn:Eo2 end; [|discriminate]. cbn [bind] in E1.
    destruct (half_sim (16 * n) L0 LO (option_map c_ct src) S0 SO AO Hsrc' _ q lo i 0 n ltac:(lia) cur o1 m HR Eo1) as (m1 & Em1 & R1 & F1).
    destruct (half_sim (16 * n) L0 LO (option_map c_ct src) S0 SO AO Hsrc' _ q hi i (8 * n) n ltac:(lia) o1 o2 m1 R1 Eo2) as (m2 & Em2 & R2 & F2).
    cbn [plus] in Em1. rewrite Em1. cbn [bind]. replace (16 * n)%nat with (8 * n + 8 * n)%nat by lia. rewrite Em2. cbn [bind]. destruct (IH o2 m2 R2 E1) as (m' & E' & R' & F'). replace (16 * n)%nat with (8 * n + 8 * n)%nat in E' by lia.
    exists m'. split; [exact E'|]. split; [exact R'|]. apply (same_trans _ m m1 m'); [exact F1|]. now apply (same_trans _ m1 m2 m').
Qed.
