(** ModDownQPtoP at any two levels: what the row of the wrong level makes of the quotient. *)
From Coq Require Import ZArith Znumtheory List Lia Bool.
From Verif Require Import Spec SpecProofs Go GoProofs Lattigo Arith BasisExt BasisExtProofs ModDownProofs DecomposeProofs Params KSProofs BasisSpec.
Import ListNotations.
Local Open Scope Z_scope.

Theorem ModDownQPtoP_gen Q P b levelQ levelP N p1Q p1P :
  good_moduli Q P -> ext_ok Q P b -> (levelQ < length Q)%nat -> (levelQ < 32)%nat -> (levelP < length P)%nat -> (levelP < length Q)%nat ->
  lazy_poly P (levelP + 1) N p1P -> (levelQ < length p1Q)%nat -> Forall words p1Q -> Forall (fun l => length l = N) p1Q ->
  exists out R, ModDownQPtoP b levelQ levelP p1Q p1P = Ok out /\ length R = N /\
    (forall x, (x < N)%nat -> near_range (nth x R 0) (prodZ (firstn (levelQ + 1) Q))) /\
    (forall i x, (i <= levelQ)%nat -> (x < N)%nat -> cong (nth i Q 0) (nth x R 0) (nth x (nth i p1Q []) 0)) /\
    down_result P levelP (prodZ (firstn (levelP + 1) Q)) p1P out R.
Proof.
  intros G E HQ H32 HP HPQ Hz Hl Hw HN. unfold ModDownQPtoP. destruct (ModUpQtoP_ok Q P b levelQ levelP N p1Q) as (up & Y & Eu & H1 & H2 & H3 & H4 & H5); auto. rewrite Eu. cbn [bind].
  destruct (eo_mdQtoP _ _ _ E) as [Hmd1 Hmd2]. rewrite (idx_nth _ levelP []) by lia. cbn [bind]. rewrite (eo_P _ _ _ E).
  destruct (moddown_limbs_spec levelP P (nth levelP (modDownQtoP b) []) p1P up Y N (prodZ (firstn (levelP+1) Q))) as (out & Eo & Ho); auto.
  - apply G.
  - destruct (Hmd2 levelP 0%nat HPQ ltac:(lia)) as [-> _]. lia.
  - intros j Hj. apply H5. lia.
  - intros j Hj. destruct (Hmd2 levelP j HPQ ltac:(lia)) as (_ & R & C). split; auto. now rewrite Nat.add_1_r.
  - exists out, Y. split; [exact Eo|]. split; [exact H2|]. split; [exact H3|]. split; [|exact Ho]. intros i x Hi Hx. apply H4; lia.
Qed.
Theorem moddown_levels : forall Q P levelQ levelP N pQ pP, ntt_primes (Q ++ P) -> (levelQ < length Q)%nat -> (levelP < length P)%nat -> (levelQ < 32)%nat ->
  lazy_words P (levelP + 1) N pP -> (levelQ < length pQ)%nat -> rns_words N pQ ->
  if (levelP <? length Q)%nat then
    exists out, ModDownQPtoP (NewFastBasisExtender Q P) levelQ levelP pQ pP = Ok out /\ length out = (levelP + 1)%nat /\ (forall j, (j <= levelP)%nat -> length (nth j out []) = N) /\
      forall x X, (x < N)%nat -> (forall i, (i <= levelQ)%nat -> eqm (modulus Q i) X (word pQ i x)) -> (forall j, (j <= levelP)%nat -> eqm (modulus P j) X (word pP j x)) ->
        let B := product (firstn (levelQ + 1) Q) in
        exists kappa, (kappa = -1 \/ kappa = 0 \/ kappa = 1) /\ (B < 2 ^ 42 * (X mod B) -> B < 2 ^ 42 * (B - X mod B) -> kappa = 0) /\
          forall j, (j <= levelP)%nat -> 0 <= word out j x < modulus P j /\ eqm (modulus P j) (product (firstn (levelP + 1) Q) * word out j x) (B * (X / B - kappa))
  else ModDownQPtoP (NewFastBasisExtender Q P) levelQ levelP pQ pP = Panic PIndex.
Proof.
  intros Q P levelQ levelP N pQ pP G HQ HP H32 Hz Hl Hw. apply rns_words_ok in Hw as [Hw HN]. pose proof (ntt_good _ _ G) as GM. pose proof (NewFastBasisExtender_ok Q P GM) as E.
  destruct (Nat.ltb_spec levelP (length Q)) as [HPQ|HPQ].
  2:{ unfold ModDownQPtoP. destruct (ModUpQtoP_ok Q P _ levelQ levelP N pQ GM E) as (up & Y & Eu & _); auto. rewrite Eu. cbn [bind]. destruct (eo_mdQtoP _ _ _ E) as [Hmd1 _]. unfold idx. rewrite (proj2 (nth_error_None _ _)) by lia. reflexivity. }
  destruct (ModDownQPtoP_gen Q P _ levelQ levelP N pQ pP GM E) as (out & R & Eo & HR & H1 & H2 & [D1 D2]); auto. exists out. split; [exact Eo|]. split; [exact D1|]. split.
  { intros j Hj. destruct (D2 j Hj) as [D3 _]. congruence. }
  intros x X Hx HX1 HX2 B. pose proof (product_pos_firstn Q P (levelQ + 1) G) as HB. fold B in HB.
  assert (EB : prodZ (firstn (levelQ + 1) Q) = B) by (symmetry; apply product_prodZ). clearbody B. rewrite EB in *.
  assert (HRX : cong B (nth x R 0) (X mod B)).
  { eapply cong_trans with X.
    - rewrite <- EB. apply crt_cong.
      + destruct (ntt_good _ _ G) as [_ _ Hp _ Hnd]. apply primes_pairwise; [now apply Forall_firstn|]. apply NoDup_firstn. now apply NoDup_app_l in Hnd.
      + apply Forall_forall. intros p Hp. apply (In_nth _ _ 0) in Hp as (i & Hi & Ei). rewrite firstn_length in Hi. rewrite nth_firstn in Ei by lia. subst p. eapply cong_trans; [apply H2; lia|].
        apply cong_sym. apply eqm_cong; [pose proof (modulus_pos Q P i G ltac:(lia)); unfold modulus in *; lia|]. apply HX1. lia.
    - exists (X / B). rewrite (Z.div_mod X B) at 1 by lia. ring. }
  destruct (near_range_kappa (nth x R 0) (X mod B) B HB (H1 x Hx) HRX) as (kap & EK & Hkap & Hk0); [apply Z.mod_pos_bound; lia|].
  exists kap. split; [lia|]. split; [auto|]. intros j Hj. pose proof (modulus_pos_r Q P j G ltac:(lia)) as Hq. destruct (D2 j Hj) as [D3 D4]. destruct (D4 x) as [D5 D6]; [lia|]. unfold word, modulus in *. split; [exact D5|]. apply eqm_cong; [lia|].
  rewrite product_prodZ. eapply cong_trans; [exact D6|]. replace (B * (X / B - kap)) with (X - (X mod B + kap * B)) by (pose proof (Z.div_mod X B ltac:(lia)); lia). rewrite EK. apply cong_sub; [|apply cong_refl].
  apply cong_sym. apply eqm_cong; [lia|]. apply HX2. lia.
Qed.
