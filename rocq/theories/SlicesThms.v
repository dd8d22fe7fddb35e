(** Proofs of C71. *)
From Coq Require Import ZArith List String Bool Lia Permutation.
From Verif Require Import Go GoProofs Lattigo Arith F64 RingOps Maps MapsProofs Params Elements KeySwitch KSMulProofs SpecEnc EncDec EncProofs CkEncThms ElemThms Evaluator Utils Loops LoopThms Slices SpecSlices.
Import ListNotations.
Local Open Scope Z_scope.
Open Scope go_scope.

Definition drop1 (n : Z) (c : sct) (id : string) : res sct := let* p := sptr c id in let* s := reslice (sp_co p) n in Ok (sset c id (mkSpoly (sp_ntt p) s)).

Lemma drop_fold n : forall L (c : sct), NoDup L -> (forall id, In id L -> In id (mkeys c)) ->
  ((0 <= n /\ forall id p, In id L -> sget c id = Some p -> n <= Z.of_nat (List.length (s_arr (sp_co p)))) ->
   exists c', foldM (drop1 n) L c = Ok c' /\ mkeys c' = mkeys c /\
     forall id, sget c' id = if in_dec string_dec id L then option_map (fun p => mkSpoly (sp_ntt p) (mkRows (s_arr (sp_co p)) (Z.to_nat n))) (sget c id) else sget c id) /\
  ((exists id p, In id L /\ sget c id = Some p /\ ~ (0 <= n <= Z.of_nat (List.length (s_arr (sp_co p))))) -> foldM (drop1 n) L c = Panic PIndex).
Proof.
  induction L as [|a L IH]; intros c Hnd HK.
  - split; [|intros (id & p & [] & _)]. intros _. exists c. cbn. auto.
  - apply NoDup_cons_iff in Hnd as [Ha Hnd]. destruct (mget_ex _ seqb _ _ (HK a (or_introl eq_refl))) as (p & E).
    destruct (Z_le_dec 0 n) as [H0|H0]; [destruct (Z_le_dec n (Z.of_nat (List.length (s_arr (sp_co p))))) as [H1|H1]|].
    2,3: assert (EB : drop1 n c a = Panic PIndex) by (unfold drop1, sptr, mptr; rewrite E; cbn [bind]; unfold reslice, s_cap; destruct (Z.leb_spec 0 n); try lia; destruct (Z.leb_spec n (Z.of_nat (List.length (s_arr (sp_co p))))); try lia; reflexivity);
      (split; [intros [G1 G2]; exfalso; first [lia|exact (H1 (G2 a p (or_introl eq_refl) E))]|]; intros _; cbn [foldM]; rewrite EB; reflexivity).
    assert (EB : drop1 n c a = Ok (sset c a (mkSpoly (sp_ntt p) (mkRows (s_arr (sp_co p)) (Z.to_nat n))))).
    { unfold drop1, sptr, mptr. rewrite E. cbn [bind]. unfold reslice, s_cap. destruct (Z.leb_spec 0 n); [|lia]. destruct (Z.leb_spec n (Z.of_nat (List.length (s_arr (sp_co p))))); [|lia]. reflexivity. }
    set (c1 := sset c a _) in EB. assert (HO : forall id, id <> a -> sget c1 id = sget c id). { intros id Hne. unfold c1. now rewrite (mget_mset_other _ seqb). }
    assert (HK1 : mkeys c1 = mkeys c). { unfold c1. apply mkeys_mset_in; [exact seqb|]. apply HK. now left. }
    destruct (IH c1 Hnd) as [IH1 IH2]. { intros id Hid. rewrite HK1. apply HK. now right. }
    split.
    + intros [_ G]. destruct IH1 as (c' & F & K & HG). { split; [lia|]. intros id p' Hid E'. rewrite HO in E' by congruence. apply (G id p'); [now right|auto]. }
      exists c'. split; [cbn [foldM]; rewrite EB; exact F|]. split; [congruence|]. intros id. rewrite HG. destruct (in_dec string_dec id L) as [Hid|Hid].
      * destruct (in_dec string_dec id (a :: L)) as [_|Hx]; [|exfalso; apply Hx; now right]. rewrite HO by congruence. reflexivity.
      * destruct (string_dec id a) as [->|Hne].
        -- unfold c1. rewrite (mget_mset_same _ seqb). destruct (in_dec string_dec a (a :: L)) as [_|Hx]; [now rewrite E|exfalso; apply Hx; now left].
        -- rewrite HO by auto. destruct (in_dec string_dec id (a :: L)) as [[|]|]; [congruence|contradiction|reflexivity].
    + intros (id & p' & [<-|Hid] & E' & Hn). { replace p' with p in Hn by congruence. lia. }
      cbn [foldM]. rewrite EB. cbn [bind]. apply IH2. exists id, p'. split; [auto|]. split; [rewrite HO by congruence; auto|auto].
Qed.

Lemma arg_val l levels : 0 <= l < 2 ^ 62 -> - 2 ^ 63 <= levels < 2 ^ 63 -> let n := isub (iadd (l - 1) 1) levels in
  n = l - levels \/ (2 ^ 63 <= l - levels /\ n < 0).
Proof.
  intros Hl Hv. assert (E : iadd (l - 1) 1 = l). { unfold iadd. rewrite i64_id by (change (2 ^ 63) with (2 * 2 ^ 62); lia). lia. }
  cbv zeta. rewrite E. unfold isub. destruct (Z_lt_dec (l - levels) (2 ^ 63)) as [H|H].
  - left. apply i64_id. change (2 ^ 63) with (2 * 2 ^ 62) in *. lia.
  - right. split; [lia|]. unfold i64. change W with (2 * 2 ^ 63). change (2 ^ 63) with (2 * 2 ^ 62) in *. rewrite Z.mod_small by lia. destruct (Z.ltb_spec (l - levels) (2 * 2 ^ 62)); lia.
Qed.

Lemma drop_s o ct p0 levels : order_ok o -> sct_ok ct -> sget ct "0"%string = Some p0 -> - 2 ^ 63 <= levels < 2 ^ 63 ->
  let n := Z.of_nat (s_len (sp_co p0)) - levels in
  (0 <= n /\ room ct n -> exists ct', DropLevelS o ct levels = Ok ct' /\ rewindowed ct ct' (Z.to_nat n)) /\
  (~ (0 <= n /\ room ct n) -> DropLevelS o ct levels = Panic PIndex).
Proof.
  intros Ho (Hnd & H0 & Hc) E0 Hv n. destruct (Hc _ _ E0) as [C1 C2].
  assert (ES : DropLevelS o ct levels = foldM (drop1 (isub (iadd (Z.of_nat (s_len (sp_co p0)) - 1) 1) levels)) (o 0%nat (mkeys ct)) ct).
  { unfold DropLevelS, sLevel. unfold sptr at 1, mptr at 1. rewrite E0. reflexivity. }
  rewrite ES. pose proof (arg_val (Z.of_nat (s_len (sp_co p0))) levels ltac:(lia) Hv) as AV. cbv zeta in AV. set (m := isub _ _) in *. destruct AV as [A|[A1 A2]].
  - fold n in A. rewrite A. clearbody n. clear A ES. destruct (drop_fold n (o 0%nat (mkeys ct)) ct) as [D1 D2].
    { apply (Permutation_NoDup (Permutation_sym (Ho 0%nat (mkeys ct)))). exact Hnd. }
    { intros id Hid. now apply (order_in o 0%nat _ _ Ho). }
    split.
    + intros [G1 G2]. destruct D1 as (c' & F & HK & HG). { split; [auto|]. intros id p _ E. apply (G2 id p E). }
      exists c'. split; [exact F|]. split; [rewrite HK; auto|]. intros id. rewrite HG. destruct (sget ct id) as [p|] eqn:E.
      * destruct (in_dec string_dec id _) as [|Hx]; [reflexivity|]. exfalso. apply Hx, (order_in o 0%nat _ _ Ho), (mget_In _ seqb). congruence.
      * now destruct (in_dec string_dec id _).
    + intros G. apply D2. destruct (Z_le_dec 0 n) as [Hn|Hn].
      * assert (HX : Exists (fun id => exists p, sget ct id = Some p /\ ~ (0 <= n <= Z.of_nat (List.length (s_arr (sp_co p))))) (mkeys ct)).
        { destruct (Exists_dec (fun id => exists p, sget ct id = Some p /\ ~ (0 <= n <= Z.of_nat (List.length (s_arr (sp_co p))))) (mkeys ct)) as [X|X]; [|exact X|].
          - intros id. destruct (sget ct id) as [p|] eqn:E; [|right; intros (p & ? & _); congruence]. destruct (Z_le_dec n (Z.of_nat (List.length (s_arr (sp_co p))))).
            + right. intros (p' & E' & ?). replace p' with p in * by congruence. lia.
            + left. exists p. split; [auto|lia].
          - exfalso. apply G. split; [auto|]. intros id p E. destruct (Z_le_dec n (Z.of_nat (List.length (s_arr (sp_co p))))) as [|Hx]; [auto|]. exfalso. apply X, Exists_exists. exists id.
            split; [apply (mget_In _ seqb); congruence|]. exists p. split; [auto|lia]. }
        apply Exists_exists in HX as (id & Hid & p & E & Hp). exists id, p. split; [now apply (order_in o 0%nat _ _ Ho)|auto].
      * exists "0"%string, p0. split; [now apply (order_in o 0%nat _ _ Ho)|]. split; [auto|lia].
  - destruct (drop_fold m (o 0%nat (mkeys ct)) ct) as [_ D2].
    { apply (Permutation_NoDup (Permutation_sym (Ho 0%nat (mkeys ct)))). exact Hnd. }
    { intros id Hid. now apply (order_in o 0%nat _ _ Ho). }
    split.
    + intros [_ G]. exfalso. specialize (G _ _ E0). unfold n in G. change (2 ^ 63) with (2 * 2 ^ 62) in *. lia.
    + intros _. apply D2. exists "0"%string, p0. split; [now apply (order_in o 0%nat _ _ Ho)|]. split; [auto|lia].
Qed.

(** dropping levels and dropping minus as many *)
Lemma undo_s o o' ct n k : order_ok o -> order_ok o' -> sct_ok ct -> lens ct n -> (k <= n)%nat -> exists ct1 ct2,
  DropLevelS o ct (Z.of_nat k) = Ok ct1 /\ lens ct1 (n - k) /\ DropLevelS o' ct1 (- Z.of_nat k) = Ok ct2 /\ forall id, sget ct2 id = sget ct id.
Proof.
  intros Ho Ho' Hok Hl Hk. pose proof Hok as (Hnd & H0 & Hc). destruct (mget_ex _ seqb _ _ H0) as (p0 & E0). destruct (Hc _ _ E0) as [C1 C2]. pose proof (Hl _ _ E0) as L0.
  assert (HB : Z.of_nat k < 2 ^ 63). { change (2 ^ 63) with (2 * 2 ^ 62). lia. }
  destruct (drop_s o ct p0 (Z.of_nat k) Ho Hok E0 ltac:(lia)) as [D _]. rewrite L0 in D. destruct D as (ct1 & E1 & N1 & G1).
  { split; [lia|]. intros id p E. destruct (Hc _ _ E). rewrite (Hl _ _ E) in *. lia. }
  replace (Z.to_nat (Z.of_nat n - Z.of_nat k)) with (n - k)%nat in G1 by lia.
  assert (HK : forall id, In id (mkeys ct1) <-> In id (mkeys ct)). { intros id. rewrite !(mget_In _ seqb), G1. destruct (sget ct id); split; congruence. }
  assert (Hok1 : sct_ok ct1). { split; [auto|]. split; [now apply HK|]. intros id p E. rewrite G1 in E. destruct (sget ct id) as [p'|] eqn:E'; [|discriminate]. injection E as <-. cbn. destruct (Hc _ _ E'). rewrite (Hl _ _ E') in *. lia. }
  pose proof (G1 "0"%string) as E01. rewrite E0 in E01. destruct (drop_s o' ct1 _ (- Z.of_nat k) Ho' Hok1 E01 ltac:(lia)) as [D _]. cbn [sp_co s_len] in D.
  destruct D as (ct2 & E2 & N2 & G2).
  { split; [lia|]. intros id p E. rewrite G1 in E. destruct (sget ct id) as [p'|] eqn:E'; [|discriminate]. injection E as <-. cbn. destruct (Hc _ _ E'). rewrite (Hl _ _ E') in *. lia. }
  exists ct1, ct2. split; [auto|]. split. { intros id p E. rewrite G1 in E. destruct (sget ct id) as [p'|] eqn:E'; [|discriminate]. now injection E as <-. }
  split; [auto|]. intros id. rewrite G2, G1. destruct (sget ct id) as [[b [r m]]|] eqn:E'; [|reflexivity]. cbn. pose proof (Hl _ _ E') as X. cbn in X. rewrite X. do 3 f_equal. lia.
Qed.

Lemma sget_map {A B} (F : A -> B) (m : smap A) id : sget (map (fun '(k, p) => (k, F p)) m) id = option_map F (sget m id).
Proof. induction m as [|[k p] m IH]; [reflexivity|]. cbn. destruct (String.eqb id k); [reflexivity|exact IH]. Qed.
Lemma mkeys_map {A B} (F : A -> B) (m : smap A) : mkeys (map (fun '(k, p) => (k, F p)) m) = mkeys m.
Proof. unfold mkeys. rewrite map_map. apply map_ext. now intros []. Qed.

Lemma new_s o ct levels : order_ok o -> sct_ok ct -> - 2 ^ 63 <= levels < 0 -> DropLevelNewS o ct levels = Panic PIndex.
Proof.
  intros Ho (Hnd & H0 & Hc) Hv. destruct (mget_ex _ seqb _ _ H0) as (p0 & E0). unfold DropLevelNewS, sCopyNew, sptr, mptr. rewrite E0. cbn [bind].
  set (F := fun p => mkSpoly (sp_ntt p) (mkRows (s_view (sp_co p)) (List.length (s_view (sp_co p))))).
  change (map _ ct) with (map (fun '(k, p) => (k, F p)) ct). set (c := map _ ct).
  assert (Ec : sget c "0"%string = Some (F p0)). { unfold c. rewrite sget_map, E0. reflexivity. }
  assert (Hok : sct_ok c).
  { split; [unfold c; rewrite mkeys_map; auto|]. split; [unfold c; rewrite mkeys_map; auto|]. intros id p E. unfold c in E. rewrite sget_map in E. destruct (sget ct id) as [p'|] eqn:E'; [|discriminate].
    injection E as <-. cbn. split; [lia|]. destruct (Hc _ _ E'). unfold s_view. rewrite firstn_length. lia. }
  apply (drop_s o c (F p0) levels Ho Hok Ec ltac:(lia)). intros [_ G]. specialize (G _ _ Ec). cbn in G. lia.
Qed.

Lemma drop_view n : forall L (c : sct), NoDup L -> (forall id, In id L -> exists p, sget c id = Some p /\ (n <= s_len (sp_co p) <= List.length (s_arr (sp_co p)))%nat) ->
  exists c', foldM (drop1 (Z.of_nat n)) L c = Ok c' /\ foldM (fun c id => ctUpd c id (pTrunc n)) L (ctview c) = Ok (ctview c').
Proof.
  induction L as [|a L IH]; intros c Hnd H; [exists c; now cbn|]. apply NoDup_cons_iff in Hnd as [Ha Hnd]. destruct (H a (or_introl eq_refl)) as (p & E & Hp).
  assert (EB : drop1 (Z.of_nat n) c a = Ok (sset c a (mkSpoly (sp_ntt p) (mkRows (s_arr (sp_co p)) n)))).
  { unfold drop1, sptr, mptr. rewrite E. cbn [bind]. unfold reslice, s_cap. destruct (Z.leb_spec 0 (Z.of_nat n)); [|lia]. destruct (Z.leb_spec (Z.of_nat n) (Z.of_nat (List.length (s_arr (sp_co p))))); [|lia]. cbn. now rewrite Nat2Z.id. }
  set (c1 := sset c a _) in EB.
  assert (EU : ctUpd (ctview c) a (pTrunc n) = Ok (ctview c1)).
  { transitivity (Ok (sset (ctview c) a (mkPoly (sp_ntt p) (firstn n (s_arr (sp_co p)))))).
    - apply (ctUpd_ok _ a _ (pview p)); [unfold ctview; rewrite (sget_map pview), E; reflexivity|]. unfold pTrunc, plen, pview. cbn [p_co p_ntt]. unfold s_view. rewrite firstn_length, firstn_firstn.
      destruct (Nat.leb_spec n (Nat.min (s_len (sp_co p)) (List.length (s_arr (sp_co p))))); [|lia]. now replace (Nat.min n (s_len (sp_co p))) with n by lia.
    - f_equal. unfold c1. clear. induction c as [|[k q] c IH]; [reflexivity|]. cbn. destruct (String.eqb a k); cbn; [reflexivity|]. f_equal. exact IH. }
  destruct (IH c1 Hnd) as (c' & F1 & F2). { intros id Hid. unfold c1. rewrite (mget_mset_other _ seqb) by congruence. apply H. now right. }
  exists c'. cbn [foldM]. rewrite EB, EU. cbn [bind]. auto.
Qed.
Lemma value_s o ct l levels sc : order_ok o -> sct_ok ct -> lens ct (l + 1) -> Z.of_nat levels < 2 ^ 63 ->
  match DropLevelS o ct (Z.of_nat levels) with
  | Ok ct' => DropLevel o (mkCk (ctview ct) sc) levels = Ok (mkCk (ctview ct') sc)
  | Panic e => DropLevel o (mkCk (ctview ct) sc) levels = Panic e
  end.
Proof.
  intros Ho Hok Hl Hv. pose proof Hok as (Hnd & H0 & Hc). destruct (mget_ex _ seqb _ _ H0) as (p0 & E0). destruct (Hc _ _ E0) as [C1 C2]. pose proof (Hl _ _ E0) as L0.
  assert (EL : ctLevel (ctview ct) = Ok l).
  { unfold ctLevel, sptr, mptr, ctview. rewrite (sget_map pview), E0. cbn [option_map bind]. unfold plen, pview. cbn [p_co]. unfold s_view. rewrite firstn_length, L0. replace (Nat.min (l + 1) (List.length (s_arr (sp_co p0)))) with (S l) by lia. reflexivity. }
  unfold DropLevel. cbn [c_ct c_scale]. rewrite EL. cbn [bind]. destruct (Nat.ltb_spec (l + 1) levels) as [H|H].
  - rewrite (proj2 (drop_s o ct p0 (Z.of_nat levels) Ho Hok E0 ltac:(lia))); [reflexivity|]. rewrite L0. lia.
  - destruct (drop_view (l + 1 - levels) (o 0%nat (mkeys ct)) ct) as (c' & F1 & F2).
    { apply (Permutation_NoDup (Permutation_sym (Ho 0%nat (mkeys ct)))). exact Hnd. }
    { intros id Hid. apply (proj1 (order_in o 0%nat _ _ Ho)) in Hid. destruct (mget_ex _ seqb _ _ Hid) as (p & E). exists p. split; [auto|]. destruct (Hc _ _ E). rewrite (Hl _ _ E) in *. lia. }
    assert (ES : DropLevelS o ct (Z.of_nat levels) = Ok c').
    { unfold DropLevelS, sLevel. unfold sptr at 1, mptr at 1. rewrite E0. cbn [bind]. destruct (arg_val (Z.of_nat (s_len (sp_co p0))) (Z.of_nat levels) ltac:(lia) ltac:(lia)) as [A|[A1 _]]; [|exfalso; change (2 ^ 63) with (2 * 2 ^ 62) in *; lia].
      rewrite A, L0. replace (Z.of_nat (l + 1) - Z.of_nat levels) with (Z.of_nat (l + 1 - levels)) by lia. exact F1. }
    rewrite ES. unfold ctview at 1. rewrite (mkeys_map pview). etransitivity; [apply (f_equal (fun r => bind r _)); exact F2|]. reflexivity.
Qed.
