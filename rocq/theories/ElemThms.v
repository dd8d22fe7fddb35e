(** Construction, copying, level dropping and padding of ciphertexts. *)
From Coq Require Import String ZArith List Lia Bool Permutation.
From Verif Require Import Go GoProofs RingOps RingOpsProofs Maps MapsProofs F64 Params Elements KeySwitch KSProofs KSMulProofs SpecEnc EncDec EncProofs CkEncThms Evaluator.
Import ListNotations.
Local Open Scope Z_scope.

Lemma new_ct o pp ids level : order_ok o -> idset_ok ids ->
  let c := NewCiphertext o pp ids level in
  NoDup (mkeys c) /\ (forall id, sget c id = if string_dec id "0" then Some (mkPoly false (repeat (repeat 0 (pa_N pp)) (level + 1))) else if idHas ids id then Some (mkPoly false (repeat (repeat 0 (pa_N pp)) (level + 1))) else None) /\
  ctLevel c = Ok level /\ forall o', order_ok o' -> exists s, ctIDSet o' c = Ok s /\ idset_ok s /\ forall x, In x (mkeys s) <-> In x (mkeys ids).
Proof.
  intros Ho Hi c. destruct (NewCiphertext_ok o pp ids level Ho) as (H1 & H2 & H3). fold c in H1, H2, H3.
  assert (HG : forall id, In id (mkeys c) -> sget c id = Some (mkPoly false (repeat (repeat 0 (pa_N pp)) (level + 1)))).
  { intros id Hid. destruct (mget_ex _ seqb _ _ Hid) as (p & E). rewrite E. f_equal. apply (H3 id p E). }
  assert (HG' : forall id, sget c id = if string_dec id "0" then Some (mkPoly false (repeat (repeat 0 (pa_N pp)) (level + 1))) else if idHas ids id then Some (mkPoly false (repeat (repeat 0 (pa_N pp)) (level + 1))) else None).
  { intros id. destruct (string_dec id "0") as [->|Hne]; [apply HG, H2; now left|]. destruct (idHas ids id) eqn:E.
    - apply HG, H2. right. now apply idHas_In.
    - destruct (sget c id) as [p|] eqn:E2; [|reflexivity]. assert (In id (mkeys c)) as Hin by (apply (mget_In _ seqb); congruence). apply H2 in Hin as [Hin|Hin]; [contradiction|]. apply idHas_In in Hin. congruence. }
  split; [auto|]. split; [exact HG'|]. split.
  - unfold ctLevel, sptr, mptr. rewrite HG'. destruct (string_dec "0" "0"); [|congruence]. cbn [bind]. unfold plen. cbn [p_co]. rewrite repeat_length, Nat.add_1_r. reflexivity.
  - intros o' Ho'. destruct (ctIDSet_ok o' c Ho') as (s & E & Hs & Hx). exists s. split; [auto|]. split; [auto|]. intros x. rewrite Hx, H2. split.
    + intros [[H|H] Hne]; [contradiction|auto].
    + intros H. split; [now right|]. intros ->. destruct Hi as [_ Hi]. contradiction.
Qed.
Lemma new_ct_ntt o pp ids level : forall id, sget (NewCiphertextNTT o pp ids level) id = option_map (setNTT true) (sget (NewCiphertext o pp ids level) id).
Proof.
  intros id. unfold NewCiphertextNTT. induction (NewCiphertext o pp ids level) as [|[k p] m IH]; [reflexivity|]. cbn. destruct (String.eqb id k); [reflexivity|exact IH].
Qed.
Lemma copy_new ct sc : (forall p, sget ct "0"%string = Some p -> ckCopyNew (mkCk ct sc) = Ok (mkCk ct sc)) /\ (sget ct "0"%string = None -> ckCopyNew (mkCk ct sc) = Panic PNil).
Proof. unfold ckCopyNew, ctCopyNew, sptr, mptr. cbn [c_ct c_scale]. split; [intros p ->; reflexivity|intros ->; reflexivity]. Qed.

Lemma trunc_fold n : forall L (c : ciphertext), NoDup L -> (forall id, In id L -> exists p, sget c id = Some p /\ (n <= plen p)%nat) ->
  exists c', foldM (fun c id => ctUpd c id (pTrunc n)) L c = Ok c' /\ mkeys c' = mkeys c /\
    forall id, sget c' id = if in_dec string_dec id L then option_map (fun p => mkPoly (p_ntt p) (firstn n (p_co p))) (sget c id) else sget c id.
Proof.
  induction L as [|a L IH]; intros c Hnd H.
  - exists c. cbn. auto.
  - apply NoDup_cons_iff in Hnd as [Ha Hnd]. destruct (H a (or_introl eq_refl)) as (p & E & Hp).
    assert (EU : ctUpd c a (pTrunc n) = Ok (sset c a (mkPoly (p_ntt p) (firstn n (p_co p))))).
    { apply (ctUpd_ok c a _ p); [exact E|]. unfold pTrunc. apply Nat.leb_le in Hp. now rewrite Hp. }
    set (c1 := sset c a _) in EU. destruct (IH c1 Hnd) as (c' & F & HK & HG).
    { intros id Hid. assert (id <> a) by congruence. unfold c1. rewrite (mget_mset_other _ seqb) by auto. apply H. now right. }
    exists c'. split; [cbn [foldM]; rewrite EU; exact F|]. split.
    { rewrite HK. unfold c1. apply mkeys_mset_in; [exact seqb|]. apply (mget_In _ seqb). congruence. }
    intros id. rewrite HG. unfold c1. destruct (in_dec string_dec id L) as [Hid|Hid].
    + destruct (in_dec string_dec id (a :: L)) as [_|Hx]; [|exfalso; apply Hx; now right]. rewrite (mget_mset_other _ seqb) by congruence. reflexivity.
    + destruct (string_dec id a) as [->|Hne].
      * rewrite (mget_mset_same _ seqb). destruct (in_dec string_dec a (a :: L)) as [_|Hx]; [now rewrite E|exfalso; apply Hx; now left].
      * rewrite (mget_mset_other _ seqb) by auto. destruct (in_dec string_dec id (a :: L)) as [[|]|]; [congruence|contradiction|reflexivity].
Qed.
Lemma drop_level o ct sc l levels : order_ok o -> NoDup (mkeys ct) -> In "0"%string (mkeys ct) -> (forall id p, sget ct id = Some p -> plen p = (l + 1)%nat) ->
  ((levels <= l + 1)%nat -> exists c', DropLevelNew o (mkCk ct sc) levels = Ok (mkCk c' sc) /\ NoDup (mkeys c') /\
     (forall id, sget c' id = option_map (fun p => mkPoly (p_ntt p) (firstn (l + 1 - levels) (p_co p))) (sget ct id)) /\ ((levels <= l)%nat -> ctLevel c' = Ok (l - levels)%nat)) /\
  ((l + 1 < levels)%nat -> DropLevelNew o (mkCk ct sc) levels = Panic PIndex).
Proof.
  intros Ho Hnd H0 Hl. destruct (mget_ex _ seqb _ _ H0) as (p0 & E0). pose proof (Hl _ _ E0) as L0.
  assert (EL : ctLevel ct = Ok l). { unfold ctLevel, sptr, mptr. rewrite E0. cbn [bind]. rewrite L0, Nat.add_1_r. reflexivity. }
  unfold DropLevelNew. rewrite (proj1 (copy_new ct sc) p0 E0). cbn [bind]. unfold DropLevel. cbn [c_ct c_scale]. rewrite EL. cbn [bind]. split; intros H.
  - destruct (Nat.ltb_spec (l + 1) levels); [lia|]. destruct (trunc_fold (l + 1 - levels) (o 0%nat (mkeys ct)) ct) as (c' & F & HK & HG).
    { apply (Permutation_NoDup (Permutation_sym (Ho 0%nat (mkeys ct)))). exact Hnd. }
    { intros id Hid. apply (proj1 (order_in o 0%nat _ _ Ho)) in Hid. destruct (mget_ex _ seqb _ _ Hid) as (p & E). exists p. split; [auto|]. rewrite (Hl _ _ E). lia. }
    rewrite F. cbn [bind]. exists c'. split; [reflexivity|]. split; [now rewrite HK|].
    assert (HG' : forall id, sget c' id = option_map (fun p => mkPoly (p_ntt p) (firstn (l + 1 - levels) (p_co p))) (sget ct id)).
    { intros id. rewrite HG. destruct (in_dec string_dec id _) as [|Hx]; [reflexivity|]. destruct (sget ct id) eqn:E; [|reflexivity]. exfalso. apply Hx. apply (proj2 (order_in o 0%nat _ _ Ho)), (mget_In _ seqb). congruence. }
    split; [exact HG'|]. intros Hle. unfold ctLevel, sptr, mptr. rewrite HG', E0. cbn [option_map bind]. unfold plen in *. cbn [p_co]. rewrite firstn_length, L0. replace (Nat.min (l + 1 - levels) (l + 1)) with (S (l - levels)) by lia. reflexivity.
  - destruct (Nat.ltb_spec (l + 1) levels); [reflexivity|lia].
Qed.
Lemma pad_fold_val (has : string -> bool) mk : forall L (el : ciphertext), NoDup (mkeys el) -> (forall id, In id L -> has id = true <-> In id (mkeys el)) -> NoDup L ->
  let el' := fold_left (fun el id => if has id then el else sset el id mk) L el in
  NoDup (mkeys el') /\ forall id, sget el' id = match sget el id with Some p => Some p | None => if in_dec string_dec id L then Some mk else None end.
Proof.
  induction L as [|a L IH]; intros el Hnd Hhas HL; cbn [fold_left]; cbv zeta. { split; [auto|]. intros id. now destruct (sget el id). }
  apply NoDup_cons_iff in HL as [Ha HL]. destruct (has a) eqn:E.
  - destruct (IH el Hnd) as [G1 G2]; auto. { intros id Hid. apply Hhas. now right. } split; [auto|]. intros id. rewrite G2. destruct (sget el id) eqn:E2; [reflexivity|].
    destruct (string_dec a id) as [->|Hne].
    + exfalso. assert (In id (mkeys el)) as Hin by (apply Hhas; [now left|auto]). apply (mget_In _ seqb) in Hin. contradiction.
    + destruct (in_dec string_dec id L), (in_dec string_dec id (a :: L)) as [[|]|Hx]; auto; try contradiction. exfalso. apply Hx. now right.
  - destruct (IH (sset el a mk)) as [G1 G2]; auto.
    { apply mset_nodup; [exact seqb|auto]. }
    { intros id Hid. rewrite Hhas by now right. rewrite (mkeys_mset _ seqb). split; [auto|]. intros [->|H]; [contradiction|auto]. }
    split; [auto|]. intros id. rewrite G2. destruct (string_dec a id) as [->|Hne].
    + rewrite (mget_mset_same _ seqb). destruct (sget el id) eqn:E2; [|destruct (in_dec string_dec id (id :: L)) as [|Hx]; [reflexivity|exfalso; apply Hx; now left]]. exfalso. assert (has id = true) by (apply Hhas; [now left|]; apply (mget_In _ seqb); congruence). congruence.
    + rewrite (mget_mset_other _ seqb) by auto. destruct (sget el id); [reflexivity|]. destruct (in_dec string_dec id L), (in_dec string_dec id (a :: L)) as [[|]|Hx]; auto; try contradiction. exfalso. apply Hx. now right.
Qed.
Lemma pad o el ids c0 row l : order_ok o -> idset_ok ids -> NoDup (mkeys el) -> sget el "0"%string = Some c0 -> nth_error (p_co c0) 0 = Some row -> plen c0 = (l + 1)%nat ->
  exists el', PadCiphertext o el ids = Ok el' /\ NoDup (mkeys el') /\ ctLevel el' = Ok l /\
    forall id, sget el' id = match sget el id with Some p => Some p | None => if idHas ids id then Some (mkPoly (p_ntt c0) (repeat (repeat 0 (List.length row)) (l + 1))) else None end.
Proof.
  intros Ho Hi Hnd E0 Er Hl. assert (EL : ctLevel el = Ok l). { unfold ctLevel, sptr, mptr. rewrite E0. cbn [bind]. now rewrite Hl, Nat.add_1_r. }
  unfold PadCiphertext. unfold sptr, mptr. rewrite E0. cbn [bind]. destruct (ctIDSet_ok o el Ho) as (old & -> & Hold & Hin). cbn [bind].
  unfold idx. rewrite Er. cbn [bind]. rewrite EL. cbn [bind]. set (mk := setNTT _ _).
  destruct (pad_fold_val (idHas old) mk (o 1%nat (mkeys ids)) el Hnd) as [G1 G2].
  { intros id Hid. apply (proj1 (order_in o 1%nat _ _ Ho)) in Hid. rewrite idHas_In, Hin. split; [tauto|]. intros H. split; [auto|]. intros ->. destruct Hi as [_ Hi]. contradiction. }
  { apply (Permutation_NoDup (Permutation_sym (Ho 1%nat (mkeys ids)))). apply Hi. }
  eexists. split; [reflexivity|]. split; [exact G1|]. set (el' := fold_left _ _ _) in *.
  assert (HG : forall id, sget el' id = match sget el id with Some p => Some p | None => if idHas ids id then Some mk else None end).
  { intros id. rewrite G2. destruct (sget el id); [reflexivity|]. destruct (in_dec string_dec id (o 1%nat (mkeys ids))) as [H|H]; destruct (idHas ids id) eqn:E; auto.
    - apply (proj1 (order_in o 1%nat _ _ Ho)), idHas_In in H. congruence.
    - exfalso. apply H. apply (proj2 (order_in o 1%nat _ _ Ho)). now apply idHas_In. }
  split; [|exact HG]. unfold ctLevel, sptr, mptr. rewrite HG, E0. cbn [bind]. now rewrite Hl, Nat.add_1_r.
Qed.
