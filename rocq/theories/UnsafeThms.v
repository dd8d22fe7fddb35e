(** The eight-word loops meet the specifications of ModUp, ModDown, the decomposition and MultByConst; cases, and the two sizes at which they do not. *)
From Coq Require Import String ZArith Znumtheory List Lia Bool Permutation.
From Verif Require Import Spec Go GoProofs Lattigo F64 BasisExt BasisSpec DownLevels DecompSpec BasisWitness Shipped NTT NTTProofs RingOps RingOpsProofs Maps MapsProofs Params Elements KeySwitch KeyGen EncDec Utils Evaluator Repr SpecCt SpecRot SpecEv Alias AliasProofs AliasConst AliasThms AliasWorld SpecMem Unsafe UnsafeProofs UnsafeConst.
Import ListNotations.
Local Open Scope Z_scope.
Local Open Scope list_scope.

Lemma unsafe_modup : forall Q P levelQ levelP n m polQ polP, ntt_primes (Q ++ P) -> (levelQ < List.length Q)%nat -> (levelP < List.length P)%nat ->
  sized (8 * n) polQ -> sized (8 * n) polP -> (levelQ < List.length polQ)%nat -> (levelP < List.length polP)%nat ->
  (forall vQ, (levelQ < 32)%nat -> all_apart polP -> lists_apart polQ polP -> holds_limbs m polQ vQ -> rns_words (8 * n) vQ ->
     exists m' out, ModUpQtoPM (NewFastBasisExtender Q P) levelQ levelP m polQ polP = Ok m' /\ holds_limbs m' (firstn (levelP + 1) polP) out /\ modup_correct Q P (levelQ + 1) (levelP + 1) (8 * n) vQ out /\
       same_outside (firstn (levelP + 1) polP) m m') /\
  (forall vP, (levelP < 32)%nat -> all_apart polQ -> lists_apart polP polQ -> holds_limbs m polP vP -> rns_words (8 * n) vP ->
     exists m' out, ModUpPtoQM (NewFastBasisExtender Q P) levelP levelQ m polP polQ = Ok m' /\ holds_limbs m' (firstn (levelQ + 1) polQ) out /\ modup_correct P Q (levelP + 1) (levelQ + 1) (8 * n) vP out /\
       same_outside (firstn (levelQ + 1) polQ) m m').
Proof.
  intros Q P levelQ levelP n m polQ polP HP HlQ HlP SQ SP LQ LP. split.
  - intros v H32 HA Ha Hh Hw. destruct (C06_lemma Q P levelQ levelP (8 * n) v HP HlQ HlP Hw) as [H _]. destruct H as (out & E & C); [now rewrite <- (holds_len _ _ _ Hh)|auto|].
    destruct (ModUpQtoPM_ok (NewFastBasisExtender Q P) n levelQ levelP m polQ polP v out) as (m' & E' & R1 & R2); auto. exists m', out. auto.
  - intros v H32 HA Ha Hh Hw. destruct (C06_lemma Q P levelQ levelP (8 * n) v HP HlQ HlP Hw) as [_ H]. destruct H as (out & E & C); [now rewrite <- (holds_len _ _ _ Hh)|auto|].
    destruct (ModUpPtoQM_ok (NewFastBasisExtender Q P) n levelP levelQ m polP polQ v out) as (m' & E' & R1 & R2); auto. exists m', out. auto.
Qed.
Lemma unsafe_moddown : forall Q P levelQ levelP n m pool p1Q p1P p2Q vQ vP, ntt_primes (Q ++ P) -> (levelQ < List.length Q)%nat -> (levelP < List.length P)%nat -> (levelP < 32)%nat ->
  sized (8 * n) pool -> sized (8 * n) p1Q -> sized (8 * n) p1P -> sized (8 * n) p2Q -> (levelQ < List.length pool)%nat -> (levelQ < List.length p2Q)%nat -> (levelP < List.length p1P)%nat ->
  all_apart pool -> all_apart p2Q -> lists_apart p1P pool -> lists_apart p1Q pool -> lists_apart pool p2Q -> in_place_or_apart p1Q p2Q ->
  holds_limbs m p1Q vQ -> holds_limbs m p1P vP -> lazy_words Q (levelQ + 1) (8 * n) vQ -> rns_words (8 * n) vP ->
  exists m' out, ModDownQPtoQM (NewFastBasisExtender Q P) (8 * n) levelQ levelP m pool p1Q p1P p2Q = Ok m' /\ holds_limbs m' (firstn (levelQ + 1) p2Q) out /\
    moddown_correct Q P (levelQ + 1) (levelP + 1) (8 * n) vQ vP out /\ same_outside (firstn (levelQ + 1) p2Q ++ firstn (levelQ + 1) pool) m m'.
Proof.
  intros Q P levelQ levelP n m pool p1Q p1P p2Q vQ vP HP HlQ HlP H32 Sp S1 SP S2 Lp L2 LP Ap A2 Ha1 Ha2 Ha3 Hio HQ HvP HwQ HwP.
  destruct (C08_lemma Q P levelQ levelP (8 * n) vQ vP HP HlQ HlP H32 HwQ ltac:(now rewrite <- (holds_len _ _ _ HvP)) HwP) as (out & E & C).
  destruct (ModDownQPtoQM_ok (NewFastBasisExtender Q P) n levelQ levelP m pool p1Q p1P p2Q vQ vP out) as (m' & E' & R1 & R2); auto. exists m', out. auto.
Qed.
Lemma unsafe_moddown_P : forall Q P lvl n m pool p1Q p1P p2P vQ vP, ntt_primes (Q ++ P) -> (lvl < List.length Q)%nat -> (lvl < List.length P)%nat -> (lvl < 32)%nat ->
  sized (8 * n) pool -> sized (8 * n) p1Q -> sized (8 * n) p1P -> sized (8 * n) p2P -> (lvl < List.length pool)%nat -> (lvl < List.length p2P)%nat -> (lvl < List.length p1Q)%nat ->
  all_apart pool -> all_apart p2P -> lists_apart p1Q pool -> lists_apart p1P pool -> lists_apart pool p2P -> in_place_or_apart p1P p2P ->
  holds_limbs m p1Q vQ -> holds_limbs m p1P vP -> lazy_words P (lvl + 1) (8 * n) vP -> rns_words (8 * n) vQ ->
  exists m' out, ModDownQPtoPM (NewFastBasisExtender Q P) (8 * n) lvl lvl m pool p1Q p1P p2P = Ok m' /\ holds_limbs m' (firstn (lvl + 1) p2P) out /\
    moddown_correct P Q (lvl + 1) (lvl + 1) (8 * n) vP vQ out /\ same_outside (firstn (lvl + 1) p2P ++ firstn (lvl + 1) pool) m m'.
Proof.
  intros Q P lvl n m pool p1Q p1P p2P vQ vP HP HlQ HlP H32 Sp S1 SP S2 Lp L2 LP Ap A2 Ha1 Ha2 Ha3 Hio HQ HvP HwP HwQ.
  destruct (C09_lemma Q P lvl (8 * n) vQ vP HP HlQ HlP H32 HwP ltac:(now rewrite <- (holds_len _ _ _ HQ)) HwQ) as (out & E & C).
  destruct (ModDownQPtoPM_ok (NewFastBasisExtender Q P) n lvl lvl m pool p1Q p1P p2P vQ vP out) as (m' & E' & R1 & R2); auto. exists m', out. auto.
Qed.
Lemma unsafe_decompose : forall Q P gamma alpha levelQ levelP beta n m p0Q p1Q p1P v,
  ntt_primes (Q ++ P) -> (0 < gamma)%nat -> (1 <= alpha <= 32)%nat -> (alpha = 1 \/ gamma * alpha <= List.length P /\ levelP < gamma * alpha)%nat ->
  (levelQ < List.length Q)%nat -> (levelP < List.length P)%nat -> Z.of_nat (List.length (Q ++ P)) < 2 ^ 52 ->
  ((beta - 1) * alpha <= levelQ)%nat -> (levelQ < beta * alpha)%nat ->
  sized (8 * n) p0Q -> sized (8 * n) p1Q -> sized (8 * n) p1P -> (levelQ < List.length p0Q)%nat -> (levelQ < List.length p1Q)%nat -> (levelP < List.length p1P)%nat ->
  all_apart (p1Q ++ p1P) -> lists_apart p0Q (p1Q ++ p1P) -> holds_limbs m p0Q v -> rns_words (8 * n) v -> (forall j x, (j <= levelQ)%nat -> (x < 8 * n)%nat -> word v j x <= modulus Q j) ->
  exists D : nat -> nat -> Z,
    (forall i, (i < beta)%nat -> exists m' outQ outP, DecomposeAndSplitM (NewDecomposer Q P (Z.of_nat gamma)) levelQ levelP alpha i (Z.of_nat gamma) m p0Q p1Q p1P = Ok m' /\
       holds_limbs m' (firstn (levelQ + 1) p1Q) outQ /\ holds_limbs m' (firstn (levelP + 1) p1P) outP /\ digit_correct Q P alpha i levelQ levelP (8 * n) v outQ outP (D i) /\
       same_outside (firstn (levelQ + 1) p1Q ++ firstn (levelP + 1) p1P) m m') /\
    forall T g, is_gadget Q alpha levelQ beta T g ->
      forall j x, (j <= levelQ)%nat -> (x < 8 * n)%nat -> eqm (modulus Q j) (sum_upto beta (fun i => D i x * g i)) (T * word v j x).
Proof.
  intros Q P gamma alpha levelQ levelP beta n m p0Q p1Q p1P v HP Hg Ha Hga HlQ HlP Hlen Hb1 Hb2 S0 S1 SP L0 L1 LP HA Hap Hh Hw Hv.
  destruct (C10_lemma Q P gamma alpha levelQ levelP beta (8 * n) v) as (D & HD & HG); auto; [now rewrite <- (holds_len _ _ _ Hh)|].
  exists D. split; [|exact HG]. intros i Hi. destruct (HD i Hi) as (outQ & outP & E & C).
  destruct (DecomposeAndSplitM_ok (NewDecomposer Q P (Z.of_nat gamma)) n levelQ levelP alpha i (Z.of_nat gamma) m p0Q p1Q p1P v outQ outP) as (m' & E' & R1 & R2 & R3); auto; [nia|].
  exists m', outQ, outP. auto.
Qed.
Lemma unsafe_const : forall ce, env_ok (ce_env ce) -> let pp := e_pp (ce_env ce) in forall n c o o' l m, pa_N pp = (16 * n)%nat -> order_ok o -> order_ok o' -> (l < QCount pp)%nat ->
  (forall L ct r, sized (pa_N pp) (ct_arrays L) -> all_apart (ct_arrays L) -> holds_ct m L (c_ct ct) -> ct_ok pp l (c_ct ct) -> MultByConst ce o ct c ct = Ok r ->
     exists m', MultByConstM ce o' L c L m = Ok m' /\ holds_ct m' L (c_ct r) /\ same_outside (ct_arrays L) m m') /\
  (forall L0 L ct0 ct l1 r, sized (pa_N pp) (ct_arrays L0) -> sized (pa_N pp) (ct_arrays L) -> all_apart (ct_arrays L) -> lists_apart (ct_arrays L0) (ct_arrays L) ->
     holds_ct m L0 (c_ct ct0) -> holds_ct m L (c_ct ct) -> ct_ok pp l (c_ct ct0) -> const_receiver pp (c_ct ct0) (c_ct ct) l1 -> MultByConst ce o ct0 c ct = Ok r ->
     exists m', MultByConstM ce o' L0 c L m = Ok m' /\ holds_ct m' L (c_ct r) /\ same_outside (ct_arrays L) m m').
Proof.
  intros ce He pp n c o o' l m HN Ho Ho' Hl. unfold pp in *. rewrite HN in *. destruct (const_any ce He c o o' l Ho Ho' Hl) as [A B]. split.
  - intros L ct r HS HA HH Hc E. apply (MultByConstM_ok ce n o' L L None c ct r m); auto.
  - intros L0 L ct0 ct l1 r HS0 HS HA Ha H0 HH Hc Hr E. apply (MultByConstM_ok ce n o' L0 L (Some ct0) c ct r m); auto; [right; now split|]. now apply (B ct0 ct l1 r).
Qed.

(** ** the sizes at which the loops leave their arrays *)
(** an extender for one prime in and one out, limbs of four words *)
Lemma short_overrun : exists Q P polQ polP (m : memory) m', ntt_primes (Q ++ P) /\ sized 4 polQ /\ sized 4 polP /\ all_apart polP /\ lists_apart polQ polP /\
  List.length polQ = List.length Q /\ List.length polP = List.length P /\ ModUpQtoPM (NewFastBasisExtender Q P) (List.length Q - 1) (List.length P - 1) m polQ polP = Ok m' /\ ~ same_outside polP m m'.
Proof.
  exists toyQ, toyP. set (arr := fun b => mkArr b 4).
  exists (map arr [100; 104; 108; 112]), (map arr [0; 4]), (fun _ => 1).
  assert (E2 : match ModUpQtoPM (NewFastBasisExtender toyQ toyP) 3 1 (fun _ => 1) (map arr [100; 104; 108; 112]) (map arr [0; 4]) with Ok m' => m' 8 =? 1 | _ => true end = false) by (vm_compute; reflexivity).
  destruct (ModUpQtoPM (NewFastBasisExtender toyQ toyP) 3 1 (fun _ => 1) (map arr [100; 104; 108; 112]) (map arr [0; 4])) as [m'|] eqn:E; [|discriminate].
  exists m'. split; [exact toy_primes|]. split; [repeat constructor|]. split; [repeat constructor|]. split; [repeat constructor; cbn; lia|].
  split; [intros s t; cbn; intros [<-|[<-|[<-|[<-|[]]]]] [<-|[<-|[]]]; unfold apart; cbn; lia|]. do 2 (split; [reflexivity|]). split; [exact E|].
  intros H. specialize (H 8). assert (H8 : m' 8 = 1). { apply H. intros s [<-|[<-|[]]]; unfold within; cbn; lia. }
  rewrite H8 in E2. discriminate.
Qed.
Lemma env_of pp : params_ok pp -> env_ok (fst (NewKeySwitcher (fun _ _ _ => false) pp)).
Proof. intros H. constructor; auto. Qed.
(** rings of degree 8: the second half starts in the middle of a block *)
Lemma half_overrun : exists ce o L m ct r m', env_ok (ce_env ce) /\ order_ok o /\ pa_N (e_pp (ce_env ce)) = 8%nat /\ sized 8 (ct_arrays L) /\ all_apart (ct_arrays L) /\ holds_ct m L (c_ct ct) /\ ct_ok (e_pp (ce_env ce)) 0 (c_ct ct) /\
  MultByConst ce o ct (KInt 2) ct = Ok r /\ MultByConstM ce o L (KInt 2) L m = Ok m' /\ ~ holds_ct m' L (c_ct r) /\ ~ same_outside (ct_arrays L) m m'.
Proof.
  set (ce := mkCke (fst (NewKeySwitcher (fun _ _ _ => false) (toy 2))) (f_of_Z 1)). set (L := [("0"%string, [mkArr 0 8])]). set (ct := mkCk [("0"%string, mkPoly false [repeat 1 8])] (f_of_Z 1)).
  set (o1 := fun (_ : nat) (l : list string) => l).
  assert (Hm : match MultByConstM ce o1 L (KInt 2) L (fun _ => 1) with Ok m => m 4 = 4 /\ m 8 = 2 | _ => False end) by (vm_compute; auto).
  assert (Hr : match MultByConst ce o1 ct (KInt 2) ct with Ok r => c_ct r = [("0"%string, mkPoly false [repeat 2 8])] | _ => False end) by (vm_compute; auto).
  destruct (MultByConst ce o1 ct (KInt 2) ct) as [r|] eqn:Er; [|contradiction]. destruct (MultByConstM ce o1 L (KInt 2) L (fun _ => 1)) as [m'|] eqn:Em; [|contradiction]. destruct Hm as [H4 H8].
  exists ce, o1, L, (fun _ => 1), ct, r, m'. split; [apply env_of, toy2_ok|]. split; [intros k l; apply Permutation_refl|]. split; [reflexivity|]. split; [repeat constructor|]. split; [repeat constructor|]. split; [|split; [|split; [|split; [|split]]]].
  - split; [reflexivity|]. intros u ss p E1 E2. cbn in E1, E2. destruct (String.eqb u "0"%string); [|discriminate]. injection E1 as <-. injection E2 as <-. repeat constructor. intros i Hi. cbn in Hi. do 8 (destruct i as [|i]; [reflexivity|]). lia.
  - constructor.
    + repeat constructor; cbn; intuition congruence.
    + now left.
    + intros id p. cbn. destruct (String.eqb id "0"%string); [|discriminate]. intros E. injection E as <-. do 2 (split; [reflexivity|]). intros j Hj. assert (j = 0)%nat by lia. subst j. split; [reflexivity|]. intros x Hx. change (pa_N (e_pp (ce_env ce))) with 8%nat in Hx.
      do 8 (destruct x as [|x]; [vm_compute; split; discriminate|]). lia.
  - exact Er.
  - exact Em.
  - intros [_ H]. specialize (H "0"%string [mkArr 0 8] (mkPoly false [repeat 2 8]) eq_refl). rewrite Hr in H. specialize (H eq_refl). inversion H as [|? ? ? ? [_ H2]]; subst. specialize (H2 4%nat ltac:(cbn; lia)). cbn in H2. change (0 + Z.of_nat 4) with 4 in H2. rewrite H4 in H2. discriminate.
  - intros H. specialize (H 8). rewrite H8 in H. discriminate H. intros s [<-|[]]. unfold within. cbn. lia.
Qed.

(** ** cases *)
(** k arrays of N words one after the other *)
Definition rows (b : Z) (N k : nat) : list warray := map (fun i => mkArr (b + Z.of_nat (i * N)) N) (seq 0 k).
Definition contents (m : memory) (s : warray) : list Z := map (fun i => m (a_base s + Z.of_nat i)) (seq 0 (a_len s)).
Lemma rows_sized b N k : sized N (rows b N k).
Proof. unfold sized, rows. rewrite Forall_map, Forall_forall. auto. Qed.
Lemma rows_len b N k : List.length (rows b N k) = k.
Proof. unfold rows. now rewrite map_length, seq_length. Qed.
Lemma rows_in b N k s : In s (rows b N k) -> exists i, (i < k)%nat /\ s = mkArr (b + Z.of_nat (i * N)) N.
Proof. unfold rows. intros H. apply in_map_iff in H as (i & <- & Hi). apply in_seq in Hi. exists i. split; [lia|auto]. Qed.
Lemma rows_apart b N k : all_apart (rows b N k).
Proof.
  unfold rows, all_apart. generalize 0%nat. induction k as [|k IH]; intros a; [constructor|]. cbn [seq map]. constructor; [|apply IH].
  rewrite Forall_map, Forall_forall. intros j Hj. apply in_seq in Hj. left. cbn. assert (a * N + N <= j * N)%nat by nia. lia.
Qed.
Lemma rows_apart2 b N k b' k' : b + Z.of_nat (k * N) <= b' -> lists_apart (rows b N k) (rows b' N k').
Proof. intros H s t Hs Ht. apply rows_in in Hs as (i & Hi & ->). apply rows_in in Ht as (j & Hj & ->). left. cbn. assert (i * N + N <= k * N)%nat by nia. lia. Qed.
Lemma apart2_sym ss ts : lists_apart ss ts -> lists_apart ts ss.
Proof. intros H s t Hs Ht. apply apart_sym. now apply H. Qed.
Lemma apart_app2 a b : all_apart a -> all_apart b -> lists_apart a b -> all_apart (a ++ b).
Proof.
  intros HA HB HC. unfold all_apart in *. induction HA as [|s a F H IH]; [exact HB|]. cbn [app]. constructor; [|apply IH; intros x y Hx Hy; apply HC; [now right|auto]].
  rewrite Forall_app. split; [exact F|]. rewrite Forall_forall. intros t Ht. apply HC; [now left|auto].
Qed.
Lemma contents_holds m ss : holds_limbs m ss (map (contents m) ss).
Proof.
  unfold holds_limbs. induction ss as [|s ss IH]; constructor; auto. unfold contents. split; [now rewrite map_length, seq_length|]. rewrite map_length, seq_length. intros i Hi.
  rewrite (nth_indep _ 0 (m (a_base s + Z.of_nat 0))) by now rewrite map_length, seq_length. rewrite (map_nth (fun i => m (a_base s + Z.of_nat i))), seq_nth by lia. reflexivity.
Qed.
Lemma same_in_place ss : all_apart ss -> in_place_or_apart ss ss.
Proof. intros H i j s t Hi Hj. destruct (Nat.eq_dec i j) as [->|Hn]; [left; split; [auto|congruence]|right]. now apply (all_apart_disj ss H i j). Qed.
Definition m97 : memory := fun a => a mod 97.
Lemma m97_word b N k j x : 0 <= word (map (contents m97) (rows b N k)) j x < 97.
Proof.
  unfold word. destruct (Nat.ltb_spec j k) as [Hj|Hj].
  - set (l := nth j _ []). assert (F : Forall (fun w => 0 <= w < 97) l).
    { unfold l. rewrite (nth_indep _ [] (contents m97 (mkArr 0 0))) by now rewrite map_length, rows_len. rewrite map_nth. unfold contents. rewrite Forall_map, Forall_forall. intros i _. apply Z.mod_pos_bound. lia. }
    destruct (Nat.ltb_spec x (List.length l)) as [Hx|Hx]; [rewrite Forall_forall in F; apply F, nth_In, Hx|rewrite nth_overflow by lia; lia].
  - rewrite (nth_overflow (map (contents m97) (rows b N k))) by (rewrite map_length, rows_len; lia). destruct x; cbn; lia.
Qed.
Lemma m97_rns b N k : rns_words N (map (contents m97) (rows b N k)).
Proof.
  unfold rns_words. rewrite Forall_map, Forall_forall. intros s Hs. apply rows_in in Hs as (i & _ & ->). unfold contents. cbn [a_base a_len]. split; [now rewrite map_length, seq_length|].
  rewrite Forall_map, Forall_forall. intros x _. unfold m97. pose proof (Z.mod_pos_bound (b + Z.of_nat (i * N) + Z.of_nat x) 97 eq_refl). lia.
Qed.
Lemma m97_limb b N k j : (j < k)%nat -> List.length (nth j (map (contents m97) (rows b N k)) []) = N.
Proof.
  intros Hj. pose proof (m97_rns b N k) as H. unfold rns_words in H. rewrite Forall_forall in H. apply (H (nth j _ [])). apply nth_In. now rewrite map_length, rows_len.
Qed.
Lemma shipped_37 j : (j < 21)%nat -> 97 <= modulus shippedQ j.
Proof. intros Hj. assert (HF : Forall (fun q => 97 <= q) shippedQ) by (unfold shippedQ; repeat (constructor; [lia|]); constructor). rewrite Forall_forall in HF. apply HF. apply nth_In. exact Hj. Qed.
(** the operand over Q and P, the pool and the outputs of the decomposition laid out one after the other, at any degree 8n *)
Lemma unsafe_case : forall n, let N := (8 * n)%nat in let at_ k := Z.of_nat (k * N) in
  let pQ := rows (at_ 0%nat) N 21 in let pP := rows (at_ 21%nat) N 2 in let pool := rows (at_ 23%nat) N 21 in let dQ := rows (at_ 44%nat) N 21 in let dP := rows (at_ 65%nat) N 2 in
  let vQ := map (contents m97) pQ in let vP := map (contents m97) pP in
  ntt_primes (shippedQ ++ shippedP) /\ sized N pQ /\ sized N pP /\ sized N pool /\ sized N dQ /\ sized N dP /\ all_apart pQ /\ all_apart pP /\ all_apart pool /\ lists_apart pQ pP /\ lists_apart pP pQ /\
  lists_apart pP pool /\ lists_apart pQ pool /\ lists_apart pool pQ /\ in_place_or_apart pQ pQ /\ all_apart (dQ ++ dP) /\ lists_apart pQ (dQ ++ dP) /\
  holds_limbs m97 pQ vQ /\ holds_limbs m97 pP vP /\ rns_words N vQ /\ rns_words N vP /\ lazy_words shippedQ 21 N vQ /\ (forall j x, (j <= 20)%nat -> (x < N)%nat -> word vQ j x <= modulus shippedQ j) /\
  List.length shippedQ = 21%nat /\ List.length shippedP = 2%nat.
Proof.
  intros n N at_ pQ pP pool dQ dP vQ vP. split; [exact shipped_primes|]. do 5 (split; [apply rows_sized|]). do 3 (split; [apply rows_apart|]).
  assert (R : forall a k b k', (a + k <= b)%nat -> lists_apart (rows (at_ a) N k) (rows (at_ b) N k')). { intros a k b k' H. apply rows_apart2. unfold at_. assert ((a + k) * N <= b * N)%nat by nia. lia. }
  split; [apply R; lia|]. split; [apply apart2_sym, R; lia|]. split; [apply R; lia|]. split; [apply R; lia|]. split; [apply apart2_sym, R; lia|]. split; [apply same_in_place, rows_apart|].
  split; [apply apart_app2; [apply rows_apart..|apply R; lia]|]. split; [intros s t Hs Ht; apply in_app_or in Ht as [Ht|Ht]; [apply (R 0%nat 21%nat 44%nat 21%nat ltac:(lia)); auto|apply (R 0%nat 21%nat 65%nat 2%nat ltac:(lia)); auto]|].
  do 2 (split; [apply contents_holds|]). do 2 (split; [apply m97_rns|]). split; [|split; [|split; reflexivity]].
  - split; [unfold vQ, pQ; rewrite map_length, rows_len; lia|]. intros j Hj. split; [now apply m97_limb|]. intros x Hx. pose proof (m97_word (at_ 0%nat) N 21 j x) as H. fold pQ vQ in H. pose proof (shipped_37 j Hj). lia.
  - intros j x Hj Hx. pose proof (m97_word (at_ 0%nat) N 21 j x) as H. fold pQ vQ in H. pose proof (shipped_37 j ltac:(lia)). lia.
Qed.
(** a ciphertext in memory at the shipped degree 2^15 *)
Definition at0 (N l : nat) (c : Z) : memory := fun a => if (a mod Z.of_nat N =? 1) && (a <? Z.of_nat ((l + 1) * N)) then c else 0.
Lemma unsafe_const_case : exists ce n L m, env_ok (ce_env ce) /\ pa_Q (e_pp (ce_env ce)) = shippedQ /\ pa_P (e_pp (ce_env ce)) = shippedP /\ pa_logN (e_pp (ce_env ce)) = 15%nat /\ pa_N (e_pp (ce_env ce)) = (16 * n)%nat /\
  let N := pa_N (e_pp (ce_env ce)) in let ct := xct N 20 (2 ^ 36) in
  sized N (ct_arrays L) /\ all_apart (ct_arrays L) /\ holds_ct m L ct /\ ct_ok (e_pp (ce_env ce)) 20 ct /\ const_receiver (e_pp (ce_env ce)) ct ct 20.
Proof.
  destruct conj_world as (env & g & s & cks & He & HQ & HP & Hlog & _ & HR & _). set (N := pa_N (e_pp env)) in *.
  assert (HN : N = (16 * deg 11)%nat). { unfold N, pa_N. rewrite Hlog. apply Nat2Z.inj. rewrite Nat2Z.inj_mul, !deg_Z. reflexivity. }
  assert (HN2 : (2 <= N)%nat). { apply Nat2Z.inj_le. unfold N, pa_N. rewrite Hlog, deg_Z. lia. }
  exists (mkCke env (f_of_Z 1)), (deg 11), [("0"%string, rows 0 N 21); ("a"%string, rows (Z.of_nat (21 * N)) N 21)], (at0 N 20 (2 ^ 36)). cbn [ce_env]. fold N.
  do 5 (split; [auto|]). cbv zeta. assert (Hc : ct_ok (e_pp env) 20 (xct N 20 (2 ^ 36))) by apply HR.
  unfold ct_arrays. cbn [map snd List.concat]. rewrite app_nil_r. split; [apply Forall_app; split; apply rows_sized|]. split; [apply apart_app2; [apply rows_apart..|apply rows_apart2; lia]|]. split; [|split; [exact Hc|]].
  - split; [reflexivity|].
    assert (X : forall (k : nat) (c : Z), k = 0%nat /\ c = 2 ^ 36 \/ k = 21%nat /\ c = 0 -> holds_limbs (at0 N 20 (2 ^ 36)) (rows (Z.of_nat (k * N)) N 21) (repeat (xrow N c) 21)).
    { intros k c Hk. unfold rows. assert (HL : forall i a, (a + i = 21)%nat -> holds_limbs (at0 N 20 (2 ^ 36)) (map (fun i => mkArr (Z.of_nat (k * N) + Z.of_nat (i * N)) N) (seq a i)) (repeat (xrow N c) i)); [|now apply (HL 21%nat 0%nat)].
      induction i as [|i IH]; intros a Ha; cbn [seq map repeat]; constructor; [|apply IH; lia].
      assert (LX : List.length (xrow N c) = N) by (unfold xrow; cbn; rewrite repeat_length; lia).
      split; [now rewrite LX|]. rewrite LX. intros x Hx. cbn [a_base]. rewrite xrow_nth. unfold at0. replace (Z.of_nat (k * N) + Z.of_nat (a * N) + Z.of_nat x) with (Z.of_nat x + Z.of_nat (k + a) * Z.of_nat N) by lia.
      rewrite Z.mod_add, Z.mod_small by lia. replace (Z.of_nat x =? 1) with (x =? 1)%nat by (destruct (Nat.eqb_spec x 1), (Z.eqb_spec (Z.of_nat x) 1); lia). destruct (x =? 1)%nat eqn:Ex; cbn [andb]; [|reflexivity].
      replace (20 + 1)%nat with 21%nat by lia. rewrite !Nat2Z.inj_mul, !Nat2Z.inj_add.
      assert (Hx' : 0 <= Z.of_nat x < Z.of_nat N) by lia. assert (Ha' : 0 <= Z.of_nat a <= 20) by lia. clear - Hk Hx' Ha'. destruct Hk as [[-> ->]|[-> ->]].
      - rewrite (proj2 (Z.ltb_lt _ _)); [reflexivity|nia].
      - rewrite (proj2 (Z.ltb_ge _ _)); [reflexivity|nia]. }
    intros u ss p E1 E2. unfold xct in E2. cbn [mget] in E1, E2. destruct (String.eqb u "0"%string); [|destruct (String.eqb u "a"%string); [|discriminate]].
    + injection E1 as <-. injection E2 as <-. apply (X 0%nat (2 ^ 36)). auto.
    + injection E1 as <-. injection E2 as <-. apply (X 21%nat 0). auto.
  - split; [unfold QCount; rewrite HQ; cbn; lia|]. split; [exact Hc|]. intros id; tauto.
Qed.
