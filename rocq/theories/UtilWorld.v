(** Concrete cases and final forms for mkckks/utils.go and the elements. *)
From Coq Require Import Reals String ZArith Znumtheory List Bool Lia.
From Flocq Require Import Core.Raux Core.Zaux.
From Verif Require Import Spec SpecProofs Go GoProofs Arith NTT RingOps Lattigo LattigoProofs Maps MapsProofs Params Elements F64 F64Proofs F64More EncDec Utils Evaluator Repr SpecEv RingOpsProofs ElemThms UtilThms UtilFloat Shipped EvThms EncWorld BasisExtProofs.
Import ListNotations.
Local Open Scope Z_scope.

Lemma reversed k i : (i < 2 ^ k)%nat -> exists j, (j < 2 ^ k)%nat /\ forall t, 0 <= t < Z.of_nat k -> Z.testbit (Z.of_nat j) t = Z.testbit (Z.of_nat i) (Z.of_nat k - 1 - t).
Proof.
  intros Hi. destruct k as [|h]; [exists 0%nat; split; [cbn; lia|intros; lia]|]. exists (UtilThms.R h i). split; [apply R_lt|]. intros t Ht. rewrite R_bits by lia. f_equal. lia.
Qed.
Lemma scale_up_vec L values n t moduli coeffs : Forall (fun row => List.length row = L) coeffs -> (List.length values <= L)%nat -> (List.length moduli <= List.length coeffs)%nat -> coeffs <> [] ->
  fval n t -> (0 <= t)%R -> Forall (fun q => 0 < q < W) moduli ->
  (forall v, In v values -> exists r, fval v r /\ (t * Rabs r <= bpow radix2 1000)%R /\ feqb (fmul n (fabs v)) (f_of_Z W) = false) ->
  exists c, scaleUpVecExact values n moduli coeffs = Ok c /\ List.length c = List.length coeffs /\ Forall (fun row => List.length row = L) c /\
    (forall j i v q, nth_error values i = Some v -> nth_error moduli j = Some q -> exists w, entry c j i = Some w /\ scaleUpExact v n q = Ok w) /\
    (forall j i, (j < List.length moduli)%nat -> (List.length values <= i < L)%nat -> entry c j i = Some 0) /\
    (forall j i, (List.length moduli <= j)%nat -> entry c j i = entry coeffs j i).
Proof.
  intros HF HL Hm Hne Hn Ht HQ HV. set (h := fun v q => match scaleUpExact v n q with Ok w => w | Panic _ => 0 end).
  assert (HS : forall v q, In v values -> In q moduli -> scaleUpExact v n q = Ok (h v q)).
  { intros v q Hv Hq. destruct (HV v Hv) as (r & Fr & Hb & He). rewrite Forall_forall in HQ. destruct (scale_up v n r t q Fr Hn Ht Hb (HQ q Hq)) as (w & z & E & _). unfold h. now rewrite E. }
  destruct (vec_loops L values n moduli coeffs h HF HL Hm Hne) as (c & E & A1 & A2 & A3 & A4 & A5).
  { intros v q Hv Hq. destruct (HV v Hv) as (r & Fr & Hb & He). rewrite (vec1 v n r t q Fr Hn Ht Hb He). now apply HS. }
  exists c. split; [exact E|]. split; [exact A1|]. split; [exact A2|]. split; [|split; [exact A4|exact A5]].
  intros j i v q Ev Eq. exists (h v q). split.
  - assert (i < List.length values)%nat by (apply nth_error_Some; congruence). assert (j < List.length moduli)%nat by (apply nth_error_Some; congruence).
    rewrite A3 by auto. now rewrite (nth_error_nth _ _ f0 Ev), (nth_error_nth _ _ 0 Eq).
  - apply HS; eapply nth_error_In; eauto.
Qed.
Lemma imod_both x q : 0 < q -> interfaceMod (GU64 x) q = Ok (x mod q) /\ interfaceMod (GBig x) q = Ok (x mod q).
Proof. intros Hq. split; [apply imod_u64|now apply imod_big]. Qed.
Lemma imod_i64_refuted : exists x q w, 0 < q < 2 ^ 63 /\ - 2 ^ 63 <= x < 2 ^ 63 /\ interfaceMod (GI64 x) q = Ok w /\ q < w /\ exists w', interfaceMod (GI64 (- q)) q = Ok w' /\ w' = q.
Proof. exists 100, 7, 100. split; [lia|]. split; [lia|]. split; [reflexivity|]. split; [lia|]. exists 7. split; reflexivity. Qed.
Lemma chain_both Q : (Q <> [] -> exists ch, genBigIntChain Q = Ok ch /\ List.length ch = List.length Q /\ forall i, (i < List.length Q)%nat -> nth_error ch i = Some (product (firstn (S i) Q))) /\
  (Q = [] -> genBigIntChain Q = Panic PIndex).
Proof.
  split; [|intros ->; reflexivity]. intros H. destruct (chain Q H) as (ch & E & L & C). exists ch. split; [exact E|]. split; [exact L|]. intros i Hi. rewrite product_prodZ. now apply C.
Qed.
Lemma rescaling_params Q P i q : Forall mod61 Q -> Forall prime Q -> nth_error Q i = Some q -> ~ (q | product P) ->
  exists w, nth_error (GenSwitchkeysRescalingParams Q P) i = Some w /\ 0 <= w < q /\ cong q (w * product P) (2 ^ 64).
Proof.
  intros Hm Hp Hq Hd. rewrite product_prodZ in *. pose proof (nth_error_nth _ _ 0 Hq) as E. rewrite <- E in *. change (2 ^ 64) with 18446744073709551616. rewrite <- W_val. apply rescaling; auto. apply nth_error_Some. congruence.
Qed.
Lemma reverse_case : SliceBitReverse 4 [0; 1; 2; 3; 4; 5; 6; 7; 8; 9] 8 = Ok [0; 4; 2; 6; 1; 5; 3; 7; 8; 9] /\ (forall k, 3 <> 2 ^ k)%nat.
Proof. split; [reflexivity|]. intros [|[|k]]; [discriminate|discriminate|]. cbn. lia. Qed.
Lemma scale_case : fval (f_of_Z (-14)) (IZR (- (2 * 7))) /\ scaleUpExact (f_of_Z (-14)) (f_of_Z 1) 7 = Ok 7 /\ scaleUpExact (f_of_Z (-15)) (f_of_Z 1) 7 = Ok 6 /\
  scaleUpVecExact [f_of_Z 3; f_of_Z (-3)] (f_of_Z 2) [5; 7] [[9; 9; 9]; [9; 9; 9]; [9; 9; 9]] = Ok [[1; 4; 0]; [6; 1; 0]; [9; 9; 9]].
Proof. split; [apply fval_Z; lia|]. repeat split; reflexivity. Qed.
Lemma new_case : exists pp o ids, order_ok o /\ idset_ok ids /\ pa_Q pp = shippedQ /\ idHas ids "a" = true /\ idHas ids "b" = true /\ idHas ids "c" = false.
Proof.
  destruct enc_world as (pp & _ & _ & _ & _ & _ & _ & _ & HQ & _). exists pp, o_id, [("a"%string, tt); ("b"%string, tt)]. split; [apply o_id_ok|]. split.
  - split; [repeat constructor; cbn; intuition discriminate|cbn; intuition discriminate].
  - split; [exact HQ|]. repeat split; reflexivity.
Qed.
Lemma chain_case : genBigIntChain [3; 5; 7] = Ok [3; 15; 105] /\ Forall mod61 shippedQ /\ Forall prime shippedQ /\ forall q, In q shippedQ -> ~ (q | product shippedP).
Proof.
  pose proof shipped_primes as (ND & HF). rewrite Forall_forall in HF. split; [reflexivity|]. split; [|split].
  - apply Forall_forall. intros q Hq. specialize (HF q (in_or_app _ _ _ (or_introl Hq))). destruct HF as (Hp & Hr). split; [|lia]. destruct (Z.odd q) eqn:E; auto. exfalso. rewrite <- Z.negb_even in E. apply negb_false_iff, Z.even_spec in E as [k Ek].
    assert (D : (2 | q)) by (exists k; lia). apply prime_divisors in D; auto. lia.
  - apply Forall_forall. intros q Hq. apply shipped_prime, in_or_app. now left.
  - intros q Hq. rewrite product_prodZ. apply prime_not_divide_prod.
    + apply shipped_prime, in_or_app. now left.
    + apply Forall_forall. intros p Hp. apply shipped_prime, in_or_app. now right.
    + intros Hin. clear HF. revert ND Hq Hin. generalize shippedQ shippedP. induction l as [|x l IH]; intros P ND Hq Hin; [destruct Hq|]. cbn [app] in ND. apply NoDup_cons_iff in ND as [Hx ND]. destruct Hq as [->|Hq]; [apply Hx, in_or_app; now right|]. eapply IH; eauto.
Qed.
