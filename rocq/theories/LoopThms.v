(** Proofs about Loops.v. *)
From Coq Require Import ZArith List String Bool Lia Zquot.
From Verif Require Import Go Lattigo Arith F64 BasisExt NTT RingOps Maps Params Elements KeySwitch KeySets KeyGen EncDec Utils Evaluator LR Loops.
Import ListNotations.
Local Open Scope Z_scope.
Open Scope go_scope.

Lemma loop_det {S} (c : S -> bool) body s n r : loop c body s n r -> forall n' r', loop c body s n' r' -> n = n' /\ r = r'.
Proof.
  induction 1 as [s E|s s1 n r E B L IH|s e E B]; intros n' r' L'; inversion L'; subst; try congruence.
  - split; reflexivity.
  - assert (s1 = s2) by congruence; subst s2. destruct (IH _ _ H1) as [-> ->]. split; reflexivity.
  - assert (e = e0) by congruence. subst. split; reflexivity.
Qed.

Lemma i64_id z : - 2 ^ 63 <= z < 2 ^ 63 -> i64 z = z.
Proof.
  intros H. unfold i64. change W with (2 ^ 64). change (2 ^ 63) with 9223372036854775808 in *. change (2 ^ 64) with 18446744073709551616 in *.
  destruct (Z_lt_le_dec z 0).
  - rewrite <- (Z_mod_plus z 1) by lia. rewrite Z.mod_small by lia. destruct (_ <? _) eqn:E; [apply Z.ltb_lt in E; lia|lia].
  - rewrite Z.mod_small by lia. destruct (_ <? _) eqn:E; [lia|apply Z.ltb_ge in E; lia].
Qed.

Lemma down_run half : 0 < half < 2 ^ 63 -> forall m k, - 2 ^ 63 <= k < 2 ^ 63 -> Z.to_nat (k / half) = m -> downLoop half k m (Ok (if k <? 0 then k else k mod half)).
Proof.
  intros Hh. induction m as [|m IH]; intros k Hk E.
  - destruct (Z.ltb_spec k 0) as [N|P].
    + apply loop_exit. apply Z.leb_gt. lia.
    + assert (D : k / half = 0) by (pose proof (Z.div_pos k half P (proj1 Hh)); lia).
      assert (k < half). { pose proof (Z.div_mod k half ltac:(lia)). pose proof (Z.mod_pos_bound k half ltac:(lia)). nia. }
      rewrite Z.mod_small by lia. apply loop_exit. apply Z.leb_gt. lia.
  - assert (D : k / half = Z.of_nat m + 1) by lia.
    pose proof (Z.div_mod k half ltac:(lia)) as DM. pose proof (Z.mod_pos_bound k half ltac:(lia)) as MB.
    assert (half <= k) by nia.
    assert (E1 : (k - half) / half = Z.of_nat m). { replace (k - half) with (k + (-1) * half) by ring. rewrite Z.div_add by lia. lia. }
    assert (E2 : (k - half) mod half = k mod half). { replace (k - half) with (k + (-1) * half) by ring. apply Z.mod_add. lia. }
    specialize (IH (k - half) ltac:(lia) ltac:(lia)).
    destruct (Z.ltb_spec k 0); [lia|]. destruct (Z.ltb_spec (k - half) 0); [lia|]. rewrite E2 in IH.
    eapply loop_round; [apply Z.leb_le; lia|unfold isub; rewrite i64_id by lia; reflexivity|exact IH].
Qed.
Lemma up_run half : 0 < half < 2 ^ 63 -> forall m k, - 2 ^ 63 <= k < 2 ^ 63 -> Z.to_nat (- (k / half)) = m -> upLoop half k m (Ok (if k <? 0 then k mod half else k)).
Proof.
  intros Hh. induction m as [|m IH]; intros k Hk E.
  - pose proof (Z.div_mod k half ltac:(lia)) as DM. pose proof (Z.mod_pos_bound k half ltac:(lia)) as MB.
    assert (0 <= k) by nia. destruct (Z.ltb_spec k 0); [lia|]. apply loop_exit. apply Z.ltb_ge. lia.
  - assert (D : k / half = - (Z.of_nat m + 1)) by lia.
    pose proof (Z.div_mod k half ltac:(lia)) as DM. pose proof (Z.mod_pos_bound k half ltac:(lia)) as MB.
    assert (k < 0) by nia.
    assert (E1 : (k + half) / half = - Z.of_nat m). { replace (k + half) with (k + 1 * half) by ring. rewrite Z.div_add by lia. lia. }
    assert (E2 : (k + half) mod half = k mod half). { replace (k + half) with (k + 1 * half) by ring. apply Z.mod_add. lia. }
    specialize (IH (k + half) ltac:(lia) ltac:(lia)).
    destruct (Z.ltb_spec k 0); [|lia].
    assert (V : (if k + half <? 0 then (k + half) mod half else k + half) = k mod half).
    { destruct (Z.ltb_spec (k + half) 0); [exact E2|]. rewrite <- E2. symmetry. apply Z.mod_small. lia. }
    rewrite V in IH.
    eapply loop_round; [apply Z.ltb_lt; lia|unfold iadd; rewrite i64_id by lia; reflexivity|exact IH].
Qed.

Lemma norm_run half k : 0 < half < 2 ^ 63 -> - 2 ^ 63 <= k < 2 ^ 63 -> normLoops half k (Z.to_nat (k / half)) (Z.to_nat (- (k / half))) (k mod half).
Proof.
  intros Hh Hk. exists (if k <? 0 then k else k mod half). split; [apply down_run; auto|].
  destruct (Z.ltb_spec k 0).
  - pose proof (up_run half Hh _ k Hk eq_refl) as U. destruct (Z.ltb_spec k 0); [exact U|lia].
  - pose proof (Z.mod_pos_bound k half ltac:(lia)). pose proof (Z.div_pos k half ltac:(lia) ltac:(lia)).
    replace (Z.to_nat (- (k / half))) with O by lia. apply loop_exit. apply Z.ltb_ge. lia.
Qed.
Lemma norm_iff : forall half k n1 n2 r, 0 < half < 2 ^ 63 -> - 2 ^ 63 <= k < 2 ^ 63 ->
  (normLoops half k n1 n2 r <-> n1 = Z.to_nat (k / half) /\ n2 = Z.to_nat (- (k / half)) /\ r = k mod half).
Proof.
  intros half k n1 n2 r Hh Hk. split.
  - intros [k1 [D U]]. destruct (norm_run half k Hh Hk) as [k1' [D' U']].
    destruct (loop_det _ _ _ _ _ D _ _ D') as [-> E]. injection E as ->. destruct (loop_det _ _ _ _ _ U _ _ U') as [-> E]. injection E as ->. auto.
  - intros [-> [-> ->]]. apply norm_run; auto.
Qed.

Lemma half_pow pp : (1 <= pa_logN pp <= 62)%nat -> Z.quot (Z.of_nat (pa_N pp)) 2 = 2 ^ Z.of_nat (pa_logN pp - 1) /\ Z.of_nat (pa_N pp) / 2 = 2 ^ Z.of_nat (pa_logN pp - 1) /\ 0 < 2 ^ Z.of_nat (pa_logN pp - 1) <= 2 ^ 61.
Proof.
  intros H. unfold pa_N, deg. rewrite Nat2Z.inj_pow. change (Z.of_nat 2) with 2.
  assert (E : 2 ^ Z.of_nat (pa_logN pp) = 2 ^ Z.of_nat (pa_logN pp - 1) * 2).
  { replace (Z.of_nat (pa_logN pp)) with (Z.succ (Z.of_nat (pa_logN pp - 1))) by lia. rewrite Z.pow_succ_r by lia. ring. }
  rewrite E. split; [apply Z.quot_mul; lia|split; [apply Z.div_mul; lia|]].
  split; [apply Z.pow_pos_nonneg; lia|apply Z.pow_le_mono_r; lia].
Qed.

Lemma up_iff : forall pp k n r, (1 <= pa_logN pp <= 62)%nat -> - 2 ^ 63 <= k < 2 ^ 63 ->
  (upLoop (Z.quot (Z.of_nat (pa_N pp)) 2) k n r <-> n = Z.to_nat (- (k / (Z.of_nat (pa_N pp) / 2))) /\ r = Ok (normNeg (pa_logN pp) k)).
Proof.
  intros pp k n r HN Hk. destruct (half_pow pp HN) as [E1 [E2 B]]. unfold normNeg. fold (pa_N pp). rewrite E1, E2.
  assert (B' : 0 < 2 ^ Z.of_nat (pa_logN pp - 1) < 2 ^ 63) by (change (2 ^ 63) with (4 * 2 ^ 61); lia).
  pose proof (up_run _ B' _ k Hk eq_refl) as U. split.
  - intros L. destruct (loop_det _ _ _ _ _ L _ _ U) as [-> ->]. auto.
  - intros [-> ->]. exact U.
Qed.

Lemma quot_xI p : Z.quot (Zpos p~1) 2 = Zpos p.
Proof. rewrite Z.quot_div_nonneg by lia. symmetry. apply Z.div_unique with 1; lia. Qed.
Lemma quot_xO p : Z.quot (Zpos p~0) 2 = Zpos p.
Proof. rewrite Z.quot_div_nonneg by lia. symmetry. apply Z.div_unique with 0; lia. Qed.
Lemma rem_xI p : negb (Z.rem (Zpos p~1) 2 =? 0) = true.
Proof. pose proof (Z.quot_rem' (Zpos p~1) 2) as H. rewrite quot_xI in H. replace (Z.rem (Zpos p~1) 2) with 1 by lia. reflexivity. Qed.
Lemma rem_xO p : negb (Z.rem (Zpos p~0) 2 =? 0) = false.
Proof. pose proof (Z.quot_rem' (Zpos p~0) 2) as H. rewrite quot_xO in H. replace (Z.rem (Zpos p~0) 2) with 0 by lia. reflexivity. Qed.

Section Ev.
Context (ce : ckenv).
Notation env := (ce_env ce).
Notation pp := (e_pp env).

Definition bitOut (r : res bitState) : res (ciphertext * kpool) := let* s := r in let '(_, _, _, out, kp) := s in Ok (out, kp).
Lemma bits_run o rks : forall p k tmp out kp, 0 < k -> k * Zpos p < 2 ^ 62 ->
  exists n r, loop bitCond (bitBody ce o rks) (Zpos p, k, tmp, out, kp) n r /\ bitOut r = rotBits ce o p k rks tmp out kp.
Proof.
  induction p as [p IH|p IH|]; intros k tmp out kp K1 K2.
  - assert (Q := quot_xI p).
    assert (K3 : imul k 2 = 2 * k). { unfold imul. rewrite i64_id; [ring|]. change (2 ^ 63) with (2 * 2 ^ 62). nia. }
    assert (K4 : 2 * k * Z.pos p < 2 ^ 62) by nia.
    cbn [rotBits]. destruct (Rotate env o tmp k rks out kp) as [[out1 kp1]|e] eqn:R; cbn [bind].
    + destruct (ctCopy o tmp out1) as [tmp1|e] eqn:C; cbn [bind].
      * destruct (IH (2 * k) tmp1 out1 kp1 ltac:(lia) K4) as [n [r [L V]]]. exists (Datatypes.S n), r. split; [|exact V].
        eapply loop_round; [reflexivity| |exact L].
        unfold bitBody. rewrite (rem_xI p). cbv iota. rewrite R. cbn [bind]. rewrite C. cbn [bind]. rewrite Q, K3. reflexivity.
      * exists 1%nat, (Panic e). split; [|reflexivity]. apply loop_panic; [reflexivity|].
        unfold bitBody. rewrite (rem_xI p). cbv iota. rewrite R. cbn [bind]. rewrite C. reflexivity.
    + exists 1%nat, (Panic e). split; [|reflexivity]. apply loop_panic; [reflexivity|].
      unfold bitBody. rewrite (rem_xI p). cbv iota. rewrite R. reflexivity.
  - assert (Q := quot_xO p).
    assert (K3 : imul k 2 = 2 * k). { unfold imul. rewrite i64_id; [ring|]. change (2 ^ 63) with (2 * 2 ^ 62). nia. }
    assert (K4 : 2 * k * Z.pos p < 2 ^ 62) by nia.
    cbn [rotBits]. destruct (IH (2 * k) tmp out kp ltac:(lia) K4) as [n [r [L V]]]. exists (Datatypes.S n), r. split; [|exact V].
    eapply loop_round; [reflexivity| |exact L].
    unfold bitBody. rewrite (rem_xO p). cbv iota. cbn [bind]. rewrite Q, K3. reflexivity.
  - cbn [rotBits]. destruct (Rotate env o tmp k rks out kp) as [[out1 kp1]|e] eqn:R; cbn [bind].
    + destruct (ctCopy o tmp out1) as [tmp1|e] eqn:C; cbn [bind].
      * exists 1%nat, (Ok (0, imul k 2, tmp1, out1, kp1)). split; [|reflexivity].
        eapply loop_round; [reflexivity| |apply loop_exit; reflexivity].
        unfold bitBody. change (negb (Z.rem 1 2 =? 0)) with true. cbv iota. rewrite R. cbn [bind]. rewrite C. reflexivity.
      * exists 1%nat, (Panic e). split; [|reflexivity]. apply loop_panic; [reflexivity|].
        unfold bitBody. change (negb (Z.rem 1 2 =? 0)) with true. cbv iota. rewrite R. cbn [bind]. rewrite C. reflexivity.
    + exists 1%nat, (Panic e). split; [|reflexivity]. apply loop_panic; [reflexivity|].
      unfold bitBody. change (negb (Z.rem 1 2 =? 0)) with true. cbv iota. rewrite R. reflexivity.
Qed.

Lemma norm_ev k : (1 <= pa_logN pp <= 62)%nat -> - 2 ^ 63 <= k < 2 ^ 63 -> 0 <= normRot ce k < 2 ^ 61 /\ (exists n1 n2, normLoops (halfN ce) k n1 n2 (normRot ce k)) /\
  forall n1 n2 r, normLoops (halfN ce) k n1 n2 r -> r = normRot ce k.
Proof.
  intros HN Hk. destruct (half_pow pp HN) as [E1 [E2 B]]. unfold normRot, halfN. rewrite E1, E2.
  assert (B' : 0 < 2 ^ Z.of_nat (pa_logN pp - 1) < 2 ^ 63) by (change (2 ^ 63) with (4 * 2 ^ 61); lia).
  pose proof (Z.mod_pos_bound k _ (proj1 B')). split; [lia|split].
  - do 2 eexists. apply norm_run; auto.
  - intros n1 n2 r L. apply norm_iff in L; tauto.
Qed.

Lemma rotate_iff : forall o ct0 rotidx rks st r, (1 <= pa_logN pp <= 62)%nat -> - 2 ^ 63 <= rotidx < 2 ^ 63 ->
  (RotateNewL ce o ct0 rotidx rks st r <-> r = RotateNew ce o ct0 rotidx rks st).
Proof.
  intros o ct0 rotidx rks st r HN Hk. unfold RotateNewL, RotateNew.
  destruct (ctIDSet o (c_ct ct0)) as [ids|e]; [|reflexivity]. cbn [bind].
  destruct (ctLevel (c_ct ct0)) as [l|e]; [|reflexivity]. cbn [bind].
  destruct (norm_ev rotidx HN Hk) as [B [[m1 [m2 L0]] D]].
  set (ctOut := NewCiphertext o pp ids l). set (k0 := normRot ce rotidx) in *.
  assert (R : forall P : Z -> Prop, (exists n1 n2 k, normLoops (halfN ce) rotidx n1 n2 k /\ P k) <-> P k0).
  { intros P. split; [intros [n1 [n2 [k [L H]]]]; rewrite <- (D _ _ _ L); exact H|intros H; exists m1, m2, k0; auto]. }
  rewrite (R (fun k => if k =? 0 then _ else _)). clear R L0 D m1 m2.
  destruct k0 as [|p|p] eqn:Ek; [reflexivity| |lia].
  change (Zpos p =? 0) with false. cbv iota.
  destruct (mhas Z.eqb (pa_CRS pp) (Zpos p)); [reflexivity|].
  destruct (ckCopyNew ct0) as [tmp|e]; [|reflexivity]. cbn [bind].
  destruct (bits_run o rks p 1 (c_ct tmp) ctOut (ev_k st) ltac:(lia)) as [n [r' [L V]]]. { change (2 ^ 62) with (2 * 2 ^ 61). lia. }
  assert (Z0 : (let* s := r' in let '(_, _, _, out, kp) := s in Ok (mkCk out (c_scale ct0), set_k kp st)) =
    (let* (c, k) := rotBits ce o p 1 rks (c_ct tmp) ctOut (ev_k st) in Ok (mkCk c (c_scale ct0), set_k k st))).
  { rewrite <- V. destruct r' as [[[[[? ?] ?] ?] ?]|?]; reflexivity. }
  split.
  - intros [n2 [r2 [L2 ->]]]. destruct (loop_det _ _ _ _ _ L2 _ _ L) as [_ ->]. exact Z0.
  - intros ->. exists n, r'. split; [exact L|symmetry; exact Z0].
Qed.
Lemma rotate_hoisted_iff : forall o ct0 rotidx h rks st r, (1 <= pa_logN pp <= 62)%nat -> - 2 ^ 63 <= rotidx < 2 ^ 63 ->
  (RotateHoistedNewL ce o ct0 rotidx h rks st r <-> r = RotateHoistedNew ce o ct0 rotidx h rks st).
Proof.
  intros o ct0 rotidx h rks st r HN Hk. unfold RotateHoistedNewL, RotateHoistedNew.
  destruct (ctIDSet o (c_ct ct0)) as [ids|e]; [|reflexivity]. cbn [bind].
  destruct (ctLevel (c_ct ct0)) as [l|e]; [|reflexivity]. cbn [bind].
  destruct (norm_ev rotidx HN Hk) as [B [[m1 [m2 L0]] D]]. set (k0 := normRot ce rotidx) in *.
  assert (R : forall P : Z -> Prop, (exists n1 n2 k, normLoops (halfN ce) rotidx n1 n2 k /\ P k) <-> P k0).
  { intros P. split; [intros [n1 [n2 [k [L H]]]]; rewrite <- (D _ _ _ L); exact H|intros H; exists m1, m2, k0; auto]. }
  rewrite (R (fun k => if k =? 0 then _ else _)).
  destruct (k0 =? 0); [reflexivity|]. destruct (mhas Z.eqb (pa_CRS pp) k0); reflexivity.
Qed.
End Ev.

Lemma double j : (j <= 61)%nat -> imul (2 ^ Z.of_nat j) 2 = 2 ^ Z.of_nat (S j).
Proof.
  intros H. assert (E : 2 ^ Z.of_nat (S j) = 2 ^ Z.of_nat j * 2) by (rewrite Nat2Z.inj_succ, Z.pow_succ_r by lia; ring).
  unfold imul. rewrite <- E. apply i64_id. pose proof (Z.pow_pos_nonneg 2 (Z.of_nat (S j)) ltac:(lia) ltac:(lia)).
  assert (2 ^ Z.of_nat (S j) <= 2 ^ 62) by (apply Z.pow_le_mono_r; lia). change (2 ^ 63) with (2 * 2 ^ 62). lia.
Qed.

Lemma gen_run pp sk es : (1 <= pa_logN pp <= 62)%nat -> forall m a rks poolQ, (a + m = pa_logN pp - 1)%nat ->
  exists n, loop (fun s => fst s <? Z.quot (Z.of_nat (pa_N pp)) 2) (genBody pp sk es) (2 ^ Z.of_nat a, (rks, poolQ)) n
    (let* x := foldM (fun '(rks, poolQ) ix => let* (rk, poolQ) := GenRotationKey pp ix sk (es ix) poolQ in Ok (AddRotationKey rks rk, poolQ)) (map (fun i => 2 ^ Z.of_nat i) (seq a m)) (rks, poolQ) in
     Ok (2 ^ Z.of_nat (pa_logN pp - 1), x)).
Proof.
  intros HN. destruct (half_pow pp HN) as [E1 _]. rewrite E1. induction m as [|m IH]; intros a rks poolQ E.
  - exists O. cbn [seq map foldM bind]. replace a with (pa_logN pp - 1)%nat by lia. apply loop_exit. apply Z.ltb_irrefl.
  - cbn [seq map foldM].
    assert (C : 2 ^ Z.of_nat a <? 2 ^ Z.of_nat (pa_logN pp - 1) = true) by (apply Z.ltb_lt; apply Z.pow_lt_mono_r; lia).
    destruct (GenRotationKey pp (2 ^ Z.of_nat a) sk (es (2 ^ Z.of_nat a)) poolQ) as [[rk poolQ1]|e] eqn:G; cbn [bind].
    + destruct (IH (S a) (AddRotationKey rks rk) poolQ1 ltac:(lia)) as [n L]. exists (S n).
      eapply loop_round; [exact C| |exact L]. unfold genBody. rewrite G. cbn [bind]. rewrite double by lia. reflexivity.
    + exists 1%nat. apply loop_panic; [exact C|]. unfold genBody. rewrite G. reflexivity.
Qed.
Lemma gen_iff : forall pp sk es rks poolQ r, (1 <= pa_logN pp <= 62)%nat ->
  ((exists n, GenDefaultL pp sk es rks poolQ n r) <-> r = (let* x := GenDefaultRotationKeys pp sk es rks poolQ in Ok (2 ^ Z.of_nat (pa_logN pp - 1), x))).
Proof.
  intros pp sk es rks poolQ r HN. destruct (gen_run pp sk es HN (pa_logN pp - 1) 0 rks poolQ eq_refl) as [n L]. split.
  - intros [n' L']. destruct (loop_det _ _ _ _ _ L' _ _ L) as [_ ->]. reflexivity.
  - intros ->. exists n. exact L.
Qed.

Section Sum.
Context {S ct pt : Type} (E : heops S ct pt).
Lemma sum_run bound am am' : bound <= 2 ^ 62 -> (forall i, 0 < i < bound -> am i = am' i) -> forall fuel j c st, (j <= 62)%nat -> (j <> O -> 2 ^ (Z.of_nat j - 1) < bound) -> bound <= 2 ^ Z.of_nat j + Z.of_nat fuel ->
  exists n, loop (fun s => fst s <? bound) (sumBody E am) (2 ^ Z.of_nat j, (c, st)) n (let* x := sumLoop E fuel (2 ^ Z.of_nat j) bound am' c st in Ok (2 ^ Z.log2_up bound, x)).
Proof.
  intros HB HA. induction fuel as [|fuel IH]; intros j c st J1 J2 J3.
  - assert (C : 2 ^ Z.of_nat j <? bound = false) by (apply Z.ltb_ge; lia).
    unfold sumLoop. rewrite C. cbn [sret bind]. exists O.
    assert (X : Z.log2_up bound = Z.of_nat j).
    { destruct (Nat.eq_dec j 0) as [->|NZ]; [apply Z.log2_up_eqn0; change (2 ^ Z.of_nat 0) with 1 in *; lia|].
      apply Z.log2_up_unique; [lia|]. replace (Z.pred (Z.of_nat j)) with (Z.of_nat j - 1) by lia. specialize (J2 NZ). lia. }
    rewrite X. apply loop_exit. exact C.
  - cbn [sumLoop]. destruct (2 ^ Z.of_nat j <? bound) eqn:C.
    + pose proof C as C'. apply Z.ltb_lt in C'.
      assert (Hj : (j <= 61)%nat). { destruct (Nat.eq_dec j 62) as [->|]; [change (2 ^ Z.of_nat 62) with (2 ^ 62) in C'; lia|lia]. }
      pose proof (Z.pow_pos_nonneg 2 (Z.of_nat j) ltac:(lia) ltac:(lia)) as PP.
      unfold sbind. rewrite <- (HA (2 ^ Z.of_nat j)) by lia.
      destruct (o_rot E c (am (2 ^ Z.of_nat j)) st) as [[r st1]|e] eqn:R; cbn [bind].
      * destruct (o_add E c r st1) as [[c1 st2]|e] eqn:A; cbn [bind].
        -- assert (D : 2 * 2 ^ Z.of_nat j = 2 ^ Z.of_nat (Datatypes.S j)) by (rewrite Nat2Z.inj_succ, Z.pow_succ_r by lia; ring).
           destruct (IH (Datatypes.S j) c1 st2) as [n L]; [lia|intros _; replace (Z.of_nat (Datatypes.S j) - 1) with (Z.of_nat j) by lia; exact C'|lia|].
           rewrite D. exists (Datatypes.S n). eapply loop_round; [exact C| |exact L]. unfold sumBody. rewrite R. cbn [bind]. rewrite A. cbn [bind]. rewrite double by lia. reflexivity.
        -- exists 1%nat. apply loop_panic; [exact C|]. unfold sumBody. rewrite R. cbn [bind]. rewrite A. reflexivity.
      * exists 1%nat. apply loop_panic; [exact C|]. unfold sumBody. rewrite R. reflexivity.
    + cbn [sret bind]. exists O.
      assert (X : Z.log2_up bound = Z.of_nat j).
      { apply Z.ltb_ge in C. destruct (Nat.eq_dec j 0) as [->|NZ]; [apply Z.log2_up_eqn0; change (2 ^ Z.of_nat 0) with 1 in *; lia|].
        apply Z.log2_up_unique; [lia|]. replace (Z.pred (Z.of_nat j)) with (Z.of_nat j - 1) by lia. specialize (J2 NZ). lia. }
      rewrite X. apply loop_exit. exact C.
Qed.
Lemma sum_iff_gen bound am am' c st r : bound <= 2 ^ 62 -> (forall i, 0 < i < bound -> am i = am' i) ->
  ((exists n, sumL E bound am c st n r) <-> r = (let* x := rotSum E bound am' c st in Ok (2 ^ Z.log2_up bound, x))).
Proof.
  intros HB HA. destruct (sum_run bound am am' HB HA (Z.to_nat bound) 0 c st) as [n L]; [lia|congruence|change (2 ^ Z.of_nat 0) with 1; lia|]. split.
  - intros [n' L']. destruct (loop_det _ _ _ _ _ L' _ _ L) as [_ ->]. reflexivity.
  - intros ->. exists n. exact L.
Qed.
Lemma sum_iff : forall bound c st r, bound <= 2 ^ 62 ->
  ((exists n, sumL E bound (fun i => i) c st n r) <-> r = (let* x := rotSum E bound (fun i => i) c st in Ok (2 ^ Z.log2_up bound, x))) /\
  ((exists n, sumL E bound (fun i => isub 0 i) c st n r) <-> r = (let* x := rotSum E bound (fun i => - i) c st in Ok (2 ^ Z.log2_up bound, x))) /\
  (forall numCol, 0 <= numCol -> numCol * bound <= 2 ^ 63 ->
    ((exists n, sumL E bound (fun i => imul numCol i) c st n r) <-> r = (let* x := rotSum E bound (fun i => numCol * i) c st in Ok (2 ^ Z.log2_up bound, x)))).
Proof.
  intros bound c st r HB. change (2 ^ 63) with (2 * 2 ^ 62). split; [|split].
  - apply sum_iff_gen; auto.
  - apply sum_iff_gen; auto. intros i Hi. unfold isub. rewrite i64_id; [ring|]. change (2 ^ 63) with (2 * 2 ^ 62). lia.
  - intros numCol H0 H1. apply sum_iff_gen; auto. intros i Hi. unfold imul. rewrite i64_id; [ring|]. change (2 ^ 63) with (2 * 2 ^ 62).
    split; [nia|]. destruct (Z.eq_dec numCol 0) as [->|]; [lia|]. nia.
Qed.
Lemma sum_diverges : forall bound am c st n s, 2 ^ 62 < bound < 2 ^ 63 -> ~ sumL E bound am c st n (Ok s).
Proof.
  intros bound am c st n s HB L. unfold sumL in L.
  set (inv := fun i => i = 0 \/ i = - 2 ^ 63 \/ exists j, (j <= 62)%nat /\ i = 2 ^ Z.of_nat j).
  assert (I1 : forall i, inv i -> i < bound).
  { intros i [->|[->|[j [Hj ->]]]]; try lia. assert (2 ^ Z.of_nat j <= 2 ^ 62) by (apply Z.pow_le_mono_r; lia). lia. }
  assert (I2 : forall i, inv i -> inv (imul i 2)).
  { intros i [->|[->|[j [Hj ->]]]]; [left; reflexivity|left; reflexivity|].
    destruct (Nat.eq_dec j 62) as [->|]; [right; left; reflexivity|]. right; right. exists (Datatypes.S j). rewrite double by lia. split; [lia|reflexivity]. }
  assert (G : forall x n r, loop (fun s => fst s <? bound) (sumBody E am) x n r -> inv (fst x) -> r <> Ok s).
  { intros x m r L'. induction L' as [x C|x x1 m r C B L' IH|x e C B]; intros HI.
    - apply Z.ltb_ge in C. specialize (I1 _ HI). lia.
    - apply IH. destruct x as [i [c0 st0]]. unfold sumBody in B. cbn [fst] in HI.
      destruct (o_rot E c0 (am i) st0) as [[? ?]|]; [|discriminate]. cbn [bind] in B. destruct (o_add E _ _ _) as [[? ?]|]; [|discriminate]. cbn [bind] in B.
      injection B as <-. cbn [fst]. apply I2, HI.
    - discriminate. }
  refine (G _ _ _ L _ eq_refl). right; right. exists O. split; [lia|reflexivity].
Qed.
End Sum.

Lemma down_diverges : forall k n r, 0 <= k < 2 ^ 63 -> ~ downLoop 0 k n r.
Proof.
  intros k n r Hk L. unfold downLoop in L. remember k as k1 eqn:E in L.
  induction L as [s C|s s1 n r C B L IH|s e C B]; subst s.
  - apply Z.leb_gt in C. lia.
  - apply IH. injection B as <-. unfold isub. rewrite i64_id by lia. lia.
  - discriminate.
Qed.
