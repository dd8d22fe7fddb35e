(** Concrete cases for the theorems about data preparation: a decoder for plaintexts of level 0. *)
From Coq Require Import Reals String ZArith List Lia Lra Bool.
From Coq.Floats Require Import SpecFloat.
From Flocq Require Import Core.
From Verif Require Import Spec Go GoProofs Arith NegRing BasisExt NTT RingOps Params F64 F64Proofs Repr SpecKeys SpecCt SpecEnc EncThms KeySpec SpecSlots SlotRing SlotThms SlotErr SpecLR SpecLREnc SpecSetup Utils LR LRData SpecData LREncProofs LREncLR LRDataProofs Shipped EvWorld.
Import ListNotations.
Local Open Scope Z_scope.

Lemma slot_pconst N c j : (0 < N)%nat -> slot N (pconst c) j = (IZR c, 0%R).
Proof.
  intros HN. unfold slot, reval. destruct N as [|n]; [lia|]. clear HN. set (z := croot _ _). clearbody z.
  induction n as [|n IH].
  - cbn [SpecSlots.rsum rpow]. rewrite rofZ_C. unfold cadd, cmul, c0, c1, pconst. cbn [fst snd]. f_equal; ring.
  - match type of IH with ?l = _ => set (a := l) in IH end. change (cadd a (cmul (rofZ c0 c1 cadd cmul copp (pconst c (S n))) (rpow c1 cmul z (S n))) = (IZR c, 0%R)). rewrite IH, rofZ_C. cbn [pconst]. unfold cadd, cmul. cbn [fst snd]. f_equal; ring.
Qed.
(** the polynomial of the first limb, and the integer part of its slot 0 *)
Definition lift0 (pt : poly) : zpoly := fun k => centred (nth 0 shippedQ 0) (nth k (nth 0 (p_co pt) []) 0).
Definition decode0 (pt : poly) (sc : f64) : f64 := f_of_Z (Zfloor (fst (slot (pa_N shipped) (lift0 pt) 0) / fR sc)).
Lemma decode0_ok : decoder_ok shipped 0 decode0 (fun x => x) 1024 1.
Proof.
  intros pt sc V (HV & (b & Hb) & _) Hl Hsc HM. set (N := pa_N shipped) in *.
  assert (E : slot N (lift0 pt) 0 = slot N V 0).
  { apply slot_ext. intros k Hk. unfold lift0. apply centred_unique; [reflexivity|exact (HV k Hk)|].
    unfold held, prep in Hb. destruct Hb as (_ & _ & Hb). destruct (Hb 0%nat ltac:(lia)) as [_ Hc]. exact (proj2 (Hc k Hk)). }
  set (x := (fst (slot N V 0) / fR sc)%R). assert (Hx : (Rabs x <= 1024)%R).
  { unfold x, Rdiv. rewrite Rabs_mult, (Rabs_pos_eq (/ fR sc)) by (left; now apply Rinv_0_lt_compat). apply Rmult_le_reg_r with (fR sc); [exact Hsc|]. rewrite Rmult_assoc, Rinv_l, Rmult_1_r by lra. exact HM. }
  assert (Hz : Z.abs (Zfloor x) <= 2 ^ 53).
  { apply Rabs_le_inv in Hx. assert (-1024 <= Zfloor x) by (apply Zfloor_lub; lra). assert (Zfloor x <= 1024) by (apply le_IZR; eapply Rle_trans; [apply Zfloor_lb|apply Hx]). lia. }
  exists (IZR (Zfloor x)). unfold reads, decode0. fold N. rewrite E. fold x. pose proof (fval_small _ Hz) as F. split; [split|].
  - apply finite_fval. eexists. exact F.
  - symmetry. now apply fR_fval.
  - pose proof (Zfloor_lb x). pose proof (Zfloor_ub x). apply Rabs_le. lra.
Qed.
(** the constant 3 with an error of 5 / 2^38 *)
Definition const_pt (pp : params) (c : Z) : poly := mkPoly false [c :: repeat 0 (pa_N pp - 1)].
Definition pt3 : poly := const_pt shipped (3 * 2 ^ 38 + 5).
Lemma const_lrep N q c : (0 < N)%nat -> 0 <= c < q -> lrep N q q (c :: repeat 0 (N - 1)) (pconst c).
Proof.
  intros HN Hc. split; [cbn [length]; rewrite repeat_length; lia|]. intros [|i] Hi; cbn [nth pconst]; [split; [exact Hc|apply cong_refl]|]. rewrite nth_repeat. split; [lia|apply cong_refl].
Qed.
Lemma const_held pp c : (0 < pa_N pp)%nat -> (0 < length (pa_Q pp))%nat -> 0 <= c < nth 0 (pa_Q pp) 0 -> held pp false (fun q => q) 0 (const_pt pp c) (pconst c).
Proof.
  intros HN HQ Hc. unfold held, prep. destruct (pa_Q pp) as [|q Q] eqn:E; [cbn in HQ; lia|]. unfold ringQ. rewrite E. split; [cbn; lia|]. split; [cbn; lia|].
  intros j Hj. assert (j = 0%nat) as -> by lia. apply const_lrep; [exact HN|exact Hc].
Qed.
Lemma pt3_clear : clear shipped 0 decode0 1024 1 (decode0 pt3 sc38) 3.
Proof.
  assert (Es : fR sc38 = IZR (2 ^ 38)). { apply fR_fval. apply fval_small. lia. }
  assert (HN : (0 < pa_N shipped)%nat) by (unfold pa_N, deg; apply Nat.neq_0_lt_0, Nat.pow_nonzero; lia).
  exists sc38, (fun _ => 3%R), 5%R. rewrite Es.
  assert (P : (0 < IZR (2 ^ 38))%R) by (apply IZR_lt; lia). assert (P2 : (1000 < IZR (2 ^ 38))%R) by (apply IZR_lt; lia).
  assert (D : (5 / IZR (2 ^ 38) <= 1)%R) by (apply Rmult_le_reg_r with (IZR (2 ^ 38)); [exact P|]; unfold Rdiv; rewrite Rmult_assoc, Rinv_l by lra; lra).
  split; [|split; [reflexivity|split; [exact P|split; [|split]]]].
  - exists pt3. split; [reflexivity|]. split; [reflexivity|]. intros _. exists (pconst (3 * 2 ^ 38 + 5)). split.
    + apply (centred_ok shipped shipped_ok false (fun q => q)).
      * apply const_held; [exact HN|cbn; lia|]. change (nth 0 (pa_Q shipped) 0) with 36028797019488257. lia.
      * intros i _. change (Ql shipped 0) with (36028797019488257 * 1). destruct i; cbn [pconst]; lia.
    + intros i _. rewrite slot_pconst by exact HN. unfold csub, cadd, copp, creal, cnorm. cbn [fst snd]. rewrite Es. rewrite plus_IZR, mult_IZR. replace (IZR 3 * IZR (2 ^ 38) + IZR 5 + - (IZR (2 ^ 38) * 3))%R with 5%R by ring. replace (0 + - 0)%R with 0%R by ring. rewrite Rabs_R0, Rabs_pos_eq; lra.
  - intros i _. rewrite Rabs_pos_eq by (apply Rmult_le_pos; lra). change (Ql shipped 0) with (36028797019488257 * 1). change 3%R with (IZR 3). change 5%R with (IZR 5). change 4%R with (IZR 4). rewrite <- !mult_IZR, <- plus_IZR, <- mult_IZR. apply IZR_lt. lia.
  - rewrite (Rabs_pos_eq 3) by lra. lra.
  - rewrite (Rabs_pos_eq (3 - 1 / 2)) by lra. lra.
Qed.
(** a file *)
Definition parse01 (s : string) : option f64 := if String.eqb s "0" then Some f0 else if String.eqb s "1" then Some f1 else None.
Lemma file_case : file_ok parse01 3 2 [["a"; "b"; "y"]; ["1"; "0"; "1"]; ["0"; "1"; "0"]]%string.
Proof.
  split; [|split; [cbn; lia|]].
  - cbn [In]. intros r r' H H'. repeat (destruct H as [<-|H]; [repeat (destruct H' as [<-|H']; [reflexivity|]); destruct H'|]). destruct H.
  - cbn [tl In]. intros row H. repeat (destruct H as [<-|H]; [split; [cbn; lia|cbn [In]; intros s Hs; repeat (destruct Hs as [<-|Hs]; [discriminate|]); destruct Hs]|]). destruct H.
Qed.
