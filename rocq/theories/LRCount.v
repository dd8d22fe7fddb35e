(** Proofs about counting correct predictions, and about the tables of a file as inputs of a program. *)
From Coq Require Import Reals String ZArith List Lia Lra Bool.
From Coq.Floats Require Import SpecFloat.
From Flocq Require Import Core BinarySingleNaN.
From Verif Require Import Spec Go GoProofs Arith NegRing BasisExt NTT RingOps Params F64 F64Proofs SpecCt SpecEnc SpecSlots SpecLR SpecLREnc SpecSetup Utils LR LRData SpecData LREncProofs LREncLR LRDataProofs.
Import ListNotations.
Local Open Scope nat_scope.

Lemma fval_half : fval fhalf (1 / 2).
Proof.
  replace (1 / 2)%R with (fR fhalf); [apply finite_R; reflexivity|]. unfold fhalf, fR. 
  replace 4503599627370496%Z with (2 ^ 52)%Z by reflexivity. rewrite (IZR_pow2_pos 52) by lia. change (powerRZ 2 (-53)) with (powerRZ (IZR radix2) (-53)). rewrite <- bpow_powerRZ, <- bpow_plus. cbn. lra.
Qed.
Lemma count_step c f b : finite f -> countOne c f (lab b) = if agrees (fR f) b then S c else c.
Proof.
  intros Hf. apply finite_R in Hf. unfold countOne. assert (L1 : feqb (lab b) f1 = b) by (destruct b; reflexivity). assert (L0 : feqb (lab b) f0 = negb b) by (destruct b; reflexivity). rewrite L1, L0.
  pose proof (fleb_spec _ _ _ _ fval_half Hf) as H1. pose proof (fltb_spec _ _ _ _ Hf fval_half) as H2. unfold agrees. destruct (Rle_lt_dec (1 / 2) (fR f)) as [H|H].
  - replace (fleb fhalf f) with true by (symmetry; now apply H1). replace (fltb f fhalf) with false. 2: { symmetry. apply not_true_is_false. rewrite H2. lra. } destruct b; reflexivity.
  - replace (fltb f fhalf) with true by (symmetry; now apply H2). replace (fleb fhalf f) with false. 2: { symmetry. apply not_true_is_false. rewrite H1. lra. } destruct b; reflexivity.
Qed.
Lemma count_nan c l : countOne c S754_nan l = c.
Proof. reflexivity. Qed.
Theorem count_finite fs bs : Forall finite fs -> countCorrect fs (map lab bs) = length (filter (fun pb => agrees (fR (fst pb)) (snd pb)) (combine fs bs)).
Proof.
  unfold countCorrect. intros H. assert (G : forall c, fold_left (fun c rl => countOne c (fst rl) (snd rl)) (combine fs (map lab bs)) c = c + length (filter (fun pb => agrees (fR (fst pb)) (snd pb)) (combine fs bs))).
  { revert bs H. induction fs as [|f fs IH]; intros bs H c; [cbn; lia|]. destruct bs as [|b bs]; [cbn; lia|]. inversion_clear H. cbn [map combine fold_left filter fst snd]. rewrite count_step by auto. rewrite IH by auto.
    destruct (agrees (fR f) b); cbn [length]; lia. }
  rewrite G. reflexivity.
Qed.
Lemma clear_agrees pp l {Msg} (decode : poly -> f64 -> Msg) re0 M ed msg p b : 1 <= pa_logN pp -> decoder_ok pp l decode re0 M ed -> clear pp l decode M ed msg p -> finite (re0 msg) /\ agrees (fR (re0 msg)) b = agrees p b.
Proof.
  intros HN HD (sc & m & e & (pt & -> & Hl & Hv) & Em & Hsc & Hroom & HM & Hmar). destruct (Hv Hroom) as (V & HV & HS).
  assert (H0 : (0 <= 0 < Z.of_nat (pa_N pp) / 2)%Z). { split; [lia|]. unfold pa_N, deg. destruct (pa_logN pp) as [|k]; [lia|]. rewrite Nat2Z.inj_pow. change (Z.of_nat 2) with 2%Z. rewrite Nat2Z.inj_succ, Z.pow_succ_r by lia. rewrite Z.mul_comm, Z.div_mul by lia. apply Z.pow_pos_nonneg; lia. }
  specialize (HS 0%Z H0). rewrite Em in HS. set (z := fst (slot (pa_N pp) V 0)). assert (Hz : (Rabs (z - fR sc * p) <= e)%R).
  { unfold z. destruct (slot (pa_N pp) V 0) as [a c]. unfold csub, cadd, copp, creal, cnorm in HS. cbn [fst snd] in *. pose proof (Rabs_pos (c + - 0)). replace (a - fR sc * p)%R with (a + - (fR sc * p))%R by ring. lra. }
  assert (Hzs : (Rabs (z / fR sc - p) <= e / fR sc)%R).
  { replace (z / fR sc - p)%R with ((z - fR sc * p) * / fR sc)%R by (field; lra). rewrite Rabs_mult, (Rabs_pos_eq (/ fR sc)) by (left; now apply Rinv_0_lt_compat). apply Rmult_le_compat_r; [left; now apply Rinv_0_lt_compat|exact Hz]. }
  destruct (HD pt sc V HV Hl Hsc) as (x & [Hf ->] & Hx).
  { fold z. replace (Rabs z) with (Rabs (z / fR sc) * fR sc)%R. 2: { unfold Rdiv. rewrite Rabs_mult, (Rabs_pos_eq (/ fR sc)) by (left; now apply Rinv_0_lt_compat). field. lra. }
    apply Rmult_le_compat_r; [lra|]. replace (z / fR sc)%R with (p + (z / fR sc - p))%R by ring. eapply Rle_trans; [apply Rabs_triang|]. lra. }
  fold z in Hx. split; [exact Hf|]. set (x := fR (re0 (decode pt sc))) in *.
  assert (Hxp : (Rabs (x - p) < Rabs (p - 1 / 2))%R). { replace (x - p)%R with ((x - z / fR sc) + (z / fR sc - p))%R by ring. eapply Rle_lt_trans; [apply Rabs_triang|]. lra. }
  unfold agrees. destruct (Rle_lt_dec (1 / 2) x) as [H1|H1], (Rle_lt_dec (1 / 2) p) as [H2|H2]; auto; exfalso.
  - rewrite (Rabs_left (p - 1 / 2)) in Hxp by lra. apply Rabs_def2 in Hxp. lra.
  - rewrite (Rabs_pos_eq (p - 1 / 2)) in Hxp by lra. apply Rabs_def2 in Hxp. lra.
Qed.
Theorem count_clear pp l {Msg} (decode : poly -> f64 -> Msg) re0 M ed msgs ps bs : 1 <= pa_logN pp -> decoder_ok pp l decode re0 M ed -> Forall2 (clear pp l decode M ed) msgs ps ->
  countCorrect (map re0 msgs) (map lab bs) = length (filter (fun pb => agrees (fst pb) (snd pb)) (combine ps bs)).
Proof.
  intros HN HD H. rewrite count_finite.
  - revert bs. induction H as [|msg p msgs ps Hc H IH]; intros bs; [reflexivity|]. destruct bs as [|b bs]; [reflexivity|]. cbn [map combine filter fst snd]. destruct (clear_agrees pp l decode re0 M ed msg p b HN HD Hc) as [_ ->].
    destruct (agrees p b); cbn [length]; now rewrite IH.
  - induction H as [|msg p msgs ps Hc H IH]; constructor; auto. exact (proj1 (clear_agrees pp l decode re0 M ed msg p true HN HD Hc)).
Qed.

(** ** the tables of a file are inputs of the programs *)
Theorem file_tables parse numData d recs F L n : file_data parse numData d recs F L -> n <= length (tl recs) -> n <= numData ->
  table (map (map fR) F) n d /\ n <= length (map fR L).
Proof.
  intros [HF HL HR _] Hn Hnd. split; [|rewrite map_length; lia]. split; [rewrite map_length; lia|]. intros i Hi.
  destruct (nth_error (tl recs) i) as [row|] eqn:Er; [|apply nth_error_None in Er; lia]. destruct (HR i row Er) as (f & Ef & Lf & _).
  replace (nth i (map (map fR) F) []) with (map fR f). { rewrite map_length. lia. } symmetry. apply nth_error_nth. rewrite nth_error_map, Ef. reflexivity.
Qed.
