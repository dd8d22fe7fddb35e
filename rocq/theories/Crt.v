(** Chinese remaindering: integer polynomials behind arbitrary residue tables. *)
From Coq Require Import ZArith Znumtheory List Lia Bool.
From Verif Require Import Go GoProofs Arith NegRing NegRingProofs NTT NTTProofs Lattigo LattigoProofs BasisExtProofs ModDownProofs DecomposeProofs RingOps RingOpsProofs Params KSProofs ParamsProofs.
Import ListNotations.
Local Open Scope Z_scope.

Lemma crt_exists ms : pairwise_coprime ms -> forall r : nat -> Z,
  exists X, forall i, (i < length ms)%nat -> cong (nth i ms 0) X (r i).
Proof.
  induction 1 as [|m ms Hm Hp IH]; intros r; [exists 0; cbn; lia|].
  destruct (IH (fun i => r (S i))) as (X & HX).
  assert (HR : rel_prime m (prodZ ms)) by now apply rel_prime_prodZ.
  destruct (rel_prime_bezout _ _ HR) as [u v E].
  exists (X + (r O - X) * (v * prodZ ms)). intros [|i] Hi; cbn [nth].
  - exists (- (r O - X) * u). replace (v * prodZ ms) with (1 - u * m) by lia. ring.
  - cbn in Hi. rewrite <- (HX i) by lia. destruct (prodZ_divide ms (nth i ms 0)) as [c Hc]; [apply nth_In; lia|].
    exists ((r O - X) * v * c). rewrite Hc. ring.
Qed.
(** per coefficient *)
Lemma crt_poly ms (R : nat -> zpoly) : pairwise_coprime ms -> exists A : zpoly,
  forall i x, (i < length ms)%nat -> cong (nth i ms 0) (A x) (R i x).
Proof.
  intros Hp.
  (* an idempotent basis makes the choice uniform in x *)
  destruct (choose_fun 0 (length ms) (fun i e => forall j, (j < length ms)%nat -> cong (nth j ms 0) e (if Nat.eqb j i then 1 else 0))) as (E & HE).
  { intros i Hi. destruct (crt_exists ms Hp (fun j => if Nat.eqb j i then 1 else 0)) as (e & He). exists e. exact He. }
  exists (fun x => sumn (length ms) (fun i => E i * R i x)). intros j x Hj.
  assert (G : forall n, (n <= length ms)%nat -> cong (nth j ms 0) (sumn n (fun i => E i * R i x)) (if (j <? n)%nat then R j x else 0)).
  { induction n as [|n IH]; intros Hn; [apply cong_refl|]. cbn [sumn]. rewrite IH, (HE n ltac:(lia) j Hj) by lia.
    destruct (Nat.eqb_spec j n) as [Ej|Hne], (Nat.ltb_spec j n), (Nat.ltb_spec j (S n)); try lia; try rewrite Ej; apply cong_eq; ring. }
  rewrite G by lia. destruct (Nat.ltb_spec j (length ms)); [reflexivity|lia].
Qed.

Lemma firstn_pairwise ms n : pairwise_coprime ms -> pairwise_coprime (firstn n ms).
Proof.
  intros H. revert n. induction H as [|m ms Hm Hp IH]; intros [|n]; cbn; try constructor; auto. apply IH || idtac.
  now apply Forall_firstn. apply IH.
Qed.

(** coefficient form *)
Lemma poly_lift r b n co : pairwise_coprime (r_mods r) -> (n <= length (r_mods r))%nat -> (n <= length co)%nat ->
  (forall j, (j < n)%nat -> length (nth j co []) = r_N r /\ forall x, (x < r_N r)%nat -> 0 <= nth x (nth j co []) 0 < b (qj r j)) ->
  exists A, prep r b n co A.
Proof.
  intros Hp Hn Hc H. destruct (crt_poly (r_mods r) (fun j x => nth x (nth j co []) 0) Hp) as (A & HA).
  exists A. split; [auto|]. split; [auto|]. intros j Hj. destruct (H j Hj) as [HL HW]. split; [auto|]. intros x Hx. split; [auto|].
  apply cong_sym. apply (HA j x). lia.
Qed.

(** NTT form over Q and P jointly *)
Definition reduced (ms : list Z) (N : nat) (co : list (list Z)) : Prop :=
  forall j, (j < length ms)%nat -> length (nth j co []) = N /\ forall x, (x < N)%nat -> 0 <= nth x (nth j co []) 0 < nth j ms 0.
Lemma qp_lift pp x : params_ok pp -> plen (qQ x) = QCount pp -> plen (qP x) = PCount pp ->
  reduced (pa_Q pp) (pa_N pp) (p_co (qQ x)) -> reduced (pa_P pp) (pa_N pp) (p_co (qP x)) ->
  exists A, qrep pp (maxLevel pp) x A.
Proof.
  intros Hpp LQ LP HQ HP. pose proof (good_all _ _ (po_good _ Hpp)) as HC. set (nq := QCount pp).
  destruct (crt_poly (pa_Q pp ++ pa_P pp) (fun j => if (j <? nq)%nat then lpoly (InvNTT (pa_logN pp) (nth j (pa_Q pp) 0) (nth j (pa_psiQ pp) 0) (nth j (p_co (qQ x)) []))
      else lpoly (InvNTT (pa_logN pp) (nth (j - nq) (pa_P pp) 0) (nth (j - nq) (pa_psiP pp) 0) (nth (j - nq) (p_co (qP x)) []))) HC) as (A & HA).
  exists A. assert (HQ1 : (maxLevel pp + 1 = QCount pp)%nat) by (unfold maxLevel; pose proof (po_Q _ Hpp); lia). unfold QCount, PCount, plen in *. split.
  - rewrite HQ1. split; [cbn [r_mods ringQ]; lia|]. split; [lia|]. intros j Hj. destruct (HQ j ltac:(auto)) as [HL HW]. split; [exact HL|]. intros i Hi. split; [now apply HW|].
    pose proof (ro_nm _ (po_rQ _ Hpp) j ltac:(cbn; auto)) as Hnm. cbn [r_logN r_mods r_psi ringQ] in *.
    rewrite (nttf_surj _ _ _ Hnm (nth j (p_co (qQ x)) []) i Hi). apply nttf_peq. intros k Hk. apply cong_sym. specialize (HA j k).
    rewrite app_nth1 in HA by auto. destruct (Nat.ltb_spec j nq); [|subst nq; lia]. apply HA. rewrite app_length. lia.
  - unfold PCount. split; [cbn [r_mods ringP]; lia|]. split; [lia|]. intros j Hj. destruct (HP j ltac:(auto)) as [HL HW]. split; [exact HL|]. intros i Hi. split; [now apply HW|].
    pose proof (ro_nm _ (po_rP _ Hpp) j ltac:(cbn; auto)) as Hnm. cbn [r_logN r_mods r_psi ringP] in *.
    rewrite (nttf_surj _ _ _ Hnm (nth j (p_co (qP x)) []) i Hi). apply nttf_peq. intros k Hk. apply cong_sym. specialize (HA (nq + j)%nat k). subst nq.
    rewrite app_nth2 in HA by lia. replace (length (pa_Q pp) + j - length (pa_Q pp))%nat with j in HA by lia.
    destruct (Nat.ltb_spec (length (pa_Q pp) + j) (length (pa_Q pp))); [lia|]. replace (length (pa_Q pp) + j - length (pa_Q pp))%nat with j in HA by lia. apply HA. rewrite app_length. lia.
Qed.
