(** Proofs of C76. *)
From Coq Require Import String ZArith List Lia Bool SpecFloat.
From Verif Require Import Spec Go F64 Arith NegRing NTT RingOps Params Elements KeySwitch KeySets KeyGen Repr KeyGenProofs KeyThms KeySpec SpecKeys Shipped Samplers SpecSamplers.
Import ListNotations.
Local Open Scope Z_scope.

Definition tv (p : bool * bool) : Z := if fst p then if snd p then -1 else 1 else 0.
Lemma coeffs_ternary d : coefficients (ternary d) = map tv d.
Proof. unfold coefficients, ternary. rewrite map_map. apply map_ext. intros [[] []]; reflexivity. Qed.
Lemma filter_map_len {A B} (g : A -> B) (f : B -> bool) l : length (filter f (map g l)) = length (filter (fun a => f (g a)) l).
Proof. induction l as [|a l IH]; [reflexivity|]. cbn. destruct (f (g a)); cbn; auto. Qed.
Lemma count_S n f : outcomes_with (S n) f = outcomes_with n (fun d => f ((false, false) :: d)) + outcomes_with n (fun d => f ((false, true) :: d)) + outcomes_with n (fun d => f ((true, false) :: d)) + outcomes_with n (fun d => f ((true, true) :: d)).
Proof. unfold outcomes_with. cbn [outcomes flat_map]. rewrite app_nil_r, !filter_app, !app_length, !filter_map_len. unfold prngBits in *. lia. Qed.
Lemma count_ext n f g : (forall d, f d = g d) -> outcomes_with n f = outcomes_with n g.
Proof. intros H. unfold outcomes_with. now rewrite (filter_ext f g H). Qed.
Lemma count_false n f : (forall d, f d = false) -> outcomes_with n f = 0.
Proof. intros H. rewrite (count_ext n f (fun _ => false) H). unfold outcomes_with. induction (outcomes n); cbn; auto. Qed.
Lemma count_all n : outcomes_with n (fun _ => true) = 4 ^ Z.of_nat n.
Proof. induction n as [|n IH]; [reflexivity|]. rewrite count_S, !IH, Nat2Z.inj_succ, Z.pow_succ_r by lia. lia. Qed.
Lemma outcomes_in n d : In d (outcomes n) <-> length d = n.
Proof.
  revert d. induction n as [|n IH]; intros d; cbn [outcomes].
  - split; [intros [<-|[]]; reflexivity|]. destruct d; [now left|discriminate].
  - rewrite in_flat_map. split.
    + intros (p & _ & H). apply in_map_iff in H as (d' & <- & H). cbn. f_equal. now apply IH.
    + destruct d as [|p d]; [discriminate|]. intros H. exists p. split; [destruct p as [[] []]; cbn; auto|]. apply in_map. apply IH. now injection H.
Qed.
Lemma outcomes_nodup n : NoDup (outcomes n).
Proof.
  induction n as [|n IH]; cbn [outcomes]; [repeat constructor; auto|]. cbn [flat_map]. rewrite app_nil_r.
  assert (M : forall p, NoDup (map (cons p) (outcomes n))) by (intros p; apply FinFun.Injective_map_NoDup; [intros a b E; now injection E|exact IH]).
  assert (D : forall l1 l2 : list prngBits, NoDup l1 -> NoDup l2 -> (forall x, In x l1 -> ~ In x l2) -> NoDup (l1 ++ l2)).
  { induction l1 as [|a l1 IHl]; intros l2 H1 H2 H; [exact H2|]. inversion_clear H1. cbn. constructor; [rewrite in_app_iff; intros [X|X]; [auto|exact (H a (or_introl eq_refl) X)]|]. apply IHl; auto. intros x Hx. apply H. now right. }
  repeat apply D; auto; intros x Hx; apply in_map_iff in Hx as (y & <- & _); rewrite ?in_app_iff, ?in_map_iff; intros X; repeat destruct X as [X|X]; destruct X as (z & E & _); discriminate.
Qed.
Lemma joint_thm n t : length t = n -> Forall (fun x => x = -1 \/ x = 0 \/ x = 1) t ->
  outcomes_with n (fun d => same (coefficients (ternary d)) t) = 2 ^ zeros t /\ outcomes_with n (fun _ => true) = 4 ^ Z.of_nat n.
Proof.
  intros HL HF. split; [|apply count_all]. revert n HL. induction HF as [|x t Hx HF IH]; intros n HL; cbn in HL; subst n; [reflexivity|]. specialize (IH _ eq_refl). rewrite count_S.
  assert (S1 : forall p (d : prngBits), same (coefficients (ternary (p :: d))) (x :: t) = Z.eqb (tv p) x && same (coefficients (ternary d)) t).
  { intros p d. rewrite !coeffs_ternary. cbn [map]. unfold same. destruct (list_eq_dec Z.eq_dec (tv p :: map tv d) (x :: t)) as [E|E].
    - pose proof (f_equal (hd 0) E) as E1. pose proof (f_equal (@tl Z) E) as E2. cbn [hd tl] in E1, E2. apply Z.eqb_eq in E1. rewrite E1, E2. destruct (list_eq_dec Z.eq_dec t t); [reflexivity|contradiction].
    - destruct (Z.eqb_spec (tv p) x) as [E1|]; [|reflexivity]. destruct (list_eq_dec Z.eq_dec (map tv d) t) as [E2|]; [|reflexivity]. exfalso. apply E. now f_equal. }
  rewrite !(count_ext _ _ _ (S1 _)). unfold tv. cbn [fst snd]. unfold zeros in *. cbn [filter].
  destruct Hx as [-> | [-> | ->]]; cbn [Z.eqb Pos.eqb andb]; rewrite ?(count_false _ (fun _ => false)) by reflexivity; cbn [length]; rewrite ?Nat2Z.inj_succ, ?Z.pow_succ_r by lia; rewrite <- ?IH; unfold prngBits in *; lia.
Qed.
Lemma marginal_thm n i v : (i < n)%nat -> v = -1 \/ v = 0 \/ v = 1 ->
  outcomes_with n (fun d => Z.eqb (nth i (coefficients (ternary d)) 5) v) * (if v =? 0 then 2 else 4) = outcomes_with n (fun _ => true).
Proof.
  intros Hi Hv. rewrite count_all. revert i Hi. induction n as [|n IH]; intros i Hi; [lia|]. rewrite Nat2Z.inj_succ, Z.pow_succ_r by lia. rewrite count_S. destruct i as [|i].
  - assert (X : forall p (d : prngBits), Z.eqb (nth 0 (coefficients (ternary (p :: d))) 5) v = Z.eqb (tv p) v). { intros p d. rewrite coeffs_ternary. reflexivity. }
    rewrite !(count_ext _ _ _ (X _)). unfold tv. cbn [fst snd]. destruct Hv as [-> | [-> | ->]]; cbn [Z.eqb Pos.eqb]; rewrite ?(count_false _ (fun _ => false)) by reflexivity; rewrite ?count_all; lia.
  - assert (X : forall p (d : prngBits), Z.eqb (nth (S i) (coefficients (ternary (p :: d))) 5) v = Z.eqb (nth i (coefficients (ternary d)) 5) v). { intros p d. rewrite !coeffs_ternary. reflexivity. }
    rewrite <- (IH i ltac:(lia)).
    set (c := outcomes_with n (fun d => nth i (coefficients (ternary d)) 5 =? v)). transitivity ((c + c + c + c) * (if v =? 0 then 2 else 4)); [|ring].
    reflexivity.
Qed.
Lemma third_thm n i v : (i < n)%nat -> 3 * outcomes_with n (fun d => Z.eqb (nth i (coefficients (ternary d)) 5) v) <> outcomes_with n (fun _ => true).
Proof.
  intros Hi E. rewrite count_all in E. assert (Hp : forall k : nat, (4 ^ Z.of_nat k) mod 3 = 1). { induction k as [|k IH]; [reflexivity|]. rewrite Nat2Z.inj_succ, Z.pow_succ_r by lia. rewrite Z.mul_mod, IH by lia. reflexivity. }
  specialize (Hp n). rewrite <- E, Z.mul_comm, Z.mod_mul in Hp by lia. discriminate.
Qed.
Lemma ternary_ok n d : length d = n -> small_ok n 1 (ternary d).
Proof. intros <-. split; [apply map_length|]. apply Forall_forall. intros x Hx. apply in_map_iff in Hx as ([[] []] & <- & _); cbn; lia. Qed.
Lemma key_thm pp : params_ok pp -> bound_ok pp 1 -> forall d id, length d = pa_N pp -> exists sk, GenSecretKey pp d id = Ok sk /\ sk_ID sk = id /\ sk_is pp sk (fun i => nth i (coefficients (ternary d)) 0) /\
  pnorm_le (pa_N pp) (fun i => nth i (coefficients (ternary d)) 0) 1 /\ (forall c, In (false, c) (ternary d) -> 0 < c) /\ forall i, nth i (coefficients (ternary d)) 0 = match nth_error d i with Some (true, false) => 1 | Some (true, true) => -1 | _ => 0 end.
Proof.
  intros Hpp HB d id HL. destruct (genSecretKey_ok pp Hpp (ternary d) 1 id HB (ternary_ok _ _ HL)) as (sk & E & E1 & Hs). exists sk. split; [exact E|]. split; [exact E1|].
  assert (X : forall i, nth i (coefficients (ternary d)) 0 = match nth_error d i with Some (true, false) => 1 | Some (true, true) => -1 | _ => 0 end).
  { rewrite coeffs_ternary. clear. induction d as [|p d IH]; intros [|i]; cbn; auto. destruct p as [[] []]; reflexivity. }
  assert (Y : forall i, smallpoly (ternary d) i = nth i (coefficients (ternary d)) 0).
  { intros i. rewrite X. unfold smallpoly, ternary. clear. revert i. induction d as [|p d IH]; intros [|i]; cbn [map nth nth_error]; auto. destruct p as [[] []]; reflexivity. }
  split; [|split; [|split; [|exact X]]].
  - destruct Hs as [[A B] C]. split; [|exact C]. assert (Z' : forall m, peq (pa_N pp) m (pscale W (smallpoly (ternary d))) (pscale W (fun i => nth i (coefficients (ternary d)) 0))) by (intros m i _; apply cong_eq; unfold pscale; now rewrite Y).
    split; (eapply RingOpsProofs.nrep_peq; [| |first [exact A|exact B]]); [apply (po_rQ _ Hpp)| |apply (po_rP _ Hpp)|]; intros j _; apply Z'.
  - intros i Hi. rewrite X. destruct (nth_error d i) as [[[] []]|]; cbn; lia.
  - intros c Hc. apply in_map_iff in Hc as ([[] []] & Ec & _); vm_compute in Ec; try discriminate Ec. injection Ec as <-. lia.
Qed.
Lemma bound_thm : (exists m, DefaultSigma = S754_finite false m (-51) /\ 2 ^ 52 <= Zpos m < 2 ^ 53 /\ 2 * Z.abs (5 * Zpos m - 16 * 2 ^ 51) <= 5) /\ errBound DefaultSigma = 19 /\ forall pp, pa_Q pp = shippedQ -> pa_P pp = shippedP -> bound_ok pp (errBound DefaultSigma) /\ bound_ok pp 1.
Proof.
  assert (E : errBound DefaultSigma = 19) by (vm_compute; reflexivity). split; [eexists; split; [vm_compute; reflexivity|split; [lia|vm_compute; discriminate]]|]. split; [exact E|]. intros pp HQ HP. rewrite E. unfold bound_ok. rewrite HQ, HP. split; (split; [lia|]); apply Forall_forall; intros q Hq.
  - assert (X : forallb (fun q => 2 * 19 <? q) (shippedQ ++ shippedP) = true) by (vm_compute; reflexivity). rewrite forallb_forall in X. apply Z.ltb_lt. now apply X.
  - assert (X : forallb (fun q => 2 * 1 <? q) (shippedQ ++ shippedP) = true) by (vm_compute; reflexivity). rewrite forallb_forall in X. apply Z.ltb_lt. now apply X.
Qed.
