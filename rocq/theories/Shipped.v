(** The parameter set PN15QP880 of /repo/lr/lr.go:40-56 (the same literal in lr_toy.go,
    lr_minibatch.go and lr_minibatch_toy.go) with gamma = 2 (mkckks/params.go:21): ring degree
    2^15, 21 ciphertext primes, 2 special primes.  It shows that the hypotheses of the theorems are
    met by the parameters the programs run with.  The 2^16-th roots of unity are not in the literal:
    lattigo derives one per prime; any choice gives an isomorphic transform. *)
From Coq Require Import ZArith Znumtheory List Lia Bool.
From Verif Require Import Arith GoProofs Lattigo LattigoProofs F64 BasisExt BasisExtProofs ModDownProofs NTT NTTProofs RingOps RingOpsProofs Params KSProofs Spec SpecProofs Pock.
Import ListNotations.
Local Open Scope Z_scope.

(** lr.go:43-50 *)
Definition shippedQ : list Z := [36028797019488257; 274879414273; 274880987137; 274876334081;
   274881052673; 274882035713; 274874695681; 274882428929;
   274873778177; 274882756609; 274873188353; 274873122817;
   274883215361; 274872795137; 274883411969; 274872598529;
   274883543041; 274883739649; 274869583873; 274884919297;
   274885378049].
(** lr.go:51-52 *)
Definition shippedP : list Z := [1125899908612097; 1125899909398529].
Definition shipped_psiQ : list Z := [35815928566404894; 4182193736; 22993716690; 237730546360;
   200729638121; 204276114564; 233357201812; 141275987057;
   261178253158; 81013283548; 153498959650; 16691891318;
   127183163269; 252814442088; 43522412639; 12312243121;
   116138262967; 45410148734; 271047399531; 235506622799;
   265245836815].
Definition shipped_psiP : list Z := [535551717800958; 1084172711437224].
Definition shipped : params := mkParams 15 shippedQ shippedP shipped_psiQ shipped_psiP 2 [].

Definition shipped_certs : list (Z * list entry) := [(36028797019488257, [(2, 18%nat, 3); (17, 0%nat, 2); (241, 0%nat, 2)]);
   (274879414273, [(2, 15%nat, 5); (3, 0%nat, 2); (47, 0%nat, 2)]);
   (274880987137, [(2, 15%nat, 5); (3, 1%nat, 2)]);
   (274876334081, [(2, 18%nat, 3)]);
   (274881052673, [(2, 19%nat, 3)]);
   (274882035713, [(2, 15%nat, 3); (53, 0%nat, 2)]);
   (274874695681, [(2, 15%nat, 7); (3, 0%nat, 2); (5, 0%nat, 3)]);
   (274882428929, [(2, 15%nat, 3); (541, 0%nat, 2)]);
   (274873778177, [(2, 15%nat, 3); (29, 0%nat, 2)]);
   (274882756609, [(2, 16%nat, 7); (3, 1%nat, 2)]);
   (274873188353, [(2, 18%nat, 3)]);
   (274873122817, [(2, 15%nat, 5); (3, 0%nat, 2); (19, 0%nat, 2)]);
   (274883215361, [(2, 15%nat, 3); (5, 0%nat, 2); (13, 0%nat, 2)]);
   (274872795137, [(2, 16%nat, 3); (733, 0%nat, 2)]);
   (274883411969, [(2, 17%nat, 3); (11, 0%nat, 2)]);
   (274872598529, [(2, 15%nat, 3); (11, 1%nat, 2)]);
   (274883543041, [(2, 16%nat, 11); (3, 0%nat, 5); (5, 0%nat, 2)]);
   (274883739649, [(2, 15%nat, 11); (3, 0%nat, 2); (7, 0%nat, 2)]);
   (274869583873, [(2, 15%nat, 5); (3, 0%nat, 2); (13, 0%nat, 2)]);
   (274884919297, [(2, 15%nat, 5); (3, 0%nat, 2); (13, 1%nat, 2)]);
   (274885378049, [(2, 16%nat, 3); (23, 0%nat, 2)]);
   (1125899908612097, [(2, 15%nat, 3); (109, 0%nat, 2); (157613479, 0%nat, 2)]);
   (1125899909398529, [(2, 15%nat, 3); (11, 0%nat, 2); (14479, 0%nat, 2)])].
Lemma shipped_cert : map fst shipped_certs = shippedQ ++ shippedP /\ forallb cert_b shipped_certs = true.
Proof. split; vm_compute; reflexivity. Qed.
Lemma shipped_prime q : In q (shippedQ ++ shippedP) -> prime q.
Proof.
  destruct shipped_cert as [E H]. rewrite <- E. intros Hin. apply in_map_iff in Hin as ([n cs] & <- & Hin).
  rewrite forallb_forall in H. apply (cert_prime _ cs). apply (H _ Hin).
Qed.
Lemma shipped_primes : ntt_primes (shippedQ ++ shippedP).
Proof.
  split; [apply nodup_b_ok; vm_compute; reflexivity|]. apply Forall_forall. intros q Hq. split; [now apply shipped_prime|].
  assert (H : forallb (fun q => (2 <? q) && (q <? 2 ^ 61)) (shippedQ ++ shippedP) = true) by (vm_compute; reflexivity).
  rewrite forallb_forall in H. specialize (H q Hq). rewrite andb_true_iff, !Z.ltb_lt in H. exact H.
Qed.

(** checker for the roots of unity *)
Definition psi_b (logN : nat) (q psi : Z) : bool := (0 <=? psi) && (powmod psi (2 ^ Pos.of_nat logN) q =? q - 1).
Lemma pos_pow2 k : (1 <= k)%nat -> Zpos (2 ^ Pos.of_nat k) = 2 ^ Z.of_nat k.
Proof. intros H. rewrite Pos2Z.inj_pow. f_equal. destruct k; [lia|]. rewrite <- Pos.of_nat_succ || idtac. lia. Qed.
Lemma psi_b_ok logN q psi : (1 <= logN <= 30)%nat -> prime q -> 2 < q < 2 ^ 61 -> psi_b logN q psi = true -> ntt_mod logN q psi.
Proof.
  intros HL Hp Hq H. unfold psi_b in H. rewrite andb_true_iff, Z.leb_le, Z.eqb_eq in H. destruct H as [H1 H2].
  assert (Hm : mod61 q).
  { assert (G : ntt_primes [q]) by (split; [constructor; [easy|constructor]|constructor; auto]). destruct (ntt_good [q] [] G) as [GQ _ _ _ _]. now inversion_clear GQ. }
  constructor; auto; [|lia]. pose proof (powmod_ok psi (2 ^ Pos.of_nat logN) q ltac:(lia)) as E.
  rewrite H2, pos_pow2 in E by lia. unfold deg. rewrite Nat2Z.inj_pow. cbn [Z.of_nat Pos.of_succ_nat Pos.succ]. change (Z.pos 2) with 2.
  rewrite <- E. exists 1. ring.
Qed.
Lemma rings_ok logN Q psi : (1 <= logN <= 30)%nat -> length psi = length Q -> Forall (fun q => prime q /\ 2 < q < 2 ^ 61) Q ->
  forallb (fun '(q, p) => psi_b logN q p) (combine Q psi) = true -> ring_ok (mkRing logN Q psi).
Proof.
  intros HL Hl HQ H. constructor; cbn [r_mods r_psi r_logN]; auto. intros j Hj.
  rewrite Forall_forall in HQ. destruct (HQ (nth j Q 0)) as [Hp Hb]; [now apply nth_In|]. apply psi_b_ok; auto.
  rewrite forallb_forall in H. apply (H (nth j Q 0, nth j psi 0)). rewrite <- combine_nth by auto. apply nth_In. rewrite combine_length. lia.
Qed.
Definition params_b (pp : params) : bool :=
  (1 <=? pa_logN pp)%nat && (pa_logN pp <=? 30)%nat && Nat.eqb (length (pa_psiQ pp)) (QCount pp) && Nat.eqb (length (pa_psiP pp)) (PCount pp) &&
  forallb (fun '(q, p) => psi_b (pa_logN pp) q p) (combine (pa_Q pp) (pa_psiQ pp)) &&
  forallb (fun '(q, p) => psi_b (pa_logN pp) q p) (combine (pa_P pp) (pa_psiP pp)) &&
  (0 <? pa_gamma pp)%nat && (1 <=? Alpha pp)%nat && (Alpha pp <=? 32)%nat &&
  (Nat.eqb (Alpha pp) 1 || Nat.eqb (pa_gamma pp * Alpha pp) (PCount pp)) && (1 <=? PCount pp)%nat && (PCount pp <=? 32)%nat &&
  (1 <=? QCount pp)%nat && (Z.of_nat (QCount pp) <? 2 ^ 52).
Lemma params_b_ok pp : ntt_primes (pa_Q pp ++ pa_P pp) -> params_b pp = true -> params_ok pp.
Proof.
  intros G H. unfold params_b in H. rewrite !andb_true_iff, orb_true_iff, !Nat.leb_le, !Nat.ltb_lt, !Nat.eqb_eq, Z.ltb_lt in H.
  pose proof G as [_ HF]. rewrite Forall_app in HF.
  constructor; try tauto; try lia; [now apply ntt_good|apply rings_ok; tauto || (try lia)..].
Qed.
Lemma shipped_ok : params_ok shipped.
Proof. apply params_b_ok; [exact shipped_primes|vm_compute; reflexivity]. Qed.

(** a small parameter set: ring degree 8, primes congruent to 1 modulo 16 *)
Definition toyQ : list Z := [97; 113; 193; 241].
Definition toyP : list Z := [257; 337].
Definition toy (gamma : nat) : params := mkParams 3 toyQ toyP [8; 40; 64; 111] [249; 191] gamma [].
Lemma toy_primes : ntt_primes (toyQ ++ toyP).
Proof. apply ntt_primes_b; [apply nodup_b_ok|]; vm_compute; reflexivity. Qed.
(** alpha = 2 and alpha = 1 *)
Lemma toy1_ok : params_ok (toy 1). Proof. apply params_b_ok; [exact toy_primes|vm_compute; reflexivity]. Qed.
Lemma toy2_ok : params_ok (toy 2). Proof. apply params_b_ok; [exact toy_primes|vm_compute; reflexivity]. Qed.
