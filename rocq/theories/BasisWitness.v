(** Concrete runs of the basis extension that contradict its documentation, and the range theorem. *)
From Coq Require Import String ZArith Znumtheory List Bool Lia.
From Verif Require Import Spec SpecProofs Pock Go Arith GoProofs LattigoProofs F64 BasisExt BasisExtProofs ModDownProofs Params KSProofs BasisSpec Shipped.
Import ListNotations.
Local Open Scope Z_scope.

Ltac ex_ok := match goal with |- exists out, ?t = Ok out /\ _ => let v := eval vm_compute in t in match v with Ok ?o => exists o end end.

(** four primes whose product exceeds 2^53, value Q-1 *)
Definition w7Q : list Z := [65537; 786433; 5767169; 7340033].
Definition w7P : list Z := [257].
Lemma w7_primes : ntt_primes (w7Q ++ w7P).
Proof. apply ntt_primes_b; [apply nodup_b_ok|]; vm_compute; reflexivity. Qed.
Lemma C07_inexact_lemma : exists Q P pol X, ntt_primes (Q ++ P) /\ rns_words 1 pol /\ List.length pol = List.length Q /\
  0 <= X < product Q /\ (forall i, (i < List.length Q)%nat -> eqm (modulus Q i) X (word pol i 0)) /\
  exists out, ModUpQtoP (NewFastBasisExtender Q P) (List.length Q - 1) 0 pol = Ok out /\ ~ eqm (modulus P 0) (word out 0 0) X.
Proof.
  exists w7Q, w7P, (map (fun q => [q - 1]) w7Q), (product w7Q - 1). split; [exact w7_primes|].
  split; [repeat constructor; lia|]. split; [reflexivity|]. split; [vm_compute; split; discriminate || reflexivity|]. split.
  - intros i Hi. do 4 (destruct i as [|i]; [vm_compute; reflexivity|]). cbn in Hi. lia.
  - ex_ok. split; [vm_compute; reflexivity|]. vm_compute. discriminate.
Qed.

(** eight 60-bit primes: a returned word of 2p or more *)
Definition w7bcert : list (Z * list entry) :=
  [(1152921092289986561, [(2, 36%nat, 3)]); (1152920989210771457, [(2, 34%nat, 3)]); (1152920783052341249, [(2, 34%nat, 3)]);
   (1152920731512733697, [(2, 33%nat, 3)]); (1152920499584499713, [(2, 32%nat, 3)]); (1152920267656265729, [(2, 36%nat, 3)]);
   (1152920198936788993, [(2, 35%nat, 5)]); (1152919855339405313, [(2, 38%nat, 3)]); (1152919760850124801, [(2, 32%nat, 11)])].
Definition w7bQ : list Z := firstn 8 (map fst w7bcert).
Definition w7bP : list Z := skipn 8 (map fst w7bcert).
Definition w7bX : Z := 410980456293438371511367991911027814354108630349955281454643236193593711483221174625081583876939244830481814623853245878598089303883382991958453.
Lemma w7b_primes : ntt_primes (w7bQ ++ w7bP).
Proof.
  split; [apply nodup_b_ok; vm_compute; reflexivity|]. apply Forall_forall. intros q Hq.
  change (w7bQ ++ w7bP) with (map fst w7bcert) in Hq. apply in_map_iff in Hq as ([n cs] & <- & Hin). cbn [fst].
  assert (H : forallb (fun c => cert_b c && (2 <? fst c) && (fst c <? 2 ^ 61)) w7bcert = true) by (vm_compute; reflexivity).
  rewrite forallb_forall in H. specialize (H _ Hin). rewrite !andb_true_iff, !Z.ltb_lt in H. destruct H as [[H1 H2] H3]. cbn [fst] in *.
  split; [now apply (cert_prime _ cs)|lia].
Qed.
Lemma C07_range_lemma : exists Q P pol, ntt_primes (Q ++ P) /\ rns_words 1 pol /\ List.length pol = List.length Q /\
  (forall i, (i < List.length Q)%nat -> word pol i 0 < modulus Q i) /\
  exists out, ModUpQtoP (NewFastBasisExtender Q P) (List.length Q - 1) 0 pol = Ok out /\ 2 * modulus P 0 - 1 < word out 0 0.
Proof.
  exists w7bQ, w7bP, (map (fun q => [w7bX mod q]) w7bQ). split; [exact w7b_primes|]. split; [|split; [|split]].
  - repeat (constructor; [split; [reflexivity|constructor; [vm_compute; split; discriminate || reflexivity|constructor]]|]). constructor.
  - reflexivity.
  - intros i Hi. do 8 (destruct i as [|i]; [vm_compute; reflexivity|]). cbn in Hi. lia.
  - ex_ok. split; [vm_compute; reflexivity|]. vm_compute. reflexivity.
Qed.
(** the range that does hold: c + 2 moduli when len(Q) * max q <= c * 2^64 *)
Lemma C07_bound_lemma Q P levelQ levelP N pol c m out : ntt_primes (Q ++ P) -> (levelQ < List.length Q)%nat -> (levelP < List.length P)%nat -> rns_words N pol ->
  (levelQ < List.length pol)%nat -> (levelQ < 32)%nat -> 0 <= c <= 4 -> Forall (fun q => q <= m) Q -> (Z.of_nat levelQ + 1) * m <= c * 2 ^ 64 ->
  ModUpQtoP (NewFastBasisExtender Q P) levelQ levelP pol = Ok out ->
  forall j x, (j <= levelP)%nat -> (x < N)%nat -> 0 <= word out j x < (c + 2) * modulus P j.
Proof.
  intros G HQ HP Hw Hl H32 Hc Hm Hb E j x Hj Hx. apply rns_words_ok in Hw as [Hw HN]. pose proof (ntt_good _ _ G) as GM. pose proof (NewFastBasisExtender_ok Q P GM) as EE.
  destruct (ModUpQtoP_ok Q P _ levelQ levelP N pol GM EE) as (p2 & Y & E2 & R1 & R2 & R3 & R4 & R5); auto. rewrite E in E2. injection E2 as <-.
  destruct (R5 j ltac:(lia)) as [RL RB]. unfold word, modulus. split.
  - apply (limb_of_nth _ _ _ _ RL). lia.
  - apply (RB c m); auto. now apply Forall_firstn. rewrite W_val. change (2 ^ 64) with 18446744073709551616 in Hb. lia.
Qed.

(** C08: the quotient is rounded down, not to the nearest integer *)
Lemma C08_refuted_lemma : exists Q P pQ pP X, ntt_primes (Q ++ P) /\ 0 <= X < product (Q ++ P) /\
  (forall i, (i < List.length Q)%nat -> word pQ i 0 = X mod modulus Q i) /\ (forall j, (j < List.length P)%nat -> word pP j 0 = X mod modulus P j) /\
  exists out, ModDownQPtoQ (NewFastBasisExtender Q P) (List.length Q - 1) (List.length P - 1) pQ pP = Ok out /\
    word out 0 0 = (X / product P) mod modulus Q 0 /\ ~ eqm (modulus Q 0) (word out 0 0) ((2 * X + product P) / (2 * product P)).
Proof.
  exists toyQ, toyP, (map (fun q => [86608 mod q]) toyQ), (map (fun q => [86608 mod q]) toyP), 86608. split; [exact toy_primes|].
  split; [vm_compute; split; discriminate || reflexivity|]. split; [|split].
  - intros i Hi. do 4 (destruct i as [|i]; [vm_compute; reflexivity|]). cbn in Hi. lia.
  - intros i Hi. do 2 (destruct i as [|i]; [vm_compute; reflexivity|]). cbn in Hi. lia.
  - ex_ok. split; [vm_compute; reflexivity|]. split; [vm_compute; reflexivity|]. vm_compute. discriminate.
Qed.
(** C09: with different levels the wrong inverse is used *)
Lemma C09_refuted_lemma : exists Q P levelQ levelP pQ pP X, ntt_primes (Q ++ P) /\ (levelQ < List.length Q)%nat /\ (levelP < List.length P)%nat /\ levelQ <> levelP /\
  (forall i, (i <= levelQ)%nat -> word pQ i 0 = X mod modulus Q i) /\ (forall j, (j <= levelP)%nat -> word pP j 0 = X mod modulus P j) /\
  let B := product (firstn (levelQ + 1) Q) in B < 2 ^ 42 * (X mod B) /\ B < 2 ^ 42 * (B - X mod B) /\
  exists out, ModDownQPtoP (NewFastBasisExtender Q P) levelQ levelP pQ pP = Ok out /\ ~ eqm (modulus P 0) (word out 0 0) (X / B).
Proof.
  exists toyQ, toyP, 0%nat, 1%nat, [[9750 mod 97]], (map (fun q => [9750 mod q]) toyP), 9750. split; [exact toy_primes|].
  split; [cbn; lia|]. split; [cbn; lia|]. split; [lia|]. split; [|split].
  - intros i Hi. destruct i as [|i]; [vm_compute; reflexivity|]. lia.
  - intros i Hi. do 2 (destruct i as [|i]; [vm_compute; reflexivity|]). lia.
  - cbv zeta. split; [vm_compute; reflexivity|]. split; [vm_compute; reflexivity|].
    ex_ok. split; [vm_compute; reflexivity|]. vm_compute. discriminate.
Qed.
