(** Properties C01, C05 - C11, C40, C50: identifier sets, basis extension, gadget decomposition,
    gadget shape.  The vocabulary is in Spec.v. *)
From Coq Require Import String ZArith Znumtheory List Bool Lia.
From Verif Require Import Spec Go F64 BasisExt NTT RingOps Maps Params KSProofs ParamsProofs Shipped IDSetSpec BasisSpec DownLevels DecompSpec ParamsSpec BasisWitness.
Import ListNotations.
Local Open Scope Z_scope.

(** C01: any program of IDSet calls on numbered variables, under any map iteration orders, either adds "0" somewhere
    and panics, or computes the same sets as on mathematical sets, with their cardinality. *)
Theorem C01_idset : forall (os : nat -> order) (l : list idop), (forall k, order_ok (os k)) ->
  ((exists p, In p l /\ adds_zero p) /\ idrun os l = Panic (PMsg "Cannot IDSet Add : 0 cannot be used")) \/
  ((forall p, In p l -> ~ adds_zero p) /\ exists s n, idrun os l = Ok (s, n) /\
     forall r, (forall x, idHas (s r) x = true <-> setrun l r x) /\ ~ setrun l r "0"%string /\
       exists L, enumerates L (setrun l r) /\ idSize (s r) = List.length L).
Proof. exact C01_lemma. Qed.
Print Assumptions C01_idset.

(** C05 *)
Theorem C05_tables : forall Q P, ntt_primes (Q ++ P) ->
  let b := NewFastBasisExtender Q P in
  (forall i, (i < List.length Q)%nat -> exists t, nth_error (paramsQtoP b) i = Some t /\ modup_tables_correct (firstn (i + 1) Q) P t) /\
  (forall i, (i < List.length P)%nat -> exists t, nth_error (paramsPtoQ b) i = Some t /\ modup_tables_correct (firstn (i + 1) P) Q t) /\
  moddown_table_correct Q P (modDownPtoQ b) /\ moddown_table_correct P Q (modDownQtoP b).
Proof. exact C05_lemma. Qed.
Print Assumptions C05_tables.
Example C05_shipped : ntt_primes (shippedQ ++ shippedP). Proof. exact shipped_primes. Qed.

(** C06 *)
Theorem C06_modup : forall Q P levelQ levelP N pol,
  ntt_primes (Q ++ P) -> (levelQ < List.length Q)%nat -> (levelP < List.length P)%nat -> rns_words N pol ->
  ((levelQ < List.length pol)%nat -> (levelQ < 32)%nat ->
     exists out, ModUpQtoP (NewFastBasisExtender Q P) levelQ levelP pol = Ok out /\ modup_correct Q P (levelQ + 1) (levelP + 1) N pol out) /\
  ((levelP < List.length pol)%nat -> (levelP < 32)%nat ->
     exists out, ModUpPtoQ (NewFastBasisExtender Q P) levelP levelQ pol = Ok out /\ modup_correct P Q (levelP + 1) (levelQ + 1) N pol out).
Proof. exact C06_lemma. Qed.
Print Assumptions C06_modup.
Example C06_case : ntt_primes (shippedQ ++ shippedP) /\ rns_words 2 (map (fun q => [q - 1; 5]) shippedQ) /\ List.length shippedQ = 21%nat.
Proof. split; [exact shipped_primes|]. split; [|reflexivity]. repeat (constructor; [split; [reflexivity|repeat constructor; vm_compute; discriminate || reflexivity]|]). constructor. Qed.

(** C07: the documented exactness and range fail; the range that holds *)
Theorem C07_exactness_refuted : exists Q P pol X, ntt_primes (Q ++ P) /\ rns_words 1 pol /\ List.length pol = List.length Q /\
  0 <= X < product Q /\ (forall i, (i < List.length Q)%nat -> eqm (modulus Q i) X (word pol i 0)) /\
  exists out, ModUpQtoP (NewFastBasisExtender Q P) (List.length Q - 1) 0 pol = Ok out /\ ~ eqm (modulus P 0) (word out 0 0) X.
Proof. exact C07_inexact_lemma. Qed.
Print Assumptions C07_exactness_refuted.
Theorem C07_documented_range_refuted : exists Q P pol, ntt_primes (Q ++ P) /\ rns_words 1 pol /\ List.length pol = List.length Q /\
  (forall i, (i < List.length Q)%nat -> word pol i 0 < modulus Q i) /\
  exists out, ModUpQtoP (NewFastBasisExtender Q P) (List.length Q - 1) 0 pol = Ok out /\ 2 * modulus P 0 - 1 < word out 0 0.
Proof. exact C07_range_lemma. Qed.
Print Assumptions C07_documented_range_refuted.
Theorem C07_range : forall Q P levelQ levelP N pol c m out,
  ntt_primes (Q ++ P) -> (levelQ < List.length Q)%nat -> (levelP < List.length P)%nat -> rns_words N pol ->
  (levelQ < List.length pol)%nat -> (levelQ < 32)%nat -> 0 <= c <= 4 -> Forall (fun q => q <= m) Q -> (Z.of_nat levelQ + 1) * m <= c * 2 ^ 64 ->
  ModUpQtoP (NewFastBasisExtender Q P) levelQ levelP pol = Ok out ->
  forall j x, (j <= levelP)%nat -> (x < N)%nat -> 0 <= word out j x < (c + 2) * modulus P j.
Proof. exact C07_bound_lemma. Qed.
Print Assumptions C07_range.
(** for the shipped chain c = 1: words stay below 3p *)
Example C07_shipped : Forall (fun q => q <= 2 ^ 56) shippedQ /\ (Z.of_nat 20 + 1) * 2 ^ 56 <= 1 * 2 ^ 64.
Proof. split; [repeat (constructor; [vm_compute; discriminate|]); constructor|vm_compute; discriminate]. Qed.

(** C08 *)
Theorem C08_moddown_floor : forall Q P levelQ levelP N pQ pP,
  ntt_primes (Q ++ P) -> (levelQ < List.length Q)%nat -> (levelP < List.length P)%nat -> (levelP < 32)%nat ->
  lazy_words Q (levelQ + 1) N pQ -> (levelP < List.length pP)%nat -> rns_words N pP ->
  exists out, ModDownQPtoQ (NewFastBasisExtender Q P) levelQ levelP pQ pP = Ok out /\ moddown_correct Q P (levelQ + 1) (levelP + 1) N pQ pP out.
Proof. exact C08_lemma. Qed.
Print Assumptions C08_moddown_floor.
Theorem C08_rounding_refuted : exists Q P pQ pP X, ntt_primes (Q ++ P) /\ 0 <= X < product (Q ++ P) /\
  (forall i, (i < List.length Q)%nat -> word pQ i 0 = X mod modulus Q i) /\ (forall j, (j < List.length P)%nat -> word pP j 0 = X mod modulus P j) /\
  exists out, ModDownQPtoQ (NewFastBasisExtender Q P) (List.length Q - 1) (List.length P - 1) pQ pP = Ok out /\
    word out 0 0 = (X / product P) mod modulus Q 0 /\ ~ eqm (modulus Q 0) (word out 0 0) ((2 * X + product P) / (2 * product P)).
Proof. exact C08_refuted_lemma. Qed.
Print Assumptions C08_rounding_refuted.
Example C08_case : lazy_words shippedQ 21 2 (map (fun q => [2 * q - 1; 7]) shippedQ) /\ rns_words 2 (map (fun q => [q; 0]) shippedP).
Proof.
  split.
  - split; [cbn; lia|]. intros j Hj. do 21 (destruct j as [|j]; [split; [reflexivity|intros [|[|x]] Hx; [vm_compute; split; discriminate || reflexivity|vm_compute; split; discriminate || reflexivity|lia]]|]). lia.
  - repeat (constructor; [split; [reflexivity|repeat constructor; vm_compute; discriminate || reflexivity]|]). constructor.
Qed.

(** C09 *)
Theorem C09_moddown_P : forall Q P lvl N pQ pP,
  ntt_primes (Q ++ P) -> (lvl < List.length Q)%nat -> (lvl < List.length P)%nat -> (lvl < 32)%nat ->
  lazy_words P (lvl + 1) N pP -> (lvl < List.length pQ)%nat -> rns_words N pQ ->
  exists out, ModDownQPtoP (NewFastBasisExtender Q P) lvl lvl pQ pP = Ok out /\ moddown_correct P Q (lvl + 1) (lvl + 1) N pP pQ out.
Proof. exact C09_lemma. Qed.
Print Assumptions C09_moddown_P.
Theorem C09_unequal_levels_refuted : exists Q P levelQ levelP pQ pP X, ntt_primes (Q ++ P) /\ (levelQ < List.length Q)%nat /\ (levelP < List.length P)%nat /\ levelQ <> levelP /\
  (forall i, (i <= levelQ)%nat -> word pQ i 0 = X mod modulus Q i) /\ (forall j, (j <= levelP)%nat -> word pP j 0 = X mod modulus P j) /\
  let B := product (firstn (levelQ + 1) Q) in B < 2 ^ 42 * (X mod B) /\ B < 2 ^ 42 * (B - X mod B) /\
  exists out, ModDownQPtoP (NewFastBasisExtender Q P) levelQ levelP pQ pP = Ok out /\ ~ eqm (modulus P 0) (word out 0 0) (X / B).
Proof. exact C09_refuted_lemma. Qed.
Print Assumptions C09_unequal_levels_refuted.
(** C09: at any two levels: the words written, and the panic when the row of the P level does not exist *)
Theorem C09_any_levels : forall Q P levelQ levelP N pQ pP, ntt_primes (Q ++ P) -> (levelQ < List.length Q)%nat -> (levelP < List.length P)%nat -> (levelQ < 32)%nat ->
  lazy_words P (levelP + 1) N pP -> (levelQ < List.length pQ)%nat -> rns_words N pQ ->
  if (levelP <? List.length Q)%nat then
    exists out, ModDownQPtoP (NewFastBasisExtender Q P) levelQ levelP pQ pP = Ok out /\ List.length out = (levelP + 1)%nat /\ (forall j, (j <= levelP)%nat -> List.length (nth j out []) = N) /\
      forall x X, (x < N)%nat -> (forall i, (i <= levelQ)%nat -> eqm (modulus Q i) X (word pQ i x)) -> (forall j, (j <= levelP)%nat -> eqm (modulus P j) X (word pP j x)) ->
        let B := product (firstn (levelQ + 1) Q) in
        exists kappa, (kappa = -1 \/ kappa = 0 \/ kappa = 1) /\ (B < 2 ^ 42 * (X mod B) -> B < 2 ^ 42 * (B - X mod B) -> kappa = 0) /\
          forall j, (j <= levelP)%nat -> 0 <= word out j x < modulus P j /\ eqm (modulus P j) (product (firstn (levelP + 1) Q) * word out j x) (B * (X / B - kappa))
  else ModDownQPtoP (NewFastBasisExtender Q P) levelQ levelP pQ pP = Panic PIndex.
Proof. exact moddown_levels. Qed.
Print Assumptions C09_any_levels.
Example C09_case : lazy_words toyP 2 1 [[513]; [673]] /\ rns_words 1 [[96]; [112]; [0]; [0]] /\ ntt_primes (toyQ ++ toyP).
Proof.
  split; [|split; [|exact toy_primes]].
  - split; [cbn; lia|]. intros [|[|j]] Hj; [..|lia]; (split; [reflexivity|intros [|x] Hx; [vm_compute; split; discriminate || reflexivity|lia]]).
  - repeat (constructor; [split; [reflexivity|repeat constructor; vm_compute; discriminate || reflexivity]|]). constructor.
Qed.

(** C10: the digits of all blocks and their recombination with any gadget *)
Theorem C10_decomposition : forall Q P gamma alpha levelQ levelP beta N pin,
  ntt_primes (Q ++ P) -> (0 < gamma)%nat -> (1 <= alpha <= 32)%nat ->
  (alpha = 1 \/ gamma * alpha <= List.length P /\ levelP < gamma * alpha)%nat ->
  (levelQ < List.length Q)%nat -> (levelP < List.length P)%nat -> Z.of_nat (List.length (Q ++ P)) < 2 ^ 52 ->
  (levelQ < List.length pin)%nat -> rns_words N pin ->
  (forall j x, (j <= levelQ)%nat -> (x < N)%nat -> word pin j x <= modulus Q j) ->
  ((beta - 1) * alpha <= levelQ)%nat -> (levelQ < beta * alpha)%nat ->
  exists D : nat -> nat -> Z,
    (forall i, (i < beta)%nat -> exists outQ outP,
       DecomposeAndSplit (NewDecomposer Q P (Z.of_nat gamma)) levelQ levelP alpha i (Z.of_nat gamma) pin = Ok (outQ, outP) /\
       digit_correct Q P alpha i levelQ levelP N pin outQ outP (D i)) /\
    forall T g, is_gadget Q alpha levelQ beta T g ->
      forall j x, (j <= levelQ)%nat -> (x < N)%nat -> eqm (modulus Q j) (sum_upto beta (fun i => D i x * g i)) (T * word pin j x).
Proof. exact C10_lemma. Qed.
Print Assumptions C10_decomposition.
Example C10_case : let Q := toyQ in let P := toyP in let pin := [[96]; [112]; [192]; [241]] in
  ntt_primes (Q ++ P) /\ (1 * 2 <= List.length P /\ 1 < 1 * 2)%nat /\ rns_words 1 pin /\
  (forall j x, (j <= 3)%nat -> (x < 1)%nat -> word pin j x <= modulus Q j) /\ ((2 - 1) * 2 <= 3 < 2 * 2)%nat.
Proof.
  cbv zeta. split; [exact toy_primes|]. split; [cbn; lia|]. split; [|split; [|lia]].
  - repeat (constructor; [split; [reflexivity|repeat constructor; vm_compute; discriminate || reflexivity]|]). constructor.
  - intros [|[|[|[|j]]]] [|x] Hj Hx; try lia; vm_compute; discriminate.
Qed.
(** C50: when gamma does not divide the number of special primes (and alpha >= 2) every decomposition of a block of two
    or more primes panics *)
Theorem C50_gamma_not_dividing_panics : forall Q P gamma alpha levelQ levelP i N pin,
  ntt_primes (Q ++ P) -> (0 < gamma)%nat -> (2 <= alpha <= 32)%nat -> (gamma * alpha <= levelP)%nat ->
  (i * alpha + 1 <= levelQ)%nat ->
  (levelQ < List.length Q)%nat -> (levelP < List.length P)%nat -> Z.of_nat (List.length (Q ++ P)) < 2 ^ 52 ->
  (levelQ < List.length pin)%nat -> rns_words N pin -> (0 < N)%nat ->
  DecomposeAndSplit (NewDecomposer Q P (Z.of_nat gamma)) levelQ levelP alpha i (Z.of_nat gamma) pin = Panic PIndex.
Proof. exact C50_lemma. Qed.
Print Assumptions C50_gamma_not_dividing_panics.
(** five special primes and gamma = 2 give alpha = 2 and levelP = 4 = gamma * alpha *)
Example C50_case : let pp := mkParams 3 toyQ [257; 337; 353; 401; 433] [] [] 2 [] in Alpha pp = 2%nat /\ levelP pp = 4%nat /\ (2 * Alpha pp <= levelP pp)%nat.
Proof. cbv zeta. repeat split. vm_compute. lia. Qed.

(** C11 *)
Theorem C11_beta_is_ceiling : forall pp l, (1 <= Alpha pp)%nat -> Z.of_nat l + 1 < 2 ^ 53 -> Z.of_nat (PCount pp) < 2 ^ 53 ->
  (l + 1 <= Alpha pp * Beta pp l /\ Alpha pp * (Beta pp l - 1) < l + 1 /\ forall l', (l' <= l)%nat -> (Beta pp l' <= Beta pp l)%nat)%nat.
Proof. exact C11_beta_lemma. Qed.
Print Assumptions C11_beta_is_ceiling.
Theorem C11_alpha_is_floor : forall pp, (0 < pa_gamma pp)%nat -> (pa_gamma pp * Alpha pp <= PCount pp < pa_gamma pp * (Alpha pp + 1))%nat.
Proof. exact C11_alpha_lemma. Qed.
Print Assumptions C11_alpha_is_floor.
Theorem C11_crs_shape : forall logN Q P psiQ psiP gamma smp,
  let pp0 := mkParams logN Q P psiQ psiP gamma [] in
  params_ok pp0 -> (forall ix i, uniform_sample pp0 (smp ix i)) ->
  exists pp, NewParameters logN Q P psiQ psiP gamma smp = Ok pp /\
    (pa_logN pp, pa_Q pp, pa_P pp, pa_psiQ pp, pa_psiP pp, pa_gamma pp) = (logN, Q, P, psiQ, psiP, gamma) /\
    (forall ix, (exists v, getCRS pp ix = Ok v) <-> In ix [0; -1; -2; -3; -4] \/ exists i, (i < logN - 1)%nat /\ ix = 2 ^ Z.of_nat i) /\
    (forall ix v, getCRS pp ix = Ok v -> List.length v = Beta pp (maxLevel pp) /\ forall l, (l <= maxLevel pp)%nat -> (Beta pp l <= List.length v)%nat) /\
    List.length (NewSwitchingKey pp) = Beta pp (maxLevel pp).
Proof. exact C11_crs_lemma. Qed.
Print Assumptions C11_crs_shape.
Theorem C11_too_few_special_primes_panic : forall logN Q P psiQ psiP gamma smp, (gamma = 0 \/ List.length P < gamma)%nat ->
  exists p, NewParameters logN Q P psiQ psiP gamma smp = Panic p.
Proof. exact C11_panic_lemma. Qed.
Print Assumptions C11_too_few_special_primes_panic.
Example C11_shipped : params_ok shipped /\ Alpha shipped = 1%nat /\ Beta shipped 20 = 21%nat /\ uniform_sample (toy 1) (newQP (toy 1)).
Proof.
  split; [exact shipped_ok|]. split; [reflexivity|]. split; [vm_compute; reflexivity|].
  split; (split; [reflexivity|]); intros j Hj; do 4 (destruct j as [|j]; [first [exfalso; cbn in Hj; lia|split; [reflexivity|intros x Hx; do 8 (destruct x as [|x]; [vm_compute; split; discriminate || reflexivity|]); cbn in Hx; lia]]|]); cbn in Hj; lia.
Qed.

(** C40, first part: AddCRS changes no other index and installs the sampled rows *)
Theorem C40_addcrs : forall pp ix smp, params_ok pp -> (forall i, uniform_sample pp (smp ix i)) ->
  exists pp', AddCRS pp ix smp = Ok pp' /\
    (pa_logN pp', pa_Q pp', pa_P pp', pa_psiQ pp', pa_psiP pp', pa_gamma pp') = (pa_logN pp, pa_Q pp, pa_P pp, pa_psiQ pp, pa_psiP pp, pa_gamma pp) /\
    (forall iy, iy <> ix -> getCRS pp' iy = getCRS pp iy) /\
    (exists v, getCRS pp' ix = Ok v /\ List.length v = Beta pp' (maxLevel pp')) /\
    (forall A, (forall i, qrep pp (maxLevel pp) (smp ix i) (A i)) -> crs_is pp' ix A).
Proof. exact C40_lemma. Qed.
Print Assumptions C40_addcrs.
