(** Property C66: the loops over eight words at a time.  The vocabulary is in SpecMem.v, Spec.v and SpecEv.v. *)
From Coq Require Import String ZArith Znumtheory List Bool.
From Verif Require Import Spec Go F64 BasisExt NTT RingOps Maps Params Elements KeySwitch EncDec Utils Evaluator Repr SpecCt SpecEv Shipped AliasWorld SpecMem Unsafe UnsafeThms.
Import ListNotations.
Local Open Scope Z_scope.

(** C66: ModUpQtoP and ModUpPtoQ on memory, degrees 8n: the extension of C06, and no word outside the output limbs changes *)
Theorem C66_modup : forall Q P levelQ levelP n m polQ polP, ntt_primes (Q ++ P) -> (levelQ < List.length Q)%nat -> (levelP < List.length P)%nat ->
  sized (8 * n) polQ -> sized (8 * n) polP -> (levelQ < List.length polQ)%nat -> (levelP < List.length polP)%nat ->
  (forall vQ, (levelQ < 32)%nat -> all_apart polP -> lists_apart polQ polP -> holds_limbs m polQ vQ -> rns_words (8 * n) vQ ->
     exists m' out, ModUpQtoPM (NewFastBasisExtender Q P) levelQ levelP m polQ polP = Ok m' /\ holds_limbs m' (firstn (levelP + 1) polP) out /\ modup_correct Q P (levelQ + 1) (levelP + 1) (8 * n) vQ out /\
       same_outside (firstn (levelP + 1) polP) m m') /\
  (forall vP, (levelP < 32)%nat -> all_apart polQ -> lists_apart polP polQ -> holds_limbs m polP vP -> rns_words (8 * n) vP ->
     exists m' out, ModUpPtoQM (NewFastBasisExtender Q P) levelP levelQ m polP polQ = Ok m' /\ holds_limbs m' (firstn (levelQ + 1) polQ) out /\ modup_correct P Q (levelP + 1) (levelQ + 1) (8 * n) vP out /\
       same_outside (firstn (levelQ + 1) polQ) m m').
Proof. exact unsafe_modup. Qed.
Print Assumptions C66_modup.
(** C66: ModDownQPtoQ on memory, with the extender's own pool, in place or not: the quotient of C08, and no word outside the output limbs and the pool changes *)
Theorem C66_moddown : forall Q P levelQ levelP n m pool p1Q p1P p2Q vQ vP, ntt_primes (Q ++ P) -> (levelQ < List.length Q)%nat -> (levelP < List.length P)%nat -> (levelP < 32)%nat ->
  sized (8 * n) pool -> sized (8 * n) p1Q -> sized (8 * n) p1P -> sized (8 * n) p2Q -> (levelQ < List.length pool)%nat -> (levelQ < List.length p2Q)%nat -> (levelP < List.length p1P)%nat ->
  all_apart pool -> all_apart p2Q -> lists_apart p1P pool -> lists_apart p1Q pool -> lists_apart pool p2Q -> in_place_or_apart p1Q p2Q ->
  holds_limbs m p1Q vQ -> holds_limbs m p1P vP -> lazy_words Q (levelQ + 1) (8 * n) vQ -> rns_words (8 * n) vP ->
  exists m' out, ModDownQPtoQM (NewFastBasisExtender Q P) (8 * n) levelQ levelP m pool p1Q p1P p2Q = Ok m' /\ holds_limbs m' (firstn (levelQ + 1) p2Q) out /\
    moddown_correct Q P (levelQ + 1) (levelP + 1) (8 * n) vQ vP out /\ same_outside (firstn (levelQ + 1) p2Q ++ firstn (levelQ + 1) pool) m m'.
Proof. exact unsafe_moddown. Qed.
Print Assumptions C66_moddown.
(** C66: ModDownQPtoP *)
Theorem C66_moddown_P : forall Q P lvl n m pool p1Q p1P p2P vQ vP, ntt_primes (Q ++ P) -> (lvl < List.length Q)%nat -> (lvl < List.length P)%nat -> (lvl < 32)%nat ->
  sized (8 * n) pool -> sized (8 * n) p1Q -> sized (8 * n) p1P -> sized (8 * n) p2P -> (lvl < List.length pool)%nat -> (lvl < List.length p2P)%nat -> (lvl < List.length p1Q)%nat ->
  all_apart pool -> all_apart p2P -> lists_apart p1Q pool -> lists_apart p1P pool -> lists_apart pool p2P -> in_place_or_apart p1P p2P ->
  holds_limbs m p1Q vQ -> holds_limbs m p1P vP -> lazy_words P (lvl + 1) (8 * n) vP -> rns_words (8 * n) vQ ->
  exists m' out, ModDownQPtoPM (NewFastBasisExtender Q P) (8 * n) lvl lvl m pool p1Q p1P p2P = Ok m' /\ holds_limbs m' (firstn (lvl + 1) p2P) out /\
    moddown_correct P Q (lvl + 1) (lvl + 1) (8 * n) vP vQ out /\ same_outside (firstn (lvl + 1) p2P ++ firstn (lvl + 1) pool) m m'.
Proof. exact unsafe_moddown_P. Qed.
Print Assumptions C66_moddown_P.
(** C66: DecomposeAndSplit on memory: the digits of C10 *)
Theorem C66_decompose : forall Q P gamma alpha levelQ levelP beta n m p0Q p1Q p1P v,
  ntt_primes (Q ++ P) -> (0 < gamma)%nat -> (1 <= alpha <= 32)%nat -> (alpha = 1 \/ gamma * alpha <= List.length P /\ levelP < gamma * alpha)%nat ->
  (levelQ < List.length Q)%nat -> (levelP < List.length P)%nat -> Z.of_nat (List.length (Q ++ P)) < 2 ^ 52 ->
  ((beta - 1) * alpha <= levelQ)%nat -> (levelQ < beta * alpha)%nat ->
  sized (8 * n) p0Q -> sized (8 * n) p1Q -> sized (8 * n) p1P -> (levelQ < List.length p0Q)%nat -> (levelQ < List.length p1Q)%nat -> (levelP < List.length p1P)%nat ->
  all_apart (p1Q ++ p1P) -> lists_apart p0Q (p1Q ++ p1P) -> holds_limbs m p0Q v -> rns_words (8 * n) v -> (forall j x, (j <= levelQ)%nat -> (x < 8 * n)%nat -> word v j x <= modulus Q j) ->
  exists D : nat -> nat -> Z,
    (forall i, (i < beta)%nat -> exists m' outQ outP, DecomposeAndSplitM (NewDecomposer Q P (Z.of_nat gamma)) levelQ levelP alpha i (Z.of_nat gamma) m p0Q p1Q p1P = Ok m' /\
       holds_limbs m' (firstn (levelQ + 1) p1Q) outQ /\ holds_limbs m' (firstn (levelP + 1) p1P) outP /\ digit_correct Q P alpha i levelQ levelP (8 * n) v outQ outP (D i) /\
       same_outside (firstn (levelQ + 1) p1Q ++ firstn (levelP + 1) p1P) m m') /\
    forall T g, is_gadget Q alpha levelQ beta T g ->
      forall j x, (j <= levelQ)%nat -> (x < 8 * n)%nat -> eqm (modulus Q j) (sum_upto beta (fun i => D i x * g i)) (T * word v j x).
Proof. exact unsafe_decompose. Qed.
Print Assumptions C66_decompose.
(** C66: MultByConst on memory, degrees 16n, in place or not: what the value model of C21, C22 and C58 leaves *)
Theorem C66_const : forall ce, env_ok (ce_env ce) -> let pp := e_pp (ce_env ce) in forall n c o o' l m, pa_N pp = (16 * n)%nat -> order_ok o -> order_ok o' -> (l < QCount pp)%nat ->
  (forall L ct r, sized (pa_N pp) (ct_arrays L) -> all_apart (ct_arrays L) -> holds_ct m L (c_ct ct) -> ct_ok pp l (c_ct ct) -> MultByConst ce o ct c ct = Ok r ->
     exists m', MultByConstM ce o' L c L m = Ok m' /\ holds_ct m' L (c_ct r) /\ same_outside (ct_arrays L) m m') /\
  (forall L0 L ct0 ct l1 r, sized (pa_N pp) (ct_arrays L0) -> sized (pa_N pp) (ct_arrays L) -> all_apart (ct_arrays L) -> lists_apart (ct_arrays L0) (ct_arrays L) ->
     holds_ct m L0 (c_ct ct0) -> holds_ct m L (c_ct ct) -> ct_ok pp l (c_ct ct0) -> const_receiver pp (c_ct ct0) (c_ct ct) l1 -> MultByConst ce o ct0 c ct = Ok r ->
     exists m', MultByConstM ce o' L0 c L m = Ok m' /\ holds_ct m' L (c_ct r) /\ same_outside (ct_arrays L) m m').
Proof. exact unsafe_const. Qed.
Print Assumptions C66_const.
(** concrete cases: the shipped primes at any degree 8n, all limbs laid out one after the other; a ciphertext of level 20 at degree 2^15 *)
Example C66_case : forall n, let N := (8 * n)%nat in let at_ k := Z.of_nat (k * N) in
  let pQ := rows (at_ 0%nat) N 21 in let pP := rows (at_ 21%nat) N 2 in let pool := rows (at_ 23%nat) N 21 in let dQ := rows (at_ 44%nat) N 21 in let dP := rows (at_ 65%nat) N 2 in
  let vQ := map (contents m97) pQ in let vP := map (contents m97) pP in
  ntt_primes (shippedQ ++ shippedP) /\ sized N pQ /\ sized N pP /\ sized N pool /\ sized N dQ /\ sized N dP /\ all_apart pQ /\ all_apart pP /\ all_apart pool /\ lists_apart pQ pP /\ lists_apart pP pQ /\
  lists_apart pP pool /\ lists_apart pQ pool /\ lists_apart pool pQ /\ in_place_or_apart pQ pQ /\ all_apart (dQ ++ dP) /\ lists_apart pQ (dQ ++ dP) /\
  holds_limbs m97 pQ vQ /\ holds_limbs m97 pP vP /\ rns_words N vQ /\ rns_words N vP /\ lazy_words shippedQ 21 N vQ /\ (forall j x, (j <= 20)%nat -> (x < N)%nat -> word vQ j x <= modulus shippedQ j) /\
  List.length shippedQ = 21%nat /\ List.length shippedP = 2%nat.
Proof. exact unsafe_case. Qed.
Example C66_const_case : exists ce n L m, env_ok (ce_env ce) /\ pa_Q (e_pp (ce_env ce)) = shippedQ /\ pa_P (e_pp (ce_env ce)) = shippedP /\ pa_logN (e_pp (ce_env ce)) = 15%nat /\ pa_N (e_pp (ce_env ce)) = (16 * n)%nat /\
  let N := pa_N (e_pp (ce_env ce)) in let ct := xct N 20 (2 ^ 36) in
  sized N (ct_arrays L) /\ all_apart (ct_arrays L) /\ holds_ct m L ct /\ ct_ok (e_pp (ce_env ce)) 20 ct /\ const_receiver (e_pp (ce_env ce)) ct ct 20.
Proof. exact unsafe_const_case. Qed.

(** C66: limbs of four words: ModUp writes past them *)
Theorem C66_short_limbs_refuted : exists Q P polQ polP (m : memory) m', ntt_primes (Q ++ P) /\ sized 4 polQ /\ sized 4 polP /\ all_apart polP /\ lists_apart polQ polP /\
  List.length polQ = List.length Q /\ List.length polP = List.length P /\ ModUpQtoPM (NewFastBasisExtender Q P) (List.length Q - 1) (List.length P - 1) m polQ polP = Ok m' /\ ~ same_outside polP m m'.
Proof. exact short_overrun. Qed.
Print Assumptions C66_short_limbs_refuted.
(** C66: degree 8: MultByConst writes past the limb and multiplies words 4 to 7 twice *)
Theorem C66_degree_8_refuted : exists ce o L m ct r m', env_ok (ce_env ce) /\ order_ok o /\ pa_N (e_pp (ce_env ce)) = 8%nat /\ sized 8 (ct_arrays L) /\ all_apart (ct_arrays L) /\ holds_ct m L (c_ct ct) /\ ct_ok (e_pp (ce_env ce)) 0 (c_ct ct) /\
  MultByConst ce o ct (KInt 2) ct = Ok r /\ MultByConstM ce o L (KInt 2) L m = Ok m' /\ ~ holds_ct m' L (c_ct r) /\ ~ same_outside (ct_arrays L) m m'.
Proof. exact half_overrun. Qed.
Print Assumptions C66_degree_8_refuted.
