(** Rotations and conjugation (properties C30-C35, C52).
    Vocabulary: Spec.v, Repr.v, SpecKeys.v (psigma e A is A(X^e)), SpecCt.v, SpecEv.v, SpecRot.v, SpecSlots.v. *)
From Coq Require Import Reals String ZArith List Bool Ring_theory.
From Verif Require Import Spec Go Arith NegRing NTT RingOps Maps Params Elements KeySwitch KeySets KeyGen F64 EncDec Utils Evaluator Repr SpecKeys SpecCt SpecEnc SpecEv ParamsSpec SpecRot SpecSlots SlotThms RotEvThms RotWorld World Shipped.
Import ListNotations.
Local Open Scope Z_scope.

(** C30: for every integer k and every m >= 0 with k = m modulo N/2, RotateNew returns an encryption of ct(X^(5^m)) with an error
    of at most n key switches; [rot_ready] gives the keys it uses and n (0, 1, or the number of one bits); one output for all map
    orders and evaluator states; parties, level and scale are kept *)
Theorem C30_rotate : forall ce, env_ok (ce_env ce) -> let pp := e_pp (ce_env ce) in forall g s Bs Be Dm ct sc l rks k m n,
  rot_setting pp g s Bs Dm ct l -> 0 <= m -> cong (Z.of_nat (pa_N pp) / 2) k m -> rot_ready pp g Be s ct rks (k mod (Z.of_nat (pa_N pp) / 2)) n ->
  exists cout, auto_result pp s l ct (5 ^ m) (n * step_noise pp l ct Bs Be Dm) cout /\
    forall o st, order_ok o -> ev_ok pp st -> exists out st',
      RotateNew ce o (mkCk ct sc) k rks st = Ok (mkCk out sc, st') /\ same_ct out cout /\ ev_ok pp st'.
Proof. exact rotate_new. Qed.
Print Assumptions C30_rotate.

(** C31: in every commutative ring with a root z of X^N + 1, the value of a(X^(5^k)) at the j-th point z^(5^j) is the value of a at
    the point of index j + k modulo N/2 *)
Theorem C31_slots_any_ring : forall (R : Type) (rO rI : R) (radd rmul rsub : R -> R -> R) (ropp : R -> R), ring_theory rO rI radd rmul rsub ropp (@eq R) ->
  forall logN z a j k m, (1 <= logN)%nat -> rpow rI rmul z (deg logN) = ropp rI -> 0 <= j -> 0 <= k -> 0 <= m -> cong (Z.of_nat (deg logN) / 2) (j + k) m ->
  reval rO rI radd rmul ropp (deg logN) (psigma (deg logN) (5 ^ k) a) (rpow rI rmul z (Z.to_nat (5 ^ j))) =
  reval rO rI radd rmul ropp (deg logN) a (rpow rI rmul z (Z.to_nat (5 ^ m))).
Proof. exact @ring_slots. Qed.
Print Assumptions C31_slots_any_ring.

(** C31: conjugation exchanges a point and its inverse *)
Theorem C31_conjugation_any_ring : forall (R : Type) (rO rI : R) (radd rmul rsub : R -> R -> R) (ropp : R -> R), ring_theory rO rI radd rmul rsub ropp (@eq R) ->
  forall N z zi a, (0 < N)%nat -> rpow rI rmul z N = ropp rI -> rmul z zi = rI ->
  reval rO rI radd rmul ropp N (psigma N (-1) a) z = reval rO rI radd rmul ropp N a zi.
Proof. exact @ring_conj. Qed.
Print Assumptions C31_conjugation_any_ring.

(** C31: the complex slots of the encoder: slot j is the value at exp(i pi 5^j / N) *)
Theorem C31_slots : forall logN a j k m, (1 <= logN)%nat -> 0 <= j -> 0 <= k -> 0 <= m -> cong (Z.of_nat (deg logN) / 2) (j + k) m ->
  slot (deg logN) (psigma (deg logN) (5 ^ k) a) j = slot (deg logN) a m.
Proof. exact slots. Qed.
Print Assumptions C31_slots.

(** C31: conjugation conjugates every slot *)
Theorem C31_conjugation : forall N a j, (0 < N)%nat -> 0 <= j -> slot N (psigma N (-1) a) j = cconj (slot N a j).
Proof. exact slot_conj. Qed.
Print Assumptions C31_conjugation.

(** C32: the loop writes to index (i * g) mod N for i = 0 .. N-1: every index is written, once *)
Theorem C32_bijection : forall logN g, (1 <= logN)%nat -> Z.Odd g -> forall m, 0 <= m < Z.of_nat (deg logN) ->
  exists i, (0 <= i < Z.of_nat (deg logN) /\ (i * g) mod Z.of_nat (deg logN) = m) /\
    forall i', 0 <= i' < Z.of_nat (deg logN) -> (i' * g) mod Z.of_nat (deg logN) = m -> i' = i.
Proof. exact permute_bij. Qed.
Print Assumptions C32_bijection.

(** C32: nothing of the old contents of the scratch polynomial remains *)
Theorem C32_no_stale_data : forall logN g q x old old', (1 <= logN <= 30)%nat -> 0 <= g < 2 * Z.of_nat (deg logN) -> Z.Odd g -> length old = deg logN -> length old' = deg logN ->
  permute_limb logN g q x old = permute_limb logN g q x old'.
Proof. exact permute_fresh. Qed.
Print Assumptions C32_no_stale_data.

(** C32: the loop computes A(X^g) with words in [0, q]; words of the input may be q as well *)
Theorem C32_automorphism : forall logN g q x old A, (1 <= logN <= 30)%nat -> 1 < q -> q < W -> 0 <= g < 2 * Z.of_nat (deg logN) -> Z.Odd g -> length old = deg logN ->
  lrep (deg logN) q (q + 1) x A -> lrep (deg logN) q (q + 1) (permute_limb logN g q x old) (psigma (deg logN) g A).
Proof. exact permute_auto. Qed.
Print Assumptions C32_automorphism.

(** C32: the word q does occur, for every Galois element but 1: some coefficient of the permuted zero polynomial is q *)
Theorem C32_unreduced_zero : forall logN g q old, (1 <= logN <= 30)%nat -> 1 < q -> q < W -> 1 < g < 2 * Z.of_nat (deg logN) -> Z.Odd g -> length old = deg logN ->
  exists m, (m < deg logN)%nat /\ nth m (permute_limb logN g q (repeat 0 (deg logN)) old) 0 = q.
Proof. exact permute_q. Qed.
Print Assumptions C32_unreduced_zero.

(** C33: RotateNew and RotateHoistedNew (with a hoisted form of the same ciphertext) return the same ciphertext, whatever their map
    orders and states; hypothesis: the index is 0 modulo N/2 or a CRS and the keys for it exist *)
Theorem C33_hoisted : forall ce, env_ok (ce_env ce) -> let pp := e_pp (ce_env ce) in forall g s Bs Be Dm ct sc l rks k m n,
  rot_setting pp g s Bs Dm ct l -> 0 <= m -> cong (Z.of_nat (pa_N pp) / 2) k m ->
  (k mod (Z.of_nat (pa_N pp) / 2) = 0 /\ n = 0 \/ k mod (Z.of_nat (pa_N pp) / 2) <> 0 /\ rot_keys pp g Be s ct (k mod (Z.of_nat (pa_N pp) / 2)) rks /\ n = 1) ->
  exists cout, auto_result pp s l ct (5 ^ m) (n * step_noise pp l ct Bs Be Dm) cout /\
    (forall o st, order_ok o -> ev_ok pp st -> exists out st',
       RotateNew ce o (mkCk ct sc) k rks st = Ok (mkCk out sc, st') /\ same_ct out cout /\ ev_ok pp st') /\
    forall o h st, order_ok o -> hoisted_at (ce_env ce) l ct h -> ev_ok pp st -> exists out st',
       RotateHoistedNew ce o (mkCk ct sc) k h rks st = Ok (mkCk out sc, st') /\ same_ct out cout /\ ev_ok pp st'.
Proof. exact rotate_hoisted. Qed.
Print Assumptions C33_hoisted.

(** C33: without a CRS for the index RotateHoistedNew panics, whatever the hoisted form and the keys *)
Theorem C33_hoisted_panics : forall ce, let pp := e_pp (ce_env ce) in forall ct sc l rks k o h st,
  ct_ok pp l ct -> order_ok o -> k mod (Z.of_nat (pa_N pp) / 2) <> 0 -> ~ has_crs pp (k mod (Z.of_nat (pa_N pp) / 2)) ->
  RotateHoistedNew ce o (mkCk ct sc) k h rks st = Panic (PMsg "Hoisted rotation only works for precomputed rotation keys").
Proof. exact rotate_hoisted_panics. Qed.
Print Assumptions C33_hoisted_panics.

(** C33: HoistedForm returns such a hoisted form *)
Theorem C33_hoisted_form : forall ce, env_ok (ce_env ce) -> let pp := e_pp (ce_env ce) in forall ct sc l o st,
  (l < QCount pp)%nat -> ct_ok pp l ct -> order_ok o -> ev_ok pp st ->
  exists h st', HoistedForm ce o (mkCk ct sc) st = Ok (h, st') /\ hoisted_at (ce_env ce) l ct h /\ (forall id, In id (mkeys h) <-> party ct id) /\ ev_ok pp st'.
Proof. exact hoisted_form. Qed.
Print Assumptions C33_hoisted_form.

(** C34: ConjugateNew returns an encryption of ct(X^-1) with the error of one key switch, for ciphertexts of the maximum level *)
Theorem C34_conjugate : forall ce, env_ok (ce_env ce) -> let pp := e_pp (ce_env ce) in forall g s Bs Be Dm ct sc l cks,
  rot_setting pp g s Bs Dm ct l -> QCount pp = (l + 1)%nat -> conj_keys pp g Be s ct cks ->
  exists cout, auto_result pp s l ct (-1) (step_noise pp l ct Bs Be Dm) cout /\
    forall o st, order_ok o -> ev_ok pp st -> exists out st',
      ConjugateNew ce o (mkCk ct sc) cks st = Ok (mkCk out sc, st') /\ same_ct out cout /\ ev_ok pp st'.
Proof. exact conjugate_new. Qed.
Print Assumptions C34_conjugate.

(** C35: GenDefaultRotationKeys returns for every list of parties, and with its keys and no CRS beyond the default ones RotateNew returns
    for every k and computes the rotation with the error of at most logN - 1 key switches *)
Theorem C35_default_keys : forall ce, env_ok (ce_env ce) -> let pp := e_pp (ce_env ce) in forall g B s parties pool rks,
  gadget pp g -> bound_ok pp B -> powers_crs pp -> (forall i, has_crs pp i -> In i (crsIndices (pa_logN pp))) -> generators_ok pp s B parties -> pshp pp pool ->
  exists rks' pool', genDefaultAll pp parties rks pool = Ok (rks', pool') /\
    forall ct sc l Bs Dm k m, rot_setting pp g s Bs Dm ct l -> covered parties ct -> 0 <= m -> cong (Z.of_nat (pa_N pp) / 2) k m ->
      exists n cout, 0 <= n <= Z.of_nat (pa_logN pp) - 1 /\ auto_result pp s l ct (5 ^ m) (n * step_noise pp l ct Bs B Dm) cout /\
        forall o st, order_ok o -> ev_ok pp st -> exists out st',
          RotateNew ce o (mkCk ct sc) k rks' st = Ok (mkCk out sc, st') /\ same_ct out cout /\ ev_ok pp st'.
Proof. exact default_suffice. Qed.
Print Assumptions C35_default_keys.

(** C35: after AddCRS(r) for an index r that is not a power of two, RotateNew panics with the same default keys for every index equal
    to r modulo N/2 and every ciphertext of at least one party *)
Theorem C35_crs_without_key : forall pp g B s parties pool r smp pp', params_ok pp -> gadget pp g -> bound_ok pp B -> powers_crs pp -> generators_ok pp s B parties -> pshp pp pool ->
  (forall i, uniform_sample pp (smp r i)) -> AddCRS pp r smp = Ok pp' -> (forall i, 0 <= i -> r <> 2 ^ i) -> 0 < r < Z.of_nat (pa_N pp) / 2 ->
  exists rks pool', genDefaultAll pp parties [] pool = Ok (rks, pool') /\
    forall ce ct sc l id k o st, env_ok (ce_env ce) -> e_pp (ce_env ce) = pp' -> (l < QCount pp')%nat -> ct_ok pp' l ct -> party ct id -> order_ok o ->
      k mod (Z.of_nat (pa_N pp) / 2) = r -> exists e, RotateNew ce o (mkCk ct sc) k rks st = Panic e.
Proof. exact crs_without_key. Qed.
Print Assumptions C35_crs_without_key.

(** C35: in general: an index with a CRS and a party without a key for it *)
Theorem C35_missing_key : forall ce, env_ok (ce_env ce) -> let pp := e_pp (ce_env ce) in forall ct sc l rks k o st id,
  (l < QCount pp)%nat -> ct_ok pp l ct -> order_ok o -> k mod (Z.of_nat (pa_N pp) / 2) <> 0 -> has_crs pp (k mod (Z.of_nat (pa_N pp) / 2)) -> party ct id ->
  (forall m, sget rks id = Some m -> zget m (k mod (Z.of_nat (pa_N pp) / 2)) = None) ->
  (exists e, RotateNew ce o (mkCk ct sc) k rks st = Panic e) /\ forall h, exists e, RotateHoistedNew ce o (mkCk ct sc) k h rks st = Panic e.
Proof. exact rotate_missing. Qed.
Print Assumptions C35_missing_key.

(** C52: below the maximum level ConjugateNew panics whatever the keys (at the maximum level it returns, C34) *)
Theorem C52_conjugate_panics : forall ce, env_ok (ce_env ce) -> let pp := e_pp (ce_env ce) in forall ct sc l cks o st,
  ct_ok pp l ct -> (l + 1 < QCount pp)%nat -> order_ok o -> ConjugateNew ce o (mkCk ct sc) cks st = Panic PIndex.
Proof. exact conjugate_panics. Qed.
Print Assumptions C52_conjugate_panics.

(** concrete cases: the shipped moduli, two parties with generated default rotation keys and conjugation keys *)
Example C30_case : exists ce st g s Dm parties pool cks, env_ok (ce_env ce) /\ ev_ok (e_pp (ce_env ce)) st /\ pa_Q (e_pp (ce_env ce)) = shippedQ /\ pa_P (e_pp (ce_env ce)) = shippedP /\ pa_logN (e_pp (ce_env ce)) = 15%nat /\
  gadget (e_pp (ce_env ce)) g /\ bound_ok (e_pp (ce_env ce)) 19 /\ powers_crs (e_pp (ce_env ce)) /\
  (forall i, has_crs (e_pp (ce_env ce)) i <-> In i (crsIndices (pa_logN (e_pp (ce_env ce))))) /\
  generators_ok (e_pp (ce_env ce)) s 19 parties /\ pshp (e_pp (ce_env ce)) pool /\
  forall l, (l < QCount (e_pp (ce_env ce)))%nat -> rot_setting (e_pp (ce_env ce)) g s 1 Dm (ones_ct (e_pp (ce_env ce)) l ["a"; "b"]%string) l /\
    covered parties (ones_ct (e_pp (ce_env ce)) l ["a"; "b"]%string) /\ conj_keys (e_pp (ce_env ce)) g 19 s (ones_ct (e_pp (ce_env ce)) l ["a"; "b"]%string) cks.
Proof. exact rot_world. Qed.
(** the keys C30 and C33 ask for, from the same case: GenDefaultRotationKeys provides them *)
Example C33_case : forall pp g B s parties pool, params_ok pp -> gadget pp g -> bound_ok pp B -> powers_crs pp -> generators_ok pp s B parties -> pshp pp pool ->
  forall rks, exists rks' pool', genDefaultAll pp parties rks pool = Ok (rks', pool') /\ pshp pp pool' /\
    (forall ct i, covered parties ct -> 0 <= i < Z.of_nat (pa_logN pp) - 1 -> rot_keys pp g B s ct (2 ^ i) rks') /\
    (forall id m ix rk, sget rks' id = Some m -> zget m ix = Some rk -> (forall m0, sget rks id = Some m0 -> zget m0 ix = None) -> exists i, 0 <= i < Z.of_nat (pa_logN pp) - 1 /\ ix = 2 ^ i).
Proof. exact default_keys. Qed.
Example C31_case : rpow 1 (fun a b => (a * b) mod 17) 3 (deg 3) = (- 1) mod 17 /\ forall logN, rpow c1 cmul (croot (deg logN) 1) (deg logN) = copp c1.
Proof. exact root_case. Qed.
Example C32_case : permute_limb 2 5 17 [1; 2; 3; 4] [9; 9; 9; 9] = [1; 15; 3; 13] /\ permute_limb 2 5 17 [0; 0; 0; 0] [9; 9; 9; 9] = [0; 17; 0; 17].
Proof. exact permute_case. Qed.
Example C35_case : exists pp pp' g s parties pool smp, params_ok pp /\ pa_Q pp = shippedQ /\ gadget pp g /\ bound_ok pp 19 /\ powers_crs pp /\ generators_ok pp s 19 parties /\ pshp pp pool /\
  (forall i, uniform_sample pp (smp 3 i)) /\ AddCRS pp 3 smp = Ok pp' /\ (forall i, 0 <= i -> 3 <> 2 ^ i) /\ 0 < 3 < Z.of_nat (pa_N pp) / 2 /\
  exists ce st, env_ok (ce_env ce) /\ e_pp (ce_env ce) = pp' /\ ev_ok pp' st /\ ct_ok pp' 20 (ones_ct pp' 20 ["a"]%string) /\ party (ones_ct pp' 20 ["a"]%string) "a".
Proof. exact extra_world. Qed.
