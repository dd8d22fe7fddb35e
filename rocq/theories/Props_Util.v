(** Elements and helpers (properties C02, C41-C43).
    Vocabulary: Spec.v, Repr.v; [fval c r]: c is a finite float64 of real value r; [entry c j i] is c[j][i]; [SF2R radix2 x]: the real value of the binary float x. *)
From Coq Require Import Reals String ZArith Znumtheory List Bool.
From Coq.Floats Require Import SpecFloat.
From Flocq Require Import Core.Raux Core.Zaux IEEE754.BinarySingleNaN.
From Verif Require Import Spec Go Arith NTT RingOps Lattigo Maps MapsProofs Params Elements F64 F64Proofs EncDec Utils UtilsBig Evaluator Repr SpecEv RingOpsProofs ElemThms UtilThms UtilFloat UtilDown UtilsBigProofs UtilWorld Shipped.
Import ListNotations.
Local Open Scope Z_scope.

(** C02: NewCiphertext: a zero component of level+1 limbs for "0" and for every id, no other component; Level is level and IDSet is the
    given set, for all map orders *)
Theorem C02_new : forall o pp ids level, order_ok o -> idset_ok ids ->
  let c := NewCiphertext o pp ids level in
  NoDup (mkeys c) /\ (forall id, sget c id = if string_dec id "0" then Some (mkPoly false (repeat (repeat 0 (pa_N pp)) (level + 1))) else if idHas ids id then Some (mkPoly false (repeat (repeat 0 (pa_N pp)) (level + 1))) else None) /\
  ctLevel c = Ok level /\ forall o', order_ok o' -> exists s, ctIDSet o' c = Ok s /\ idset_ok s /\ forall x, In x (mkeys s) <-> In x (mkeys ids).
Proof. exact new_ct. Qed.
Print Assumptions C02_new.

(** C02: NewCiphertextNTT differs in the flag only *)
Theorem C02_new_ntt : forall o pp ids level id, sget (NewCiphertextNTT o pp ids level) id = option_map (setNTT true) (sget (NewCiphertext o pp ids level) id).
Proof. exact new_ct_ntt. Qed.
Print Assumptions C02_new_ntt.

(** C02: CopyNew returns an equal ciphertext of the same scale; without a component "0" it panics *)
Theorem C02_copy : forall ct sc, (forall p, sget ct "0"%string = Some p -> ckCopyNew (mkCk ct sc) = Ok (mkCk ct sc)) /\ (sget ct "0"%string = None -> ckCopyNew (mkCk ct sc) = Panic PNil).
Proof. exact copy_new. Qed.
Print Assumptions C02_copy.

(** C02: DropLevelNew keeps the scale, the parties and the first l + 1 - levels limbs of every component; more levels than there are
    limbs panic *)
Theorem C02_drop_level : forall o ct sc l levels, order_ok o -> NoDup (mkeys ct) -> In "0"%string (mkeys ct) -> (forall id p, sget ct id = Some p -> plen p = (l + 1)%nat) ->
  ((levels <= l + 1)%nat -> exists c', DropLevelNew o (mkCk ct sc) levels = Ok (mkCk c' sc) /\ NoDup (mkeys c') /\
     (forall id, sget c' id = option_map (fun p => mkPoly (p_ntt p) (firstn (l + 1 - levels) (p_co p))) (sget ct id)) /\ ((levels <= l)%nat -> ctLevel c' = Ok (l - levels)%nat)) /\
  ((l + 1 < levels)%nat -> DropLevelNew o (mkCk ct sc) levels = Panic PIndex).
Proof. exact drop_level. Qed.
Print Assumptions C02_drop_level.

(** C02: PadCiphertext keeps every component and adds zero components, of the ciphertext's own level, degree and NTT flag, for the
    missing ids of the given set and for no other id *)
Theorem C02_pad : forall o el ids c0 row l, order_ok o -> idset_ok ids -> NoDup (mkeys el) -> sget el "0"%string = Some c0 -> nth_error (p_co c0) 0 = Some row -> plen c0 = (l + 1)%nat ->
  exists el', PadCiphertext o el ids = Ok el' /\ NoDup (mkeys el') /\ ctLevel el' = Ok l /\
    forall id, sget el' id = match sget el id with Some p => Some p | None => if idHas ids id then Some (mkPoly (p_ntt c0) (repeat (repeat 0 (List.length row)) (l + 1))) else None end.
Proof. exact pad. Qed.
Print Assumptions C02_pad.

(** C41: with N = 2^k the element at index i moves to the index whose k low bits are those of i reversed; the indices from N on keep
    their elements.  ([fuel] bounds the inner loop of the model; k + 1 is enough.) *)
Theorem C41_bit_reverse : forall (A : Type) k fuel (s : list A), (k < fuel)%nat -> (2 ^ k <= List.length s)%nat ->
  exists s', SliceBitReverse fuel s (2 ^ Z.of_nat k) = Ok s' /\ List.length s' = List.length s /\
    (forall i j, (i < 2 ^ k)%nat -> (j < 2 ^ k)%nat -> (forall t, 0 <= t < Z.of_nat k -> Z.testbit (Z.of_nat j) t = Z.testbit (Z.of_nat i) (Z.of_nat k - 1 - t)) -> nth_error s' j = nth_error s i) /\
    (forall i, (2 ^ k <= i)%nat -> nth_error s' i = nth_error s i).
Proof. exact @bit_reverse. Qed.
Print Assumptions C41_bit_reverse.

(** C41: for every i there is such a j *)
Theorem C41_target : forall k i, (i < 2 ^ k)%nat -> exists j, (j < 2 ^ k)%nat /\ forall t, 0 <= t < Z.of_nat k -> Z.testbit (Z.of_nat j) t = Z.testbit (Z.of_nat i) (Z.of_nat k - 1 - t).
Proof. exact reversed. Qed.
Print Assumptions C41_target.

(** C41: applied twice it is the identity *)
Theorem C41_twice : forall (A : Type) k fuel (s s' s'' : list A), (k < fuel)%nat -> (2 ^ k <= List.length s)%nat ->
  SliceBitReverse fuel s (2 ^ Z.of_nat k) = Ok s' -> SliceBitReverse fuel s' (2 ^ Z.of_nat k) = Ok s'' -> s'' = s.
Proof. exact @bit_reverse_twice. Qed.
Print Assumptions C41_twice.

(** C41: for every positive N that is not a power of two, N = 3 for one, the inner loop does not end: no number of steps suffices *)
Theorem C41_diverges : forall (A : Type) N fuel (s : list A), (forall k, N <> 2 ^ k)%nat -> (0 < N)%nat -> (N <= List.length s)%nat -> SliceBitReverse fuel s (Z.of_nat N) = Panic PDiverge.
Proof. exact @bit_reverse_diverges. Qed.
Print Assumptions C41_diverges.

(** C42: scaleUpExact returns a word of [0,q] congruent to an integer within 1/2, and float64 rounding, of value * scale *)
Theorem C42_scale_up : forall c s r t q, fval c r -> fval s t -> (0 <= t)%R -> (t * Rabs r <= bpow radix2 1000)%R -> 0 < q < W ->
  exists w z, scaleUpExact c s q = Ok w /\ 0 <= w <= q /\ cong q w z /\ (Rabs (IZR z - t * r) <= / 2 + 2 * bpow radix2 (-52) * (t * Rabs r + 1))%R.
Proof. exact scale_up. Qed.
Print Assumptions C42_scale_up.

(** C42: and q itself for negative multiples of q *)
Theorem C42_modulus_reached : forall q k c, fval c (IZR (- (k * q))) -> 0 < k -> 0 < q < W -> k * q < 2 ^ 52 -> scaleUpExact c (f_of_Z 1) q = Ok q.
Proof. exact scale_up_q. Qed.
Print Assumptions C42_modulus_reached.

(** C42: scaleDown returns the quotient up to the rounding of the integer and of the division; only the latter when the integer fits 53 bits *)
Theorem C42_scale_down : forall c n t, fval n t -> (t <> 0)%R -> (Rabs (IZR c) <= bpow radix2 1000)%R -> (Rabs (IZR c / t) <= bpow radix2 1000)%R ->
  exists r, fval (scaleDown c n) r /\ (Rabs (r - IZR c / t) <= 3 / 2 * bpow radix2 (-52) * Rabs (IZR c / t) + bpow radix2 (-1000))%R /\ (Z.abs c <= 2 ^ 53 -> r = rnd (IZR c / t)).
Proof. exact scale_down. Qed.
Print Assumptions C42_scale_down.
Example C42_down_case : scaleDown (-21) (f_of_Z 4) = S754_finite true (21 * 2 ^ 48) (-50) /\ scaleDown (2 ^ 53 + 1) (f_of_Z 1) = f_of_Z (2 ^ 53).
Proof. split; reflexivity. Qed.

(** C42: scaleUpVecExact writes the word of scaleUpExact for value i and modulus j at [j][i], zeros after the last value in the rows of
    the moduli, and nothing else; the products may not be exactly 2^64 *)
Theorem C42_scale_up_vec : forall L values n t moduli coeffs, Forall (fun row => List.length row = L) coeffs -> (List.length values <= L)%nat -> (List.length moduli <= List.length coeffs)%nat -> coeffs <> [] ->
  fval n t -> (0 <= t)%R -> Forall (fun q => 0 < q < W) moduli ->
  (forall v, In v values -> exists r, fval v r /\ (t * Rabs r <= bpow radix2 1000)%R /\ feqb (fmul n (fabs v)) (f_of_Z W) = false) ->
  exists c, scaleUpVecExact values n moduli coeffs = Ok c /\ List.length c = List.length coeffs /\ Forall (fun row => List.length row = L) c /\
    (forall j i v q, nth_error values i = Some v -> nth_error moduli j = Some q -> exists w, entry c j i = Some w /\ scaleUpExact v n q = Ok w) /\
    (forall j i, (j < List.length moduli)%nat -> (List.length values <= i < L)%nat -> entry c j i = Some 0) /\
    (forall j i, (List.length moduli <= j)%nat -> entry c j i = entry coeffs j i).
Proof. exact scale_up_vec. Qed.
Print Assumptions C42_scale_up_vec.

(** C42: scaleUpVecExactBigFloat: with p the precision of the first value, value i gives an integer z i within 1/2, and rounding to p bits, of
    value * scale; at [j][i] stands a word congruent to it modulo the j-th modulus q, below q for a value that is not negative and in [q, 2q) for
    a negative one; nothing else is written *)
Theorem C42_big_float : forall L values v0 scale t moduli coeffs, nth_error values 0 = Some v0 -> let p := effPrec (bg_prec v0) in 53 <= p <= 2 ^ 30 ->
  fval scale t -> (0 <= t)%R -> (forall v, In v values -> is_finite_SF (bg_v v) = true /\ (t * Rabs (SF2R radix2 (bg_v v)) <= bpow radix2 (2 ^ 30))%R) ->
  Forall (fun row => List.length row = L) coeffs -> (List.length values <= L)%nat -> (List.length moduli <= List.length coeffs)%nat -> Forall (fun q => 0 < q <= 2 ^ 63) moduli ->
  exists c z, scaleUpVecExactBigFloat values scale moduli coeffs = Ok c /\ List.length c = List.length coeffs /\ Forall (fun row => List.length row = L) c /\
    (forall i v, nth_error values i = Some v -> let y := (t * SF2R radix2 (bg_v v))%R in (Rabs (IZR (z i) - y) <= / 2 + 4 * bpow radix2 (- p) * (Rabs y + 1))%R) /\
    (forall j i v q, nth_error values i = Some v -> nth_error moduli j = Some q ->
       exists w, entry c j i = Some w /\ cong q w (z i) /\ if fltb (bg_v v) f0 then q <= w < 2 * q else 0 <= w < q) /\
    (forall j i, (List.length moduli <= j \/ List.length values <= i)%nat -> entry c j i = entry coeffs j i).
Proof. exact big_float. Qed.
Print Assumptions C42_big_float.

(** C42: an infinite value is not reported: it is written as the value before it *)
Theorem C42_big_infinite : forall L v b scale t moduli coeffs, let p := effPrec (bg_prec v) in 53 <= p <= 2 ^ 30 ->
  fval scale t -> (0 < t)%R -> is_finite_SF (bg_v v) = true -> (t * Rabs (SF2R radix2 (bg_v v)) <= bpow radix2 (2 ^ 30))%R -> fltb (bg_v v) f0 = false ->
  Forall (fun row => List.length row = L) coeffs -> (2 <= L)%nat -> (List.length moduli <= List.length coeffs)%nat ->
  exists c, scaleUpVecExactBigFloat [v; mkBig (S754_infinity false) b] scale moduli coeffs = Ok c /\
    forall j, (j < List.length moduli)%nat -> entry c j 1 = entry c j 0 /\ entry c j 0 <> None.
Proof. exact big_infinite. Qed.
Print Assumptions C42_big_infinite.

(** C42: no value at all panics *)
Theorem C42_big_empty : forall scale moduli coeffs, scaleUpVecExactBigFloat [] scale moduli coeffs = Panic PIndex.
Proof. exact big_empty. Qed.
Print Assumptions C42_big_empty.

(** C42: interfaceMod: the residue for uint64 and big.Int *)
Theorem C42_interface_mod : forall x q, 0 < q -> interfaceMod (GU64 x) q = Ok (x mod q) /\ interfaceMod (GBig x) q = Ok (x mod q).
Proof. exact imod_both. Qed.
Print Assumptions C42_interface_mod.

(** C42: for int64 a congruent word: a non-negative value is returned as it is, a negative one gives a word of (0,q] *)
Theorem C42_interface_mod_int64 : forall x q, 0 < q < 2 ^ 63 -> - 2 ^ 63 <= x < 2 ^ 63 ->
  exists w, interfaceMod (GI64 x) q = Ok w /\ cong q w x /\ (0 <= x -> w = x) /\ (x < 0 -> 0 < w <= q).
Proof. exact imod_i64. Qed.
Print Assumptions C42_interface_mod_int64.

(** C42: so the result for int64 is not always reduced *)
Theorem C42_int64_reduced_refuted : exists x q w, 0 < q < 2 ^ 63 /\ - 2 ^ 63 <= x < 2 ^ 63 /\ interfaceMod (GI64 x) q = Ok w /\ q < w /\ exists w', interfaceMod (GI64 (- q)) q = Ok w' /\ w' = q.
Proof. exact imod_i64_refuted. Qed.
Print Assumptions C42_int64_reduced_refuted.

(** C43: genBigIntChain: entry i is the product of the first i + 1 moduli; it panics on the empty chain *)
Theorem C43_chain : forall Q, (Q <> [] -> exists ch, genBigIntChain Q = Ok ch /\ List.length ch = List.length Q /\ forall i, (i < List.length Q)%nat -> nth_error ch i = Some (product (firstn (S i) Q))) /\
  (Q = [] -> genBigIntChain Q = Panic PIndex).
Proof. exact chain_both. Qed.
Print Assumptions C43_chain.

(** C43: GenSwitchkeysRescalingParams: entry i, times the product of P, is 2^64 modulo q_i: the Montgomery form of the inverse of P *)
Theorem C43_rescaling_params : forall Q P i q, Forall mod61 Q -> Forall prime Q -> nth_error Q i = Some q -> ~ (q | product P) ->
  exists w, nth_error (GenSwitchkeysRescalingParams Q P) i = Some w /\ 0 <= w < q /\ cong q (w * product P) (2 ^ 64).
Proof. exact rescaling_params. Qed.
Print Assumptions C43_rescaling_params.

(** concrete cases *)
Example C02_case : exists pp o ids, order_ok o /\ idset_ok ids /\ pa_Q pp = shippedQ /\ idHas ids "a" = true /\ idHas ids "b" = true /\ idHas ids "c" = false.
Proof. exact new_case. Qed.
Example C41_case : SliceBitReverse 4 [0; 1; 2; 3; 4; 5; 6; 7; 8; 9] 8 = Ok [0; 4; 2; 6; 1; 5; 3; 7; 8; 9] /\ (forall k, 3 <> 2 ^ k)%nat.
Proof. exact reverse_case. Qed.
Example C42_case : fval (f_of_Z (-14)) (IZR (- (2 * 7))) /\ scaleUpExact (f_of_Z (-14)) (f_of_Z 1) 7 = Ok 7 /\ scaleUpExact (f_of_Z (-15)) (f_of_Z 1) 7 = Ok 6 /\
  scaleUpVecExact [f_of_Z 3; f_of_Z (-3)] (f_of_Z 2) [5; 7] [[9; 9; 9]; [9; 9; 9]; [9; 9; 9]] = Ok [[1; 4; 0]; [6; 1; 0]; [9; 9; 9]].
Proof. exact scale_case. Qed.
Example C42_big_case : effPrec (bg_prec big_half_5) = 64 /\ fval (f_of_Z 2) 2 /\ SF2R radix2 (bg_v big_half_5) = (5 / 2)%R /\ SF2R radix2 (bg_v big_neg_3_2) = (- 3 / 2)%R /\
  (forall v, In v [big_half_5; big_neg_3_2] -> is_finite_SF (bg_v v) = true /\ (2 * Rabs (SF2R radix2 (bg_v v)) <= bpow radix2 (2 ^ 30))%R) /\
  scaleUpVecExactBigFloat [big_half_5; big_neg_3_2] (f_of_Z 2) [5; 7] [[9; 9; 9]; [9; 9; 9]; [9; 9; 9]] = Ok [[0; 7; 9]; [5; 11; 9]; [9; 9; 9]].
Proof. exact big_case. Qed.
Example C43_case : genBigIntChain [3; 5; 7] = Ok [3; 15; 105] /\ Forall mod61 shippedQ /\ Forall prime shippedQ /\ forall q, In q shippedQ -> ~ (q | product shippedP).
Proof. exact chain_case. Qed.
