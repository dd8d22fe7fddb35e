(** C69: the loops that normalise rotation indices, decompose them in powers of two and run over powers of two, as int64 loops (mkckks/evaluator.go:485-525,
    585-617, mkrlwe/keyswitch.go:246-249, keyswitch_hoisted.go:195-198, keygen.go:207-210, 232-237, lr/lr.go:285-288, 389-392, 428-450). *)
From Coq Require Import ZArith List String.
From Verif Require Import Go Lattigo Arith F64 RingOps Maps Params Elements KeySwitch KeySets KeyGen EncDec Evaluator LR Shipped Loops LoopThms.
Import ListNotations.
Local Open Scope Z_scope.
Open Scope go_scope.

(** the two normalising loops end for every int64 index, after |floor(k / (N/2))| rounds in total, with the residue *)
Theorem C69_normalise : forall half k n1 n2 r, 0 < half < 2 ^ 63 -> - 2 ^ 63 <= k < 2 ^ 63 ->
  (normLoops half k n1 n2 r <-> n1 = Z.to_nat (k / half) /\ n2 = Z.to_nat (- (k / half)) /\ r = k mod half).
Proof. exact norm_iff. Qed.
Print Assumptions C69_normalise.
(** the second loop alone, as the key switcher and the key generator run it *)
Theorem C69_negative : forall pp k n r, (1 <= pa_logN pp <= 62)%nat -> - 2 ^ 63 <= k < 2 ^ 63 ->
  (upLoop (Z.quot (Z.of_nat (pa_N pp)) 2) k n r <-> n = Z.to_nat (- (k / (Z.of_nat (pa_N pp) / 2))) /\ r = Ok (normNeg (pa_logN pp) k)).
Proof. exact up_iff. Qed.
Print Assumptions C69_negative.
(** RotateNew with its three loops has exactly one outcome, that of Evaluator.v; so does RotateHoistedNew *)
Theorem C69_rotate : forall ce o ct0 rotidx rks st r, (1 <= pa_logN (e_pp (ce_env ce)) <= 62)%nat -> - 2 ^ 63 <= rotidx < 2 ^ 63 ->
  (RotateNewL ce o ct0 rotidx rks st r <-> r = RotateNew ce o ct0 rotidx rks st).
Proof. exact rotate_iff. Qed.
Print Assumptions C69_rotate.
Theorem C69_rotate_hoisted : forall ce o ct0 rotidx h rks st r, (1 <= pa_logN (e_pp (ce_env ce)) <= 62)%nat -> - 2 ^ 63 <= rotidx < 2 ^ 63 ->
  (RotateHoistedNewL ce o ct0 rotidx h rks st r <-> r = RotateHoistedNew ce o ct0 rotidx h rks st).
Proof. exact rotate_hoisted_iff. Qed.
Print Assumptions C69_rotate_hoisted.
(** GenDefaultRotationKeys: the loop ends at rotidx = N/2, with the outcome of KeyGen.v *)
Theorem C69_default_keys : forall pp sk es rks poolQ r, (1 <= pa_logN pp <= 62)%nat ->
  ((exists n, GenDefaultL pp sk es rks poolQ n r) <-> r = (let* x := GenDefaultRotationKeys pp sk es rks poolQ in Ok (2 ^ Z.of_nat (pa_logN pp - 1), x))).
Proof. exact gen_iff. Qed.
Print Assumptions C69_default_keys.
(** the three forms of the summing loop of lr: they end with the outcome of LR.v as long as the bound is at most 2^62 and the products fit *)
Theorem C69_sums : forall S ct pt (E : heops S ct pt) bound c st r, bound <= 2 ^ 62 ->
  ((exists n, sumL E bound (fun i => i) c st n r) <-> r = (let* x := rotSum E bound (fun i => i) c st in Ok (2 ^ Z.log2_up bound, x))) /\
  ((exists n, sumL E bound (fun i => isub 0 i) c st n r) <-> r = (let* x := rotSum E bound (fun i => - i) c st in Ok (2 ^ Z.log2_up bound, x))) /\
  (forall numCol, 0 <= numCol -> numCol * bound <= 2 ^ 63 ->
    ((exists n, sumL E bound (fun i => imul numCol i) c st n r) <-> r = (let* x := rotSum E bound (fun i => numCol * i) c st in Ok (2 ^ Z.log2_up bound, x)))).
Proof. intros S ct pt E. exact (sum_iff E). Qed.
Print Assumptions C69_sums.
(** above 2^62 the doubled counter wraps to -2^63 and then to 0: the summing loop is never left normally *)
Theorem C69_sums_refuted : forall S ct pt (E : heops S ct pt) bound amount c st n s, 2 ^ 62 < bound < 2 ^ 63 -> ~ sumL E bound amount c st n (Ok s).
Proof. intros S ct pt E. exact (sum_diverges E). Qed.
Print Assumptions C69_sums_refuted.
(** for N = 1 the first normalising loop is never left *)
Theorem C69_normalise_refuted : forall k n r, 0 <= k < 2 ^ 63 -> ~ downLoop 0 k n r.
Proof. exact down_diverges. Qed.
Print Assumptions C69_normalise_refuted.

(** ** cases: three rounds of the summing loop below 5, on an evaluator that records the amounts; index -5 for N = 8, run round by round, is 3, whose two
    binary digits rotate by 1 and by 2, so that X becomes X^(5^3) = X^13, on a ciphertext that has only its "0" component *)
Definition recorder : heops (list Z) unit unit :=
  mkOps _ _ _ (fun _ _ _ => sret tt) (fun _ _ => sret tt) (fun _ _ => sret tt) (fun _ k s => Ok (tt, s ++ [k])) (sret tt).
Definition caseEv := NewEvaluator (fun _ l => l) (fun _ _ _ => false) (mkCkp (toy 2) (f_of_Z 8)).
Definition caseCt : ckct := mkCk [("0"%string, mkPoly true (map (fun q => map (fun x => x mod q) [1; 2; 3; 4; 5; 6; 7; 8]) toyQ))] (f_of_Z 8).
Definition firstLimb (r : res (ckct * evst)) : option (list Z) := match r with Ok (c, _) => match sptr (c_ct c) "0"%string with Ok p => nth_error (p_co p) 0 | _ => None end | _ => None end.
Example C69_case :
  sumL recorder 5 (fun i => isub 0 i) tt [] 3 (Ok (8, (tt, [-1; -2; -4]))) /\
  normLoops 4 (-5) 0 2 3 /\
  (exists r, RotateNewL (fst caseEv) (fun _ l => l) caseCt (-5) [] (snd caseEv) r /\ firstLimb r = Some [1; 6; 97 - 3; 97 - 8; 5; 97 - 2; 97 - 7; 4]).
Proof.
  split; [repeat (eapply loop_round; [reflexivity|reflexivity|]); apply loop_exit; reflexivity|]. split.
  - exists (-5). split; [apply loop_exit; reflexivity|]. repeat (eapply loop_round; [reflexivity|reflexivity|]). apply loop_exit. reflexivity.
  - eexists. split; [apply rotate_iff; [vm_compute; repeat constructor| split; [discriminate|reflexivity]|reflexivity]|]. vm_compute. reflexivity.
Qed.
