(** add and sub with a receiver that may be an operand (property C73).
    Vocabulary: SpecCt.v, SpecEv.v (combination, align_factor, comparable), SpecInPlace.v.  In the model (AliasAdd.v) the operand [None] is the receiver itself;
    [rd src out] is the operand. *)
From Coq Require Import String ZArith List Bool.
From Verif Require Import Spec Go Arith NegRing NTT RingOps Maps Params Elements KeySwitch KeySets F64 EncDec Utils Evaluator Repr SpecCt SpecEnc SpecEv EvThms EncWorld EvWorld Alias AliasAdd SpecInPlace AliasAddThms AliasAddWorld World Shipped.
Import ListNotations.
Local Open Scope Z_scope.

(** C73: whatever receiver, all of whose parties are parties of an operand, holds the sum of the operands restricted to the parties of the receiver *)
Theorem C73_add : forall ce, env_ok (ce_env ce) -> let pp := e_pp (ce_env ce) in forall src0 src1 out l0 l1 lo, let c0 := rd src0 out in let c1 := rd src1 out in let K := mkeys (c_ct out) in
  (l0 < QCount pp)%nat -> (l1 < QCount pp)%nat -> ct_ok pp l0 (c_ct c0) -> ct_ok pp l1 (c_ct c1) -> ct_ok pp lo (c_ct out) -> comparable (c_scale c0) (c_scale c1) ->
  (forall id, In id K -> In id (mkeys (c_ct c0)) \/ In id (mkeys (c_ct c1))) ->
  exists cout, combination pp (Nat.min (Nat.min l0 l1) lo) padd (align_factor (c_scale c0) (c_scale c1)) (align_factor (c_scale c1) (c_scale c0)) (only K (c_ct c0)) (only K (c_ct c1)) cout /\
  forall o st, order_ok o -> ev_ok pp st -> exists st',
    addAt ce o src0 src1 out st = Ok (mkCk cout (sum_scale (isNone src0) (isNone src1) (c_scale c0) (c_scale c1) (c_scale out)), st') /\ ev_ok pp st'.
Proof. exact add_at. Qed.
Print Assumptions C73_add.
(** C73: and the difference *)
Theorem C73_sub : forall ce, env_ok (ce_env ce) -> let pp := e_pp (ce_env ce) in forall src0 src1 out l0 l1 lo, let c0 := rd src0 out in let c1 := rd src1 out in let K := mkeys (c_ct out) in
  (l0 < QCount pp)%nat -> (l1 < QCount pp)%nat -> ct_ok pp l0 (c_ct c0) -> ct_ok pp l1 (c_ct c1) -> ct_ok pp lo (c_ct out) -> comparable (c_scale c0) (c_scale c1) ->
  (forall id, In id K -> In id (mkeys (c_ct c0)) \/ In id (mkeys (c_ct c1))) ->
  exists cout, combination pp (Nat.min (Nat.min l0 l1) lo) psub (align_factor (c_scale c0) (c_scale c1)) (align_factor (c_scale c1) (c_scale c0)) (only K (c_ct c0)) (only K (c_ct c1)) cout /\
  forall o st, order_ok o -> ev_ok pp st -> exists st',
    subAt ce o src0 src1 out st = Ok (mkCk cout (sum_scale (isNone src0) (isNone src1) (c_scale c0) (c_scale c1) (c_scale out)), st') /\ ev_ok pp st'.
Proof. exact sub_at. Qed.
Print Assumptions C73_sub.
(** C73: a sum into the first operand is the sum when the first operand has all the parties *)
Theorem C73_add_into_first : forall ce, env_ok (ce_env ce) -> let pp := e_pp (ce_env ce) in forall c0 c1 l0 l1, (l0 < QCount pp)%nat -> (l1 < QCount pp)%nat ->
  ct_ok pp l0 (c_ct c0) -> ct_ok pp l1 (c_ct c1) -> comparable (c_scale c0) (c_scale c1) -> (forall id, In id (mkeys (c_ct c1)) -> In id (mkeys (c_ct c0))) ->
  exists cout, combination pp (Nat.min l0 l1) padd (align_factor (c_scale c0) (c_scale c1)) (align_factor (c_scale c1) (c_scale c0)) (c_ct c0) (c_ct c1) cout /\
  forall o st, order_ok o -> ev_ok pp st -> exists st',
    addAt ce o None (Some c1) c0 st = Ok (mkCk cout (if 1 <? align_factor (c_scale c0) (c_scale c1) then c_scale c1 else c_scale c0), st') /\ ev_ok pp st'.
Proof. exact add_into_first. Qed.
Print Assumptions C73_add_into_first.
(** C73: otherwise it need not be: for all parameters and parties a, b there are ciphertexts of a and of b whose sum into the first one holds the first one, not the sum; no error is reported *)
Theorem C73_add_loses_parties : forall ce, env_ok (ce_env ce) -> let pp := e_pp (ce_env ce) in forall a b, a <> "0"%string -> b <> "0"%string -> a <> b ->
  exists c0 c1, ct_ok pp 0 c0 /\ ct_ok pp 0 c1 /\ (forall id, party c0 id <-> id = a) /\ (forall id, party c1 id <-> id = b) /\
  forall o st, order_ok o -> ev_ok pp st -> exists cout st', addAt ce o None (Some (mkCk c1 (f_of_Z 2))) (mkCk c0 (f_of_Z 2)) st = Ok (mkCk cout (f_of_Z 2), st') /\
    peq (pa_N pp) (nth 0 (pa_Q pp) 0) (phase (pa_N pp) (fun _ => pone) cout 0) (phase (pa_N pp) (fun _ => pone) c0 0) /\
    ~ peq (pa_N pp) (nth 0 (pa_Q pp) 0) (phase (pa_N pp) (fun _ => pone) cout 0) (padd (phase (pa_N pp) (fun _ => pone) c0 0) (phase (pa_N pp) (fun _ => pone) c1 0)).
Proof. exact add_lost. Qed.
Print Assumptions C73_add_loses_parties.
(** C73: AddNew and SubNew (C18, C19) are add and sub into a new ciphertext *)
Theorem C73_new : forall ce o c0 c1 st, AddNew ce o c0 c1 st = bind (newCiphertextBinary ce o c0 c1) (fun out => addAt ce o (Some c0) (Some c1) out st) /\
  SubNew ce o c0 c1 st = bind (newCiphertextBinary ce o c0 c1) (fun out => subAt ce o (Some c0) (Some c1) out st).
Proof. exact new_at. Qed.
Print Assumptions C73_new.
(** concrete case: shipped parameters, scales 2^38 and 2^39, levels 20 and 5, into the first operand *)
Example C73_case : exists ce st, let pp := e_pp (ce_env ce) in let c0 := mkCk (ones_ct pp 20 ["a"; "b"]%string) sc38 in let c1 := mkCk (ones_ct pp 5 ["b"]%string) (f_of_Z (2 ^ 39)) in
  env_ok (ce_env ce) /\ ev_ok pp st /\ pa_Q pp = shippedQ /\ pa_P pp = shippedP /\ pa_logN pp = 15%nat /\ ct_ok pp 20 (c_ct c0) /\ ct_ok pp 5 (c_ct c1) /\ comparable (c_scale c0) (c_scale c1) /\
  (forall id, In id (mkeys (c_ct c1)) -> In id (mkeys (c_ct c0))) /\
  exists cout st', addAt ce o_id None (Some c1) c0 st = Ok (mkCk cout (f_of_Z (2 ^ 39)), st') /\ combination pp 5 padd 2 1 (c_ct c0) (c_ct c1) cout.
Proof. exact add_in_place_case. Qed.
