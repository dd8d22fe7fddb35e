(** A concrete case for C73. *)
From Coq Require Import String ZArith List Lia Bool.
From Verif Require Import Spec Go Arith NegRing Repr ParamsProofs KSProofs NTT RingOps Maps MapsProofs Params Elements KeySwitch KeySets F64 EncDec Utils Evaluator SpecCt SpecEnc SpecEv EvProofs EvThms MulThms EncWorld EvWorld AddThms Alias AliasAdd SpecInPlace AliasAddThms World Shipped.
Import ListNotations.
Local Open Scope Z_scope.

(** shipped parameters, operands of scale 2^38 (level 20, parties a and b, the receiver) and 2^39 (level 5, party b) *)
Lemma add_in_place_case : exists ce st, let pp := e_pp (ce_env ce) in let c0 := mkCk (ones_ct pp 20 ["a"; "b"]%string) sc38 in let c1 := mkCk (ones_ct pp 5 ["b"]%string) (f_of_Z (2 ^ 39)) in
  env_ok (ce_env ce) /\ ev_ok pp st /\ pa_Q pp = shippedQ /\ pa_P pp = shippedP /\ pa_logN pp = 15%nat /\ ct_ok pp 20 (c_ct c0) /\ ct_ok pp 5 (c_ct c1) /\ comparable (c_scale c0) (c_scale c1) /\
  (forall id, In id (mkeys (c_ct c1)) -> In id (mkeys (c_ct c0))) /\
  exists cout st', addAt ce o_id None (Some c1) c0 st = Ok (mkCk cout (f_of_Z (2 ^ 39)), st') /\ combination pp 5 padd 2 1 (c_ct c0) (c_ct c1) cout.
Proof.
  destruct ev_world as (ce & st & rs & g & A & U & s & r & Dm & He & _ & Hst & HQ & HP & HL & H). exists ce, st. cbv zeta. cbn [c_ct c_scale].
  assert (L : QCount (e_pp (ce_env ce)) = 21%nat) by (unfold QCount; rewrite HQ; reflexivity).
  destruct (H 20%nat 5%nat ltac:(lia) ltac:(lia)) as (MS & _). pose proof (ms_op0 _ _ _ _ _ _ _ _ _ _ _ _ _ _ MS) as C0. pose proof (ms_op1 _ _ _ _ _ _ _ _ _ _ _ _ _ _ MS) as C1.
  assert (KK : forall id, In id (mkeys (ones_ct (e_pp (ce_env ce)) 5 ["b"]%string)) -> In id (mkeys (ones_ct (e_pp (ce_env ce)) 20 ["a"; "b"]%string))) by (intros id; cbn; tauto).
  repeat (split; [first [assumption|exact comparable_case]|]).
  destruct (add_into_first ce He (mkCk (ones_ct (e_pp (ce_env ce)) 20 ["a"; "b"]%string) sc38) (mkCk (ones_ct (e_pp (ce_env ce)) 5 ["b"]%string) (f_of_Z (2 ^ 39))) 20 5 ltac:(lia) ltac:(lia) C0 C1 comparable_case KK) as (cout & X & Y).
  cbn [c_ct c_scale] in X, Y. destruct (Y o_id st o_id_ok Hst) as (st' & E & _). exists cout, st'.
  assert (F1 : align_factor sc38 (f_of_Z (2 ^ 39)) = 2) by (vm_compute; reflexivity). assert (F2 : align_factor (f_of_Z (2 ^ 39)) sc38 = 1) by (vm_compute; reflexivity). rewrite F1 in X, E. rewrite F2 in X. split; [exact E|exact X].
Qed.
