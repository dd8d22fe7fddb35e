(** Two calls with a party in common that use different pool entries, with the shipped parameters. *)
From Coq Require Import String ZArith List Lia Bool Arith.
From Verif Require Import Spec Go Arith NegRing NTT RingOps Maps Params Elements KeySwitch KeySets F64 EncDec Evaluator Repr KSProofs SpecCt KSSem SpecEnc EncProofs SpecEv EvThms MulEvThms Conc SpecConc ConcProofs Words SpecWords WordsProofs WordsThms Shipped World EvWorld RaceWorld.
Import ListNotations.
Local Open Scope Z_scope.
Local Open Scope list_scope.

(** goroutine 0 multiplies a ciphertext of "a" and one of "b"; the others square one of "b" *)
Definition wcalls (pp : params) (i : nat) : ccall :=
  let b := mkCk (ones_ct pp 20 ["b"]%string) sc38 in
  match i with O => mkCall (fun _ x => x) false (mkCk (ones_ct pp 20 ["a"]%string) sc38) b | _ => mkCall (fun _ x => x) true b b end.
Lemma wcalls_world : exists ce st rs g A U s r Dm, let pp := e_pp (ce_env ce) in
  env_ok (ce_env ce) /\ pa_Q pp = shippedQ /\ pa_P pp = shippedP /\ pa_logN pp = 15%nat /\ ev_ok pp st /\
  (forall i, call_ok ce g A U s r 1 1 Dm rs 20 20 1 (wcalls pp i)) /\ ~ shares (wcalls pp 0) (wcalls pp 1).
Proof.
  destruct ev_world as (ce & st & rs & g & A & U & s & r & Dm & He & Hsc & Hst & HQ & HP & HN & H). exists ce, st, rs, g, A, U, s, r, Dm. set (pp := e_pp (ce_env ce)) in *.
  assert (HQ21 : QCount pp = 21%nat) by (unfold QCount; rewrite HQ; reflexivity).
  destruct (H 20%nat 20%nat) as (HS & R0 & R1 & Hst1); [lia|lia|]. cbv zeta. split; [auto|]. split; [auto|]. split; [auto|]. split; [auto|]. split; [auto|].
  assert (Pk : forall L id, party (ones_ct pp 20 L) id <-> id <> "0"%string /\ In id L). { intros L id. unfold party. rewrite ones_ct_keys. cbn [In]. intuition congruence. }
  assert (Hok : forall x, x <> "0"%string -> ct_ok pp 20 (ones_ct pp 20 [x])). { intros x Hx. apply ones_ct_ok; [apply (eo_pp _ He)|lia|]. repeat constructor; cbn; intuition congruence. }
  assert (Sub : forall x y, In x ["a"; "b"]%string -> In y ["a"; "b"]%string -> mul_setting pp g A U s r 1 1 Dm (ones_ct pp 20 [x]) (ones_ct pp 20 [y]) 20 20 (rs_keys rs)).
  { intros x y Hx Hy. destruct HS as [_ _ L0 L1 G Uc Ss Rl D]. assert (X : forall id, party (ones_ct pp 20 [x]) id \/ party (ones_ct pp 20 [y]) id -> party (ones_ct pp 20 ["a"; "b"]%string) id).
    { intros id. rewrite !Pk. cbn [In] in *. intuition congruence. }
    constructor; auto; apply Hok; cbn [In] in *; intuition congruence. }
  assert (Rs : forall x pool, In x ["a"; "b"]%string -> hoist_ready pp pool (ones_ct pp 20 ["a"; "b"]%string) -> hoist_ready pp pool (ones_ct pp 20 [x])).
  { intros x pool Hx Hr id Hid. apply Hr. rewrite Pk in *. cbn [In] in *. intuition congruence. }
  split.
  - intros i. destruct i as [|i]; constructor; cbn [wcalls cc_op0 cc_op1 c_ct c_scale cc_same cc_o]; try discriminate; try (intros; reflexivity); try (apply Sub; cbn; auto); try (apply Rs; cbn; auto; fail); auto; intros n x; reflexivity.
  - intros (id & [[Ha Hb]|(_ & X & _)]); [|discriminate]. cbn [wcalls cc_op0 c_ct] in *. apply Pk in Ha, Hb. cbn [In] in *. intuition congruence.
Qed.
Lemma rcalls_share N : shares (rcalls N 0) (rcalls N 1).
Proof. exists "a"%string. left. split; (split; [|discriminate]); cbn; auto. Qed.
