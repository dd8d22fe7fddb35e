(** A concrete case for the evaluator theorems: the shipped moduli, parties "a" and "b" with generated keys, ciphertexts
    all of whose words are 1. *)
From Coq Require Import String ZArith Znumtheory List Lia Bool.
From Verif Require Import Spec SpecProofs Go GoProofs Lattigo LattigoProofs Arith NegRing NegRingProofs NTT NTTProofs F64 BasisExt BasisExtProofs ModDownProofs RingOps RingOpsProofs Maps MapsProofs Params Elements KeySwitch KeySets KeyGen Repr KSProofs ParamsProofs Crt Galois KeyGenProofs ParamsSpec SpecKeys Shipped KeySpec KeyWitness KeyThms SpecCt KSSem MulThms.
Import ListNotations.
Local Open Scope Z_scope.

Definition ones_poly (pp : params) (l : nat) : poly := mkPoly false (repeat (repeat 1 (pa_N pp)) (l + 1)).
Definition ones_ct (pp : params) (l : nat) (ids : list string) : ciphertext := map (fun id => (id, ones_poly pp l)) ("0"%string :: ids).
Lemma ones_ct_keys pp l ids : mkeys (ones_ct pp l ids) = "0"%string :: ids.
Proof. unfold ones_ct, mkeys. rewrite map_map. now rewrite map_id. Qed.
Lemma ones_ct_ok pp l ids : params_ok pp -> (l < QCount pp)%nat -> NoDup ("0"%string :: ids) -> ct_ok pp l (ones_ct pp l ids).
Proof.
  intros Hpp Hl Hnd. constructor; rewrite ?ones_ct_keys; auto. { now left. }
  intros id p E. assert (p = ones_poly pp l) as ->.
  { unfold ones_ct in E. remember ("0"%string :: ids) as K. clear - E. induction K as [|x K IH]; cbn in E; [discriminate|]. destruct (String.eqb id x); [now injection E as <-|auto]. }
  split; [reflexivity|]. unfold plen, ones_poly. cbn [p_co]. rewrite repeat_length. split; [reflexivity|]. intros j Hj. rewrite nth_rep by lia. rewrite repeat_length. split; [reflexivity|].
  intros x Hx. rewrite nth_rep by auto. pose proof (ring_q1 (ringQ pp) j (po_rQ _ Hpp)) as Hq. cbn [r_mods ringQ] in Hq. unfold QCount in Hl. specialize (Hq ltac:(lia)). lia.
Qed.
Lemma digit_bound_exists pp : params_ok pp -> exists Dm, 0 <= Dm /\ digit_bound pp Dm.
Proof.
  intros Hpp. unfold digit_bound. set (f := fun t => 2 * product (digit_block (pa_Q pp) (Alpha pp) t (maxLevel pp))). induction (Beta pp (maxLevel pp)) as [|n (Dm & H0 & IH)]. { exists 0. split; [lia|]. intros; lia. }
  exists (Z.max Dm (f n)). split; [lia|]. intros t Ht. destruct (Nat.eq_dec t n) as [->|Hne]; [unfold f; lia|]. specialize (IH t ltac:(lia)). lia.
Qed.

(** one party's relinearization key *)
Lemma rlk_exists pp sk g : params_ok pp -> bound_ok pp 19 -> sk_is pp sk (smallpoly (ones (pa_N pp))) -> gadget pp g ->
  crs_is pp 0 (fun _ => pone) -> crs_is pp (-1) (fun _ => pone) ->
  exists rl, rlk_valid pp g (fun _ => pone) (fun _ => pone) 1 (smallpoly (ones (pa_N pp))) (smallpoly (ones (pa_N pp))) rl.
Proof.
  intros Hpp HB Hs Hg H0 H1. assert (HE : errs_ok pp 19 (fun _ => ones (pa_N pp))) by (intros t _; apply ones_ok; lia).
  pose proof (newQP_shp pp) as Hn. set (on := fun _ : nat => ones (pa_N pp)) in *.
  destruct (GenRelinearizationKey_ok pp Hpp sk sk (smallpoly (ones (pa_N pp))) (smallpoly (ones (pa_N pp))) (fun _ => pone) (fun _ => pone) on on on 19 g (qQ (newQP pp)) (newQP pp))
    as (rl & ? & ? & _ & _ & _ & _ & K1 & K2 & K3); auto. { apply Hn. }
  exists rl. exists (fun t => smallpoly (on t)), (fun t => smallpoly (on t)), (fun t => smallpoly (on t)).
  split; [|auto]. intros t _. assert (pnorm_le (pa_N pp) (smallpoly (on t)) 1) by (apply smallpoly_norm, ones_ok; lia). auto.
Qed.

Lemma mul_world : exists env g A U s r rlks Dm, env_ok env /\ pa_Q (e_pp env) = shippedQ /\ pa_P (e_pp env) = shippedP /\ pa_logN (e_pp env) = 15%nat /\
  forall l0 l1, (l0 < QCount (e_pp env))%nat -> (l1 < QCount (e_pp env))%nat ->
    mul_setting (e_pp env) g A U s r 1 1 Dm (ones_ct (e_pp env) l0 ["a"; "b"]%string) (ones_ct (e_pp env) l1 ["b"]%string) l0 l1 rlks /\
    mul_receiver (e_pp env) (ones_ct (e_pp env) l0 ["a"; "b"]%string) (ones_ct (e_pp env) l1 ["b"]%string) l0 l1 (Nat.min l0 l1)
      (ones_ct (e_pp env) (Nat.min l0 l1) ["a"; "b"]%string).
Proof.
  destruct shipped_key_witness as (pp & sk & Hpp & HQ & HP & Hlog & Hgm & HB & Hsk & _ & Hcrs & _ & (g & Hg) & _).
  set (env := fst (NewKeySwitcher (fun _ _ _ => false) pp)).
  assert (H0 : crs_is pp 0 (fun _ => pone)). { apply Hcrs. unfold crsIndices. cbn. auto. }
  assert (H1 : crs_is pp (-1) (fun _ => pone)). { apply Hcrs. unfold crsIndices. cbn. auto. }
  destruct (rlk_exists pp sk g Hpp HB Hsk Hg H0 H1) as (rl & Hrl). destruct (digit_bound_exists pp Hpp) as (Dm & _ & HD).
  exists env, g, (fun _ => pone), (fun _ => pone), (fun _ => smallpoly (ones (pa_N pp))), (fun _ => smallpoly (ones (pa_N pp))), [("a"%string, rl); ("b"%string, rl)], Dm.
  change (e_pp env) with pp. split; [constructor; auto|]. do 3 (split; [auto|]). intros l0 l1 Hl0 Hl1.
  assert (Hn : pnorm_le (pa_N pp) (smallpoly (ones (pa_N pp))) 1) by (apply smallpoly_norm, ones_ok; lia).
  assert (Hab : NoDup ["0"; "a"; "b"]%string) by (repeat constructor; cbn; intuition congruence).
  assert (Hb : NoDup ["0"; "b"]%string) by (repeat constructor; cbn; intuition congruence).
  split.
  - constructor; auto.
    + now apply ones_ct_ok.
    + now apply ones_ct_ok.
    + intros id Hid. exists rl. split; [|exact Hrl]. unfold party in Hid. rewrite !ones_ct_keys in Hid. cbn [In] in Hid.
      assert (id = "a"%string \/ id = "b"%string) as [-> | ->] by intuition congruence. all: reflexivity.
  - split; [apply ones_ct_ok; auto; lia|]. split; [lia|]. split; [lia|]. intros id. rewrite !ones_ct_keys. cbn [In]. intuition congruence.
Qed.
