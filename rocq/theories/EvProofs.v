(** Generic lemmas on component-wise loops, and rescaling. *)
From Coq Require Import String ZArith Znumtheory List Lia Setoid Morphisms Bool Permutation.
From Verif Require Import Spec SpecProofs Go GoProofs Lattigo LattigoProofs Arith Fermat NegRing NegRingProofs NTT NTTProofs F64 BasisExt BasisExtProofs ModDownProofs DecomposeProofs RingOps RingOpsProofs Maps MapsProofs Params Elements KeySwitch KeySets EncDec Utils Evaluator KSProofs KSMulProofs Crt ParamsProofs SpecCt KSSem SpecEnc EncProofs EncThms SpecEv.
Import ListNotations.
Local Open Scope Z_scope.
Local Open Scope list_scope.

(** * loops that update components *)
Definition upd_all (L : list string) (G : string -> poly) (ct : ciphertext) : ciphertext :=
  map (fun kp => (fst kp, if inb (fst kp) L then G (fst kp) else snd kp)) ct.
Lemma upd_all_keys L G ct : mkeys (upd_all L G ct) = mkeys ct.
Proof. unfold upd_all, mkeys. rewrite map_map. reflexivity. Qed.
Lemma upd_all_get L G ct id : sget (upd_all L G ct) id = match sget ct id with Some p => Some (if inb id L then G id else p) | None => None end.
Proof.
  induction ct as [|[k p] ct IH]; [reflexivity|]. cbn. destruct (String.eqb_spec id k) as [->|]; auto.
Qed.
Lemma upd_all_perm L L' G ct : Permutation L L' -> upd_all L G ct = upd_all L' G ct.
Proof. intros H. unfold upd_all. apply map_ext. intros [k p]. cbn. now rewrite (inb_perm k L L' H). Qed.

Lemma fold_upd {S} (step : ciphertext * S -> string -> res (ciphertext * S)) (I : S -> Prop) L G out s :
  NoDup (mkeys out) -> NoDup L ->
  (forall c s id, In id L -> mkeys c = mkeys out -> sget c id = sget out id -> I s -> exists s', step (c, s) id = Ok (sset c id (G id), s') /\ I s') ->
  (forall id, In id L -> In id (mkeys out)) -> I s ->
  exists s', foldM step L (out, s) = Ok (upd_all L G out, s') /\ I s'.
Proof.
  intros Hnd HL Hs Hin HI.
  destruct (foldM_inv step (fun don '(c, s) => c = upd_all don G out /\ I s) L (out, s)) as ([c s'] & E & -> & HI').
  - intros don a rest [c s1] EL [-> H1]. assert (Ha : ~ In a don). { intros X. rewrite EL in HL. apply NoDup_remove_2 in HL. apply HL, in_or_app. now left. }
    assert (HaL : In a L) by (rewrite EL; apply in_or_app; right; now left).
    destruct (Hs (upd_all don G out) s1 a HaL) as (s2 & E2 & H2); auto.
    { apply upd_all_keys. } { rewrite upd_all_get. destruct (sget out a) eqn:E; auto. destruct (inb a don) eqn:Eb; auto. apply inb_In in Eb. contradiction. }
    exists (sset (upd_all don G out) a (G a), s2). split; [exact E2|]. split; [|exact H2]. apply mget_eq.
    + rewrite (mkeys_mset_in _ seqb); rewrite !upd_all_keys; auto.
    + apply mset_nodup; [exact seqb|now rewrite upd_all_keys].
    + intros x _. rewrite (mget_mset _ seqb), !upd_all_get, inb_app. destruct (String.eqb_spec x a) as [->|]; [|now rewrite orb_false_r].
      destruct (mget_ex _ seqb out a (Hin a HaL)) as (p & ->). now rewrite orb_true_r.
  - split; [|exact HI]. unfold upd_all. rewrite <- (map_id out) at 1. apply map_ext. now intros [k p].
  - eauto.
Qed.
Lemma fold_upd0 (step : ciphertext -> string -> res ciphertext) L G out :
  NoDup (mkeys out) -> NoDup L ->
  (forall c id, In id L -> mkeys c = mkeys out -> sget c id = sget out id -> step c id = Ok (sset c id (G id))) ->
  (forall id, In id L -> In id (mkeys out)) -> foldM step L out = Ok (upd_all L G out).
Proof.
  intros Hnd HL Hs Hin.
  destruct (fold_upd (fun '(c, s) id => bind (step c id) (fun c => Ok (c, s))) (fun _ : unit => True) L G out tt Hnd HL) as ([] & E & _); auto.
  { intros c [] id H1 H2 H3 _. exists tt. rewrite (Hs c id H1 H2 H3). auto. }
  revert E. generalize (upd_all L G out). clear. revert out. induction L as [|a L IH]; intros out r; cbn; [congruence|]. destruct (step out a); cbn [bind]; [apply IH|discriminate].
Qed.
Lemma same_ct_upd L L' G G' a b : same_ct a b -> (forall x, In x L <-> In x L') -> (forall x, In x L -> G x = G' x) -> same_ct (upd_all L G a) (upd_all L' G' b).
Proof.
  intros (H1 & H2 & H3) HL HG. split; [now rewrite upd_all_keys|]. split; [now rewrite upd_all_keys|]. intros id. rewrite !upd_all_get, H3. destruct (sget b id); auto.
  destruct (inb id L) eqn:E.
  - pose proof E as E'. apply inb_In in E. rewrite (HG id E). apply HL, inb_In in E. now rewrite E.
  - destruct (inb id L') eqn:E'; auto. apply inb_In, HL, inb_In in E'. congruence.
Qed.
Lemma same_ct_keys a b : same_ct a b -> forall x, In x (mkeys a) <-> In x (mkeys b).
Proof. intros (_ & _ & H) x. rewrite !(mget_In _ seqb), H. reflexivity. Qed.
Lemma same_ct_refl a : NoDup (mkeys a) -> same_ct a a. Proof. now split. Qed.

Section Ev.
Context (pp : params) (Hpp : params_ok pp).
Notation N := (pa_N pp).
Notation rQ := (ringQ pp).
Notation qq j := (nth j (pa_Q pp) 0).
Notation id_b := (fun q : Z => q).
Let HrQ : ring_ok rQ := po_rQ _ Hpp.
Let HN : (0 < N)%nat := deg_pos _.

Lemma q_prime j : (j < QCount pp)%nat -> prime (qq j).
Proof. intros Hj. apply (Forall_nth_Z prime). { apply (gm_prQ _ _ (po_good _ Hpp)). } exact Hj. Qed.
Lemma q_odd j : (j < QCount pp)%nat -> Z.odd (qq j) = true.
Proof. intros Hj. apply (ring_q rQ j HrQ Hj). Qed.
Lemma q_coprime i j : (i < QCount pp)%nat -> (j < QCount pp)%nat -> i <> j -> rel_prime (qq i) (qq j).
Proof.
  intros Hi Hj Hne. apply rel_prime_sym. apply prime_rel_prime; [now apply q_prime|]. apply prime_ne_ndiv; try now apply q_prime.
  intros E. apply Hne. eapply (NoDup_nth (pa_Q pp) 0); eauto. eapply NoDup_app_l, (gm_nd _ _ (po_good _ Hpp)).
Qed.
Lemma inv_mod p q : mod61 q -> prime q -> 0 <= p < W -> ~ (q | p) -> cong q (p * ModExp p (q - 2) q) 1.
Proof.
  intros Hm Hp HpW Hnd. pose proof (mod61_ok q Hm) as Hok. destruct Hm as [Hodd Hr]. assert (q <> 2) by (intros ->; discriminate).
  rewrite ModExp_spec; [|auto|lia|lia]. rewrite (cong_mod q _ ltac:(lia)). rewrite <- Z.pow_succ_r by lia. replace (Z.succ (q - 2)) with (q - 1) by lia. now apply fermat_Z.
Qed.

(** rounded division *)
Definition rdiv (p : Z) (A : zpoly) : zpoly := fun i => (A i + (p - 1) / 2) / p.
Fixpoint rdivs (l n : nat) (A : zpoly) : zpoly := match n with O => A | S n => rdivs (l - 1) n (rdiv (qq l) A) end.
Lemma rdiv_rem p A i : Z.odd p = true -> 0 < p -> exists r, p * rdiv p A i = A i - r /\ 2 * Z.abs r <= p - 1.
Proof.
  intros Ho Hp. unfold rdiv. exists ((A i + (p - 1) / 2) mod p - (p - 1) / 2). pose proof (Z.div_mod (A i + (p - 1) / 2) p ltac:(lia)).
  pose proof (Z.mod_pos_bound (A i + (p - 1) / 2) p Hp). assert (E : p - 1 = 2 * ((p - 1) / 2)).
  { apply Z.odd_spec in Ho as [k ->]. replace (2 * k + 1 - 1) with (k * 2) by lia. rewrite Z.div_mul by lia. lia. }
  split; lia.
Qed.
Fixpoint dprod (l n : nat) : Z := match n with O => 1 | S n => qq l * dprod (l - 1) n end.
Lemma rdivs_rem n : forall l A, (n <= l + 1)%nat -> (l < QCount pp)%nat -> forall i, exists r, dprod l n * rdivs l n A i = A i - r /\ 2 * Z.abs r <= dprod l n - 1.
Proof.
  induction n as [|n IH]; intros l A Hn Hl i. { exists 0. cbn [dprod rdivs]. lia. }
  destruct (rdiv_rem (qq l) A i (q_odd l Hl)) as (r1 & E1 & B1). { destruct (qbig pp Hpp l Hl). unfold modulus in *. lia. }
  destruct (qbig pp Hpp l Hl) as [Hq _]. unfold modulus in Hq.
  destruct (IH (l - 1)%nat (rdiv (qq l) A) ltac:(lia) ltac:(lia) i) as (r2 & E2 & B2). cbn [rdivs dprod]. exists (r1 + qq l * r2). split.
  - rewrite <- Z.mul_assoc, E2. nia.
  - assert (Z.abs (r1 + qq l * r2) <= Z.abs r1 + qq l * Z.abs r2) by (rewrite <- (Z.abs_eq (qq l)) at 2 by lia; rewrite <- Z.abs_mul; apply Z.abs_triangle). nia.
Qed.
Lemma dprod_dropped n : forall l, (n <= l)%nat -> (l < QCount pp)%nat -> dropped (pa_Q pp) l n = dprod l n.
Proof.
  unfold dropped. induction n as [|n IH]; intros l Hn Hl; [reflexivity|]. cbn [dprod]. rewrite <- IH by lia.
  replace (l + 1 - S n)%nat with (l - n)%nat by lia. replace (l - 1 + 1 - n)%nat with (l - n)%nat by lia. rewrite !product_prodZ.
  assert (E : firstn (S n) (skipn (l - n) (pa_Q pp)) = firstn n (skipn (l - n) (pa_Q pp)) ++ [qq l]).
  { assert (HL : (n < List.length (skipn (l - n) (pa_Q pp)))%nat) by (rewrite skipn_length; unfold QCount in Hl; lia).
    assert (En : nth n (skipn (l - n) (pa_Q pp)) 0 = qq l).
    { rewrite <- (firstn_skipn (l - n) (pa_Q pp)) at 2. rewrite app_nth2; rewrite firstn_length; unfold QCount in Hl; [f_equal; lia|lia]. }
    rewrite <- En. revert HL. generalize (skipn (l - n) (pa_Q pp)). clear. induction n as [|n IH]; intros [|x L] H; cbn in *; try lia; auto. f_equal. apply IH. lia. }
  rewrite E, prodZ_app. change (product (firstn n (skipn (l - n) (pa_Q pp)))) with (prodZ (firstn n (skipn (l - n) (pa_Q pp)))). cbn [prodZ]. ring.
Qed.

Lemma DivRound_ok l a dst A : (0 < l < QCount pp)%nat -> prep rQ (fun q => q + 1) (l + 1) (p_co a) A -> (l <= plen dst)%nat ->
  exists d, DivRoundByLastModulusLvl rQ l a dst = Ok d /\ wrote l dst d /\ prep rQ id_b l (p_co d) (rdiv (qq l) A).
Proof.
  intros Hl (H1 & H2 & H3) Hd. destruct l as [|l]; [lia|]. unfold DivRoundByLastModulusLvl.
  rewrite (idx_nth (r_mods rQ) (S l) 0) by lia. rewrite (idx_nth (p_co a) (S l) []) by lia. cbn [bind].
  set (f := fun i => divRound1 ((qj rQ (S l) - 1) / 2) (qj rQ (S l)) (nth (S l) (p_co a) []) (qj rQ i) (nth i (p_co a) [])).
  rewrite (mapM_ok _ f).
  2:{ intros j Hj. apply in_seq in Hj. rewrite (idx_nth (r_mods rQ) j 0), (idx_nth (p_co a) j []) by lia. reflexivity. }
  cbn [bind]. destruct (write_ok l (map f (seq 0 (S l))) dst) as (d & E & Hw & Hn); [rewrite map_length, seq_length; lia|lia|].
  exists d. split; [exact E|]. rewrite Nat.add_1_r in Hw. split; [exact Hw|]. destruct Hw as (_ & HLw & _). unfold plen in *.
  split; [lia|]. split; [lia|]. intros j Hj. rewrite Hn by lia. rewrite nth_map_seq by lia. unfold f, divRound1.
  change (r_mods rQ) with (pa_Q pp) in *.
  assert (HQ : (j < QCount pp)%nat) by (unfold QCount in *; lia). assert (HQl : (S l < QCount pp)%nat) by lia.
  destruct (qbig pp Hpp j HQ) as [Hq1 _]. destruct (qbig pp Hpp (S l) HQl) as [Hp1 HpW]. unfold modulus in *.
  assert (Hinv : cong (qq j) (qq (S l) * ModExp (qq (S l)) (qq j - 2) (qq j)) 1).
  { apply inv_mod; [apply (ring_q rQ j HrQ HQ)|now apply q_prime|lia|]. apply prime_ne_ndiv; try now apply q_prime. intros Ee.
    assert (S l = j) by (eapply (NoDup_nth (pa_Q pp) 0); eauto; eapply NoDup_app_l, (gm_nd _ _ (po_good _ Hpp))). lia. }
  destruct (H3 j ltac:(lia)) as [Lj Cj]. destruct (H3 (S l) ltac:(lia)) as [Ll Cl].
  split; [rewrite pw2_length; congruence|]. intros i Hi. rewrite pw2_nth by (rewrite ?Lj, ?Ll; auto; lia).
  split; [apply Z.mod_pos_bound; lia|]. rewrite (cong_mod (qq j) _ ltac:(lia)).
  destruct (Cj i Hi) as [_ Cj']. destruct (Cl i Hi) as [_ Cl']. cbv beta in *.
  set (p := qq (S l)) in *. set (h := (p - 1) / 2). set (y := nth i (nth (S l) (p_co a) []) 0) in *. set (x := nth i (nth j (p_co a) []) 0) in *. 
  assert (Em : (y + h) mod p = (A i + h) mod p). { apply (proj1 (cong_eq_mod p _ _ ltac:(lia))). now apply cong_add. }
  rewrite Em. unfold rdiv. fold h. pose proof (Z.div_mod (A i + h) p ltac:(lia)) as DM.
  transitivity ((p * ((A i + h) / p)) * ModExp p (qq j - 2) (qq j)).
  - apply cong_mul; [|reflexivity]. transitivity (A i + h - (A i + h) mod p); [|apply cong_eq; lia]. apply cong_sub; [|reflexivity]. apply cong_add; [exact Cj'|reflexivity].
  - transitivity (((A i + h) / p) * 1); [|apply cong_eq; lia]. replace (p * ((A i + h) / p) * _) with ((A i + h) / p * (p * ModExp p (qq j - 2) (qq j))) by ring. apply cong_mul; [reflexivity|exact Hinv].
Qed.

Lemma divRoundLoop_ok n : forall l pool dst A, (n <= l)%nat -> (0 < n)%nat -> (l < QCount pp)%nat -> prep rQ (fun q => q + 1) (l + 1) (p_co pool) A -> (l <= plen dst)%nat ->
  exists pool' d, divRoundLoop rQ l n pool dst = Ok (pool', d) /\ plen pool' = plen pool /\ p_ntt pool' = p_ntt pool /\ wrote (l - n + 1) dst d /\ prep rQ id_b (l - n + 1) (p_co d) (rdivs l n A).
Proof.
  induction n as [|n IH]; intros l pool dst A Hn H0 Hl HA Hd; [lia|]. destruct n as [|n].
  - cbn [divRoundLoop rdivs]. destruct (DivRound_ok l pool dst A ltac:(lia) HA Hd) as (d & E & Hw & Hp). rewrite E. cbn [bind]. exists pool, d.
    replace (l - 1 + 1)%nat with l by lia. auto.
  - set (m := S n) in *. assert (HL : (l + 1 <= plen pool)%nat) by apply HA. destruct (DivRound_ok l pool pool A ltac:(lia) HA ltac:(lia)) as (d & E & Hw & Hp).
    change (divRoundLoop rQ l (S m) pool dst) with (let* pool := DivRoundByLastModulusLvl rQ l pool pool in divRoundLoop rQ (l - 1) m pool dst). rewrite E. cbn [bind].
    destruct (IH (l - 1)%nat d dst (rdiv (qq l) A)) as (pool' & d' & E' & L' & F' & W' & P'); try lia.
    { replace (l - 1 + 1)%nat with l by lia. eapply prep_mono; [|exact Hp]. intros; cbn beta; lia. }
    exists pool', d'. split; [exact E'|]. destruct Hw as (F & L & _). split; [congruence|]. split; [congruence|]. replace (l - S m + 1)%nat with (l - 1 - m + 1)%nat by lia. split; auto.
Qed.
Lemma DivRoundMany_ok l n a pool dst A : (0 < n <= l)%nat -> (l < QCount pp)%nat -> prep rQ (fun q => q + 1) (l + 1) (p_co a) A -> (l <= plen dst)%nat -> (l <= plen pool)%nat ->
  exists pool' d, DivRoundByLastModulusManyLvl rQ l n a pool dst = Ok (pool', d) /\ plen pool' = plen pool /\ p_ntt pool' = p_ntt pool /\ wrote (l - n + 1) dst d /\ prep rQ id_b (l - n + 1) (p_co d) (rdivs l n A).
Proof.
  intros Hn Hl HA Hd Hp. destruct n as [|[|n]]; [lia| |].
  - cbn [DivRoundByLastModulusManyLvl rdivs]. destruct (DivRound_ok l a dst A ltac:(lia) HA Hd) as (d & E & Hw & Hpp'). rewrite E. cbn [bind]. exists pool, d. replace (l - 1 + 1)%nat with l by lia. auto.
  - set (m := S n) in *. change (DivRoundByLastModulusManyLvl rQ l (S m) a pool dst) with (let* pool := DivRoundByLastModulusLvl rQ l a pool in divRoundLoop rQ (l - 1) m pool dst).
    destruct (DivRound_ok l a pool A ltac:(lia) HA Hp) as (d & E & Hw & Hp'). rewrite E. cbn [bind].
    destruct (divRoundLoop_ok m (l - 1)%nat d dst (rdiv (qq l) A)) as (pool' & d' & E' & L' & F' & W' & P'); try lia.
    { replace (l - 1 + 1)%nat with l by lia. eapply prep_mono; [|exact Hp']. intros; cbn beta; lia. }
    exists pool', d'. split; [exact E'|]. destruct Hw as (F & L & _). split; [congruence|]. split; [congruence|]. replace (l - S m + 1)%nat with (l - 1 - m + 1)%nat by lia. split; auto.
Qed.
End Ev.
