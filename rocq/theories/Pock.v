(** Pocklington's criterion, with a checker for certificates.  Used only to exhibit concrete
    parameters whose moduli are prime. *)
From Coq Require Import ZArith Znumtheory List Lia Bool.
From Verif Require Import Arith Fermat Spec SpecProofs.
Import ListNotations.
Local Open Scope Z_scope.

Lemma cong_pow p a b k : 0 <= k -> cong p a b -> cong p (a ^ k) (b ^ k).
Proof.
  intros Hk H. revert k Hk. apply natlike_ind; [apply cong_refl|]. intros k Hk IH. rewrite !Z.pow_succ_r by auto.
  rewrite IH, H. apply cong_refl.
Qed.
Lemma cong_pow_1 p b k : 0 <= k -> cong p b 1 -> cong p (b ^ k) 1.
Proof. intros Hk H. rewrite (cong_pow p b 1 k Hk H). rewrite Z.pow_1_l by auto. apply cong_refl. Qed.
Lemma pow_gcd p b x y : 1 < p -> 0 < x -> 0 < y -> cong p (b ^ x) 1 -> cong p (b ^ y) 1 -> cong p (b ^ (Z.gcd x y)) 1.
Proof.
  intros Hp Hx Hy Ex Ey. destruct (Z.gcd_bezout x y _ eq_refl) as (u & v & E).
  set (g := Z.gcd x y) in *. assert (Hg : 0 <= g) by apply Z.gcd_nonneg.
  (* choose k large: (u + k y) x = (k x - v) y + g *)
  set (k := Z.abs u + Z.abs v).
  assert (H1 : 0 <= u + k * y) by (subst k; nia). assert (H2 : 0 <= k * x - v) by (subst k; nia).
  assert (E2 : (u + k * y) * x = (k * x - v) * y + g) by nia.
  assert (A : cong p (b ^ ((u + k * y) * x)) 1).
  { rewrite Z.mul_comm, Z.pow_mul_r by lia. now apply cong_pow_1. }
  assert (B : cong p (b ^ ((k * x - v) * y)) 1).
  { rewrite Z.mul_comm, Z.pow_mul_r by lia. now apply cong_pow_1. }
  rewrite E2, Z.pow_add_r in A by (try lia; apply Z.mul_nonneg_nonneg; lia). rewrite B in A. rewrite <- A. apply cong_eq. ring.
Qed.

Lemma order_pow p l : prime l -> 1 < p -> forall e b k, 0 < k ->
  cong p (b ^ (l ^ Z.of_nat (S e))) 1 -> ~ cong p (b ^ (l ^ Z.of_nat e)) 1 -> cong p (b ^ k) 1 -> (l ^ Z.of_nat (S e) | k).
Proof.
  intros Hl Hp. assert (Hl1 : 1 < l) by (destruct Hl; lia). assert (Hlp : forall n, 0 < l ^ Z.of_nat n) by (intros; apply Z.pow_pos_nonneg; lia).
  induction e as [|e IH]; intros b k Hk E1 E2 E3.
  - change (Z.of_nat 1) with 1 in *. change (l ^ Z.of_nat 0) with 1 in *. rewrite Z.pow_1_r in *. destruct (Zdivide_dec l k) as [Hd|Hd]; [auto|]. exfalso. apply E2.
    pose proof (pow_gcd p b l k Hp ltac:(lia) Hk) as G. specialize (G E1 E3).
    assert (Z.gcd l k = 1) as Eg. { apply Zgcd_1_rel_prime. now apply prime_rel_prime. }
    now rewrite Eg, Z.pow_1_r in G.
  - destruct (Zdivide_dec l k) as [Hd|Hd].
    + destruct Hd as [k' ->]. assert (0 < k') by nia.
      assert (Hsplit : forall n, b ^ (l ^ Z.of_nat (S n)) = (b ^ l) ^ (l ^ Z.of_nat n)).
      { intros n. rewrite <- Z.pow_mul_r by (try lia; apply Z.lt_le_incl; auto). f_equal. rewrite Nat2Z.inj_succ, Z.pow_succ_r by lia. reflexivity. }
      rewrite Nat2Z.inj_succ, Z.pow_succ_r, Z.mul_comm by lia. apply Z.mul_divide_mono_r.
      apply (IH (b ^ l) k'); auto; [now rewrite <- Hsplit|now rewrite <- Hsplit|].
      rewrite <- Z.pow_mul_r by lia. now rewrite Z.mul_comm.
    + exfalso. apply E2. assert (G : cong p (b ^ Z.gcd (l ^ Z.of_nat (S (S e))) k) 1) by (apply pow_gcd; auto).
      assert (Eg : Z.gcd (l ^ Z.of_nat (S (S e))) k = 1).
      { apply Zgcd_1_rel_prime. apply rel_prime_sym. clear - Hl Hd Hl1.
        generalize (S (S e)). intros n. induction n as [|n IH]; [apply rel_prime_1 || (apply rel_prime_sym, rel_prime_1)|].
        rewrite Nat2Z.inj_succ, Z.pow_succ_r by lia. apply rel_prime_mult; [|exact IH]. apply rel_prime_sym. now apply prime_rel_prime. }
      rewrite Eg, Z.pow_1_r in G. apply cong_pow_1; auto. apply Z.lt_le_incl; auto.
Qed.

Lemma fermat_int p b : prime p -> ~ (p | b) -> cong p (b ^ (p - 1)) 1.
Proof.
  intros Hp Hnb. assert (Hp1 : 1 < p) by (destruct Hp; lia).
  assert (E : cong p (b mod p) b) by (exists (- (b / p)); pose proof (Z.div_mod b p ltac:(lia)); lia).
  rewrite <- (cong_pow p _ _ (p - 1) ltac:(lia) E). apply fermat_Z; auto. apply Z.mod_pos_bound; lia.
  intros Hd. apply Hnb. rewrite (Z.div_mod b p) by lia. apply Z.divide_add_r; auto. apply Z.divide_factor_l.
Qed.

(** modular exponentiation on binary exponents *)
Fixpoint powmod (a : Z) (e : positive) (n : Z) : Z :=
  match e with
  | xH => a mod n
  | xO e => let r := powmod a e n in (r * r) mod n
  | xI e => let r := powmod a e n in (((r * r) mod n) * a) mod n
  end.
Lemma cong_modn n a : n <> 0 -> cong n (a mod n) a.
Proof. intros Hn. exists (- (a / n)). pose proof (Z.div_mod a n Hn). lia. Qed.
Lemma powmod_ok a e n : 1 < n -> cong n (powmod a e n) (a ^ Zpos e).
Proof.
  intros Hn. induction e as [e IH|e IH|]; cbn [powmod]; cbv zeta.
  - rewrite !cong_modn, IH by lia. rewrite Pos2Z.inj_xI. rewrite Z.pow_add_r, Z.pow_1_r by lia. replace (2 * Zpos e) with (Zpos e + Zpos e) by lia.
    rewrite Z.pow_add_r by lia. apply cong_refl.
  - rewrite cong_modn, IH by lia. rewrite Pos2Z.inj_xO. replace (2 * Zpos e) with (Zpos e + Zpos e) by lia. rewrite Z.pow_add_r by lia. apply cong_refl.
  - rewrite cong_modn by lia. rewrite Z.pow_1_r. apply cong_refl.
Qed.

(** one certificate entry: prime l, exponent e+1, witness a *)
Definition entry := (Z * nat * Z)%type.
Definition entry_ok (n : Z) (c : entry) : bool :=
  let '(l, e, a) := c in
  let le := l ^ Z.of_nat (S e) in
  ((n - 1) mod le =? 0) && (powmod a (Z.to_pos (n - 1)) n =? 1) &&
  (Z.gcd (powmod a (Z.to_pos ((n - 1) / l)) n - 1) n =? 1).
Definition factored (cs : list entry) : Z := product (map (fun '(l, e, _) => l ^ Z.of_nat (S e)) cs).
Definition pock_b (n : Z) (cs : list entry) : bool :=
  (2 <? n) && forallb (entry_ok n) cs && (n <? factored cs * factored cs).

Lemma prime_divisor n : 1 < n -> exists p, prime p /\ (p | n).
Proof.
  intros Hn. assert (H0 : 0 <= n) by lia. revert Hn. pattern n. apply Zlt_0_ind; [|exact H0]. clear. intros n IH _ Hn.
  destruct (prime_dec n) as [H|H]; [exists n; split; [auto|apply Z.divide_refl]|].
  destruct (not_prime_divide n Hn H) as (k & Hk & Hd). destruct (IH k) as (p & Hp & Hpd); [lia|lia|].
  exists p. split; auto. now apply Z.divide_trans with k.
Qed.
Lemma small_divisor n : 1 < n -> ~ prime n -> exists p, prime p /\ (p | n) /\ p * p <= n.
Proof.
  intros Hn Hp. destruct (not_prime_divide n Hn Hp) as (k & Hk & [c Hc]). assert (1 < c) by nia.
  destruct (Z_le_dec k c).
  - destruct (prime_divisor k) as (p & Hpp & Hd); [lia|]. exists p. split; [auto|]. split; [apply Z.divide_trans with k; auto; now exists c|].
    apply Z.divide_pos_le in Hd; [|lia]. assert (0 < p) by (destruct Hpp; lia). nia.
  - destruct (prime_divisor c) as (p & Hpp & Hd); [lia|]. exists p. split; [auto|]. split; [apply Z.divide_trans with c; auto; exists k; lia|].
    apply Z.divide_pos_le in Hd; [|lia]. assert (0 < p) by (destruct Hpp; lia). nia.
Qed.
Lemma cong_divide p n a b : (p | n) -> cong n a b -> cong p a b.
Proof. intros H1 H2. now apply Z.divide_trans with n. Qed.

Lemma entry_sound n p l e a : prime l -> prime p -> 2 < n -> (p | n) -> entry_ok n (l, e, a) = true -> (l ^ Z.of_nat (S e) | p - 1).
Proof.
  intros Hl Hp Hn Hpn H. unfold entry_ok in H. rewrite !andb_true_iff, !Z.eqb_eq in H. destruct H as [[H1 H2] H3].
  assert (Hp1 : 1 < p) by (destruct Hp; lia). assert (Hl1 : 1 < l) by (destruct Hl; lia).
  assert (Hle : 0 < l ^ Z.of_nat (S e)) by (apply Z.pow_pos_nonneg; lia). assert (Hle' : 0 < l ^ Z.of_nat e) by (apply Z.pow_pos_nonneg; lia).
  apply Z.mod_divide in H1; [|lia]. destruct H1 as [c Hc]. assert (Hcp : 0 < c) by nia.
  assert (El : l ^ Z.of_nat (S e) = l * l ^ Z.of_nat e) by (rewrite Nat2Z.inj_succ, Z.pow_succ_r by lia; reflexivity).
  assert (Ed : (n - 1) / l = c * l ^ Z.of_nat e).
  { rewrite Hc, El. replace (c * (l * l ^ Z.of_nat e)) with ((c * l ^ Z.of_nat e) * l) by ring. now rewrite Z.div_mul by lia. }
  assert (A1 : cong p (a ^ (n - 1)) 1).
  { pose proof (powmod_ok a (Z.to_pos (n - 1)) n ltac:(lia)) as E. rewrite H2, Z2Pos.id in E by lia. apply (cong_divide p n); auto. now apply cong_sym. }
  assert (A2 : ~ cong p (a ^ ((n - 1) / l)) 1).
  { intros G. pose proof (powmod_ok a (Z.to_pos ((n - 1) / l)) n ltac:(lia)) as E. rewrite Z2Pos.id in E by (rewrite Ed; nia).
    apply (cong_divide p n) in E; auto. rewrite G in E. assert (p | Z.gcd (powmod a (Z.to_pos ((n - 1) / l)) n - 1) n) by (apply Z.gcd_greatest; auto).
    rewrite H3 in H. apply Z.divide_1_r in H. lia. }
  apply (order_pow p l Hl Hp1 e (a ^ c) (p - 1)); [lia| | |].
  - rewrite <- Z.pow_mul_r by lia. now rewrite <- Hc.
  - rewrite <- Z.pow_mul_r by lia. now rewrite <- Ed.
  - apply fermat_int; auto. intros Hd. assert (Hz : cong p (a ^ (n - 1)) 0).
    { rewrite Hc. rewrite Z.pow_mul_r by lia. assert (E0 : cong p (a ^ c) 0) by (red; rewrite Z.sub_0_r; auto).
      rewrite (cong_pow p _ 0 _ (Z.lt_le_incl _ _ Hle) E0). rewrite Z.pow_0_l by exact Hle. apply cong_refl. }
    rewrite A1 in Hz. destruct Hz as [d Hdz]. assert (1 = d * p) by lia. assert (p | 1) by (exists d; lia). apply Z.divide_1_r in H0. lia.
Qed.
Lemma rel_prime_pow l l' e e' : prime l -> prime l' -> l <> l' -> rel_prime (l ^ Z.of_nat e) (l' ^ Z.of_nat e').
Proof.
  intros H1 H2 Hne. assert (H0 : rel_prime l l') by (apply prime_rel_prime; auto; intros Hd; apply prime_div_prime in Hd; auto).
  assert (HH : forall x y n, rel_prime x y -> rel_prime x (y ^ Z.of_nat n)).
  { intros x y n H. induction n as [|n IH]; [apply rel_prime_sym, rel_prime_1|]. rewrite Nat2Z.inj_succ, Z.pow_succ_r by lia. now apply rel_prime_mult. }
  apply HH. apply rel_prime_sym, HH, rel_prime_sym. exact H0.
Qed.
Lemma factored_divides m cs : Forall (fun '(l, _, _) => prime l) cs -> NoDup (map (fun '(l, _, _) => l) cs) ->
  Forall (fun '(l, e, _) => (l ^ Z.of_nat (S e) | m)) cs -> (factored cs | m).
Proof.
  unfold factored. induction cs as [|[[l e] a] cs IH]; intros HP HN HD; [apply Z.divide_1_l|].
  inversion_clear HP. inversion_clear HN. inversion_clear HD. cbn [map product fold_right]. 
  assert (G : (product (map (fun '(l, e, _) => l ^ Z.of_nat (S e)) cs) | m)) by (apply IH; auto).
  destruct G as [c Hc]. unfold product in *. set (F := fold_right Z.mul 1 _) in *.
  assert (HR : rel_prime (l ^ Z.of_nat (S e)) F).
  { subst F. clear - H H0 H1. induction cs as [|[[l' e'] a'] cs IH]; cbn [map fold_right]; [apply rel_prime_sym, rel_prime_1|].
    inversion_clear H0. apply rel_prime_mult.
    - apply rel_prime_pow; auto. intros ->. apply H1. cbn. auto.
    - apply IH; auto. intros Hin. apply H1. cbn. auto. }
  rewrite Hc in H3. assert (l ^ Z.of_nat (S e) | c).
  { apply Gauss with F; auto. now rewrite Z.mul_comm. }
  destruct H5 as [d ->]. exists d. rewrite Hc. ring.
Qed.
Theorem pocklington n cs : Forall (fun '(l, _, _) => prime l) cs -> NoDup (map (fun '(l, _, _) => l) cs) -> pock_b n cs = true -> prime n.
Proof.
  intros HP HN H. unfold pock_b in H. rewrite !andb_true_iff, !Z.ltb_lt in H. destruct H as [[H1 H2] H3].
  destruct (prime_dec n) as [|Hnp]; [auto|]. exfalso. destruct (small_divisor n ltac:(lia) Hnp) as (p & Hp & Hd & Hle).
  assert (Hp1 : 1 < p) by (destruct Hp; lia).
  assert (HF : (factored cs | p - 1)).
  { apply factored_divides; auto. rewrite forallb_forall in H2. rewrite Forall_forall in *. intros [[l e] a] Hin.
    exact (entry_sound n p l e a (HP _ Hin) Hp H1 Hd (H2 _ Hin)). }
  apply Z.divide_pos_le in HF; [|lia].
  assert (0 <= factored cs). { unfold factored. clear - HP. induction cs as [|[[l e] a] cs IH]; [cbn; lia|]. inversion_clear HP. cbn [map product fold_right]. assert (0 < l) by (destruct H; lia).
    unfold product in *. specialize (IH H0). apply Z.mul_nonneg_nonneg; [|auto]. apply Z.pow_nonneg. lia. }
  nia.
Qed.
(** certificates whose prime factors are small enough for trial division *)
Fixpoint nodup_b (l : list Z) : bool := match l with [] => true | a :: l => negb (existsb (Z.eqb a) l) && nodup_b l end.
Lemma nodup_b_ok l : nodup_b l = true -> NoDup l.
Proof.
  induction l as [|a l IH]; cbn; intros H; [constructor|]. apply andb_true_iff in H as [H1 H2]. constructor; auto.
  intros Hin. apply negb_true_iff in H1. rewrite <- not_true_iff_false in H1. apply H1. apply existsb_exists. exists a. split; auto. apply Z.eqb_refl.
Qed.
Definition cert_b (c : Z * list entry) : bool :=
  let '(n, cs) := c in
  forallb (fun '(l, _, _) => prime_b l) cs && nodup_b (map (fun '(l, _, _) => l) cs) && pock_b n cs.
Theorem cert_prime n cs : cert_b (n, cs) = true -> prime n.
Proof.
  unfold cert_b. rewrite !andb_true_iff. intros [[H1 H2] H3]. apply (pocklington n cs); auto; [|now apply nodup_b_ok].
  apply Forall_forall. intros [[l e] a] Hin. rewrite forallb_forall in H1. apply prime_b_ok. apply (H1 _ Hin).
Qed.
