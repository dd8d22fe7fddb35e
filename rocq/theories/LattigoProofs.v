(** Correctness of the scalar primitives. *)
From Coq Require Import ZArith Znumtheory List Lia Setoid Morphisms.
From Verif Require Import Go Lattigo Arith.
Local Open Scope Z_scope.

Lemma W_pos : 0 < W. Proof. reflexivity. Qed.
Lemma W_val : W = 18446744073709551616. Proof. reflexivity. Qed.
Global Opaque W.

Lemma wrap_range x : 0 <= wrap x < W.
Proof. apply Z.mod_pos_bound, W_pos. Qed.
Lemma wrap_small x : 0 <= x < W -> wrap x = x.
Proof. apply Z.mod_small. Qed.
Lemma wrap_cong x : cong W (wrap x) x.
Proof. apply cong_mod. pose proof W_pos; lia. Qed.
Lemma wrap_uniq x y : cong W x y -> 0 <= y < W -> wrap x = y.
Proof.
  intros H Hy. apply (cong_small W); auto using wrap_range.
  eapply cong_trans; [apply wrap_cong|auto].
Qed.
Lemma mulhi_bound x y : 0 <= x < W -> 0 <= y < W -> 0 <= mulhi x y < W.
Proof.
  intros. unfold mulhi. split.
  - apply Z.div_pos; [nia|apply W_pos].
  - apply Z.div_lt_upper_bound; nia.
Qed.
Lemma mul_hilo x y : x * y = mulhi x y * W + mullo x y.
Proof. unfold mulhi, mullo. pose proof (Z.div_mod (x*y) W). pose proof W_pos. lia. Qed.
Lemma mullo_range x y : 0 <= mullo x y < W.
Proof. apply Z.mod_pos_bound, W_pos. Qed.

(** * MRedParams is the inverse of an odd modulus modulo 2^64 *)
Lemma mred_loop_spec n : forall a q, cong W (mred_loop n a q) (a * q ^ (2 ^ Z.of_nat n - 1)).
Proof.
  induction n as [|n IH]; intros a q.
  - cbn. rewrite Z.mul_1_r. apply cong_refl.
  - cbn [mred_loop]. rewrite IH. unfold wmul. rewrite (wrap_cong (a*q)).
    rewrite (cong_pow _ _ (q*q)); [|pose proof (Z.pow_pos_nonneg 2 (Z.of_nat n)); lia|apply wrap_cong].
    apply cong_eq. rewrite Nat2Z.inj_succ, Z.pow_succ_r by lia.
    set (m := 2 ^ Z.of_nat n). assert (0 < m) by (apply Z.pow_pos_nonneg; lia).
    replace (q*q) with (q^2) by ring.
    rewrite <- Z.pow_mul_r by lia.
    replace (2 * m - 1) with (1 + 2*(m-1)) by ring.
    rewrite Z.pow_add_r by lia. ring.
Qed.

Lemma odd_pow2_pow n : forall q, Z.odd q = true ->
  cong (2 ^ Z.of_nat (S n)) (q ^ (2 ^ Z.of_nat n)) 1.
Proof.
  induction n as [|n IH]; intros q Hq.
  - cbn -[Z.pow Z.of_nat]. change (2 ^ Z.of_nat 0) with 1. rewrite Z.pow_1_r.
    change (2 ^ Z.of_nat 1) with 2. apply Z.odd_spec in Hq. destruct Hq as [k ->].
    exists k. ring.
  - specialize (IH q Hq). rewrite (Nat2Z.inj_succ n), (Z.pow_succ_r 2 (Z.of_nat n)) by lia.
    rewrite Z.mul_comm. rewrite Z.pow_mul_r by (try apply Z.pow_nonneg; lia).
    rewrite (Nat2Z.inj_succ (S n)), Z.pow_succ_r by lia.
    destruct IH as [k Hk]. set (x := q ^ 2 ^ Z.of_nat n) in *.
    set (m := 2 ^ Z.of_nat (S n)) in *.
    assert (Hm : (2 | m)).
    { unfold m. rewrite Nat2Z.inj_succ, Z.pow_succ_r by lia. apply Z.divide_factor_l. }
    destruct Hm as [h Hh].
    exists (k * k * h + k). replace x with (1 + k*m) by lia.
    rewrite Hh. ring.
Qed.

Theorem MRedParams_spec q : Z.odd q = true -> cong W (MRedParams q * q) 1.
Proof.
  intros Hq. unfold MRedParams.
  rewrite (mred_loop_spec 63 1 q). rewrite Z.mul_1_l.
  assert (E : q ^ (2 ^ Z.of_nat 63 - 1) * q = q ^ (2 ^ Z.of_nat 63)).
  { replace (2 ^ Z.of_nat 63) with (Z.succ (2 ^ Z.of_nat 63 - 1)) at 2 by lia.
    rewrite Z.pow_succ_r by (vm_compute; discriminate). ring. }
  rewrite E. pose proof (odd_pow2_pow 63 q Hq) as H.
  exact H.
Qed.
Lemma MRedParams_range q : 0 <= q < W -> 0 <= MRedParams q < W.
Proof.
  intros. unfold MRedParams. change 63%nat with (S 62). generalize 62%nat.
  intros n. assert (G : forall n a q, 0 <= a < W -> 0 <= mred_loop n a q < W).
  { clear. induction n; cbn; intros; auto. apply IHn. apply wrap_range. }
  cbn. apply G. apply wrap_range.
Qed.

(** A modulus as used by the library. *)
Definition okmod (q : Z) : Prop := Z.odd q = true /\ 1 < q < 2 ^ 62.

Lemma okmod_W q : okmod q -> 4 * q < W.
Proof. intros [_ H]. rewrite W_val. change (2^62) with 4611686018427387904 in H. lia. Qed.

Lemma okmod_coprime q : okmod q -> rel_prime W q.
Proof.
  intros [H _]. pose proof (MRedParams_spec q H) as [k Hk].
  apply bezout_rel_prime. exists (-k) (MRedParams q). lia.
Qed.

(** Montgomery reduction core: with H = hi((alo*qInv mod W)*q),
    A - (..)*q = W*(ahi - H). *)
Lemma mont_core A q qInv :
  0 < q < W -> cong W (qInv * q) 1 -> 0 <= A ->
  let H := mulhi (wmul (A mod W) qInv) q in
  W * (A / W - H) = A - wmul (A mod W) qInv * q /\ 0 <= H < q.
Proof.
  intros Hq Hinv HA H.
  set (m := wmul (A mod W) qInv) in *.
  assert (Hm : 0 <= m < W) by apply wrap_range.
  assert (Hc : cong W (m * q) A).
  { unfold m, wmul. rewrite wrap_cong. rewrite <- Z.mul_assoc.
    rewrite Hinv. rewrite Z.mul_1_r. apply cong_mod. pose proof W_pos; lia. }
  assert (Hlo : mullo m q = A mod W).
  { unfold mullo. apply cong_eq_mod; auto. pose proof W_pos; lia. }
  pose proof (mul_hilo m q) as E. fold H in E. rewrite Hlo in E.
  pose proof (Z.div_mod A W ltac:(pose proof W_pos; lia)).
  split; [lia|].
  unfold H, mulhi. split.
  - apply Z.div_pos; [nia|apply W_pos].
  - apply Z.div_lt_upper_bound; [apply W_pos|]. nia.
Qed.

Theorem MRed_spec x y q :
  okmod q -> 0 <= x < W -> 0 <= y < W -> x * y < q * W ->
  0 <= MRed x y q (MRedParams q) < q /\
  cong q (MRed x y q (MRedParams q) * W) (x * y).
Proof.
  intros Hok Hx Hy Hxy.
  pose proof (okmod_W q Hok) as HqW. pose proof (okmod_coprime q Hok).
  destruct Hok as [Hodd Hq].
  pose proof (MRedParams_spec q Hodd) as Hinv.
  assert (HA : 0 <= x * y) by nia.
  destruct (mont_core (x*y) q (MRedParams q)) as [E HH]; auto; [lia|].
  unfold MRed. fold (mulhi x y) in E. fold (mullo x y) in E, HH.
  set (H0 := mulhi _ q) in *.
  assert (Hahi : 0 <= mulhi x y < q).
  { unfold mulhi. split; [apply Z.div_pos; [nia|apply W_pos]|].
    apply Z.div_lt_upper_bound; [apply W_pos|nia]. }
  assert (Er : wadd (wsub (mulhi x y) H0) q = mulhi x y - H0 + q).
  { unfold wadd, wsub. apply wrap_uniq; [|lia].
    rewrite (wrap_cong (mulhi x y - H0)). apply cong_refl. }
  cbn zeta. rewrite Er.
  assert (C : cong q ((mulhi x y - H0) * W) (x*y)).
  { rewrite Z.mul_comm, E. unfold cong.
    exists (- wmul (mullo x y) (MRedParams q)). ring. }
  destruct (Z.leb_spec q (mulhi x y - H0 + q)).
  - unfold wsub. rewrite wrap_small by lia. split; [lia|].
    rewrite <- C. apply cong_eq. ring.
  - split; [lia|]. rewrite <- C. exists W. ring.
Qed.

Lemma CRed_spec a q : 0 < q -> 0 <= a < 2 * q -> a < W ->
  0 <= CRed a q < q /\ cong q (CRed a q) a.
Proof.
  intros Hq Ha HW. unfold CRed. destruct (Z.leb_spec q a).
  - unfold wsub. rewrite wrap_small by lia. split; [lia|]. exists (-1). ring.
  - split; [lia|apply cong_refl].
Qed.

Lemma barrett_core A b D q t :
  0 < q -> 0 < D -> 0 <= A <= D -> q * b <= D < q * (b + 1) ->
  A * b - D < t * D <= A * b -> 0 <= A - t * q < 2 * q.
Proof.
  intros Hq HD HA Hb Ht. split.
  - assert (t * q * D <= A * D); [|nia].
    transitivity (A * b * q); [nia|]. nia.
  - assert (A * D < (t + 2) * q * D); [|nia].
    destruct (Z.eq_dec A 0) as [->|Hn].
    + assert (0 < t + 1) by nia. nia.
    + assert (H1 : A * D < A * (q * (b+1))) by nia.
      assert (H2 : q * (A * b) < q * ((t+1) * D)) by nia.
      assert (H3 : A * q <= D * q) by nia.
      replace (A * (q * (b+1))) with (q * (A * b) + A * q) in H1 by ring.
      replace ((t+2)*q*D) with (q * ((t+1)*D) + D * q) by ring. lia.
Qed.

Theorem MForm_spec a q :
  okmod q -> 0 <= a < W ->
  0 <= MForm a q (BRedParams q) < q /\ cong q (MForm a q (BRedParams q)) (a * W).
Proof.
  intros Hok Ha. pose proof (okmod_W q Hok) as HqW. destruct Hok as [Hodd Hq].
  unfold MForm, BRedParams. cbn [fst snd].
  set (b := 2 ^ 128 / q).
  assert (HWW : 2 ^ 128 = W * W) by (rewrite W_val; reflexivity).
  assert (Hb : q * b <= W * W < q * (b + 1)).
  { rewrite <- HWW. unfold b. pose proof (Z.div_mod (2^128) q ltac:(lia)).
    pose proof (Z.mod_pos_bound (2^128) q ltac:(lia)). lia. }
  assert (Hb0 : 0 <= b) by (unfold b; apply Z.div_pos; lia).
  set (t := a * (b / W) + mulhi a (b mod W)).
  assert (Ht : t = a * b / W).
  { unfold t, mulhi. pose proof W_pos. rewrite (Z.div_mod b W) at 3 by lia.
    rewrite Z.mul_add_distr_l.
    replace (a * (W * (b / W))) with (a * (b / W) * W) by ring.
    rewrite Z.div_add_l by lia. reflexivity. }
  assert (Htr : a * b - W < t * W <= a * b).
  { rewrite Ht. pose proof W_pos. pose proof (Z.div_mod (a*b) W ltac:(lia)).
    pose proof (Z.mod_pos_bound (a*b) W ltac:(lia)). lia. }
  assert (Hr : 0 <= a * W - t * q < 2 * q).
  { pose proof W_pos. apply (barrett_core (a*W) b (W*W)); try nia; auto. }
  assert (Er : wmul (wsub 0 (wadd (wmul a (b / W)) (mulhi a (b mod W)))) q = a * W - t * q).
  { unfold wmul, wsub, wadd. apply wrap_uniq; [|lia].
    rewrite !wrap_cong. fold t. exists (- a). ring. }
  cbn zeta. rewrite Er.
  destruct (CRed_spec (a * W - t * q) q) as [R C]; [lia|lia|lia|].
  unfold CRed in R, C. split; [exact R|].
  rewrite C. exists (-t). ring.
Qed.

Theorem BRedAdd_spec x q :
  okmod q -> 0 <= x < W -> BRedAdd x q (BRedParams q) = x mod q.
Proof.
  intros Hok Hx. pose proof (okmod_W q Hok) as HqW. destruct Hok as [Hodd Hq].
  unfold BRedAdd, BRedParams. cbn [fst snd].
  assert (HWW : 2 ^ 128 = W * W) by (rewrite W_val; reflexivity).
  pose proof W_pos.
  rewrite Z.div_div by lia. rewrite HWW, Z.div_mul_cancel_r by lia.
  set (u := W / q).
  assert (Hu : q * u <= W < q * (u+1)).
  { unfold u. pose proof (Z.div_mod W q ltac:(lia)).
    pose proof (Z.mod_pos_bound W q ltac:(lia)). lia. }
  assert (0 <= u) by (unfold u; apply Z.div_pos; lia).
  unfold mulhi. set (s := x * u / W).
  assert (Hs : x * u - W < s * W <= x * u).
  { unfold s. pose proof (Z.div_mod (x*u) W ltac:(lia)).
    pose proof (Z.mod_pos_bound (x*u) W ltac:(lia)). lia. }
  assert (Hr : 0 <= x - s * q < 2 * q).
  { apply (barrett_core x u W); try lia; auto. }
  cbn zeta.
  assert (Er : wsub x (wmul s q) = x - s * q).
  { unfold wmul, wsub. apply wrap_uniq; [|lia]. rewrite !wrap_cong. apply cong_refl. }
  rewrite Er.
  destruct (CRed_spec (x - s * q) q) as [R C]; [lia|lia|lia|].
  unfold CRed in R, C. apply (cong_small q); [lia|apply Z.mod_pos_bound; lia|].
  rewrite C. rewrite cong_mod by lia. exists (-s). ring.
Qed.

Theorem BRed_spec x y q :
  okmod q -> 0 <= x < W -> 0 <= y < W ->
  BRed x y q (BRedParams q) = (x * y) mod q.
Proof.
  intros Hok Hx Hy. pose proof (okmod_W q Hok) as HqW. destruct Hok as [Hodd Hq].
  unfold BRed, BRedParams, add64. cbn [fst snd].
  assert (HWW : 2 ^ 128 = W * W) by (rewrite W_val; reflexivity).
  set (b := 2 ^ 128 / q).
  assert (Hb : q * b <= W * W < q * (b + 1)).
  { rewrite <- HWW. unfold b. pose proof (Z.div_mod (2^128) q ltac:(lia)).
    pose proof (Z.mod_pos_bound (2^128) q ltac:(lia)). lia. }
  assert (Hb0 : 0 <= b) by (unfold b; apply Z.div_pos; lia).
  set (ahi := mulhi x y). set (alo := mullo x y).
  set (uhi := b / W). set (ulo := b mod W).
  pose proof W_pos as HW.
  assert (Eb : b = uhi * W + ulo).
  { unfold uhi, ulo. pose proof (Z.div_mod b W ltac:(lia)). lia. }
  assert (Hulo : 0 <= ulo < W) by (apply Z.mod_pos_bound; lia).
  assert (Huhi : 0 <= uhi) by (apply Z.div_pos; lia).
  assert (Eab : x * y = ahi * W + alo) by apply mul_hilo.
  assert (Halo : 0 <= alo < W) by apply mullo_range.
  assert (Hahi : 0 <= ahi < W) by (apply mulhi_bound; auto).
  set (A := x * y) in *.
  set (t := A * b / (W * W)).
  (* the computed quotient is congruent to t modulo W *)
  pose proof (mul_hilo alo ulo) as E1. pose proof (mullo_range alo ulo) as R1.
  pose proof (mul_hilo alo uhi) as E2. pose proof (mullo_range alo uhi) as R2.
  pose proof (mul_hilo ahi ulo) as E3. pose proof (mullo_range ahi ulo) as R3.
  set (h1 := mulhi alo ulo) in *. set (h2 := mulhi alo uhi) in *. set (h3 := mulhi ahi ulo) in *.
  set (l1 := mullo alo ulo) in *. set (l2 := mullo alo uhi) in *. set (l3 := mullo ahi ulo) in *.
  set (c1 := (l2 + h1) / W). set (s0 := wrap (l2 + h1)).
  assert (F1 : l2 + h1 = c1 * W + s0).
  { unfold c1, s0, wrap. pose proof (Z.div_mod (l2+h1) W ltac:(lia)). lia. }
  pose proof (wrap_range (l2 + h1)) as S0. fold s0 in S0.
  set (c2 := (l3 + s0) / W). 
  assert (F2 : l3 + s0 = c2 * W + (l3 + s0) mod W).
  { unfold c2. pose proof (Z.div_mod (l3+s0) W ltac:(lia)). lia. }
  pose proof (Z.mod_pos_bound (l3 + s0) W HW) as S1.
  assert (Et : t = ahi * uhi + h2 + c1 + (h3 + c2)).
  { unfold t. symmetry. apply Z.div_unique with (r := (l3 + s0) mod W * W + l1).
    - left. nia.
    - rewrite Eab, Eb.
      replace ((ahi * W + alo) * (uhi * W + ulo)) with
        (ahi * uhi * (W * W) + (ahi * ulo) * W + (alo * uhi) * W + alo * ulo) by ring.
      rewrite E1, E2, E3.
      set (m := (l3 + s0) mod W) in *.
      replace (l2) with (c1 * W + s0 - h1) by lia.
      replace l3 with (c2 * W + m - s0) by lia. ring. }
  assert (HA : 0 <= A < W * W) by (unfold A; nia).
  assert (Htr : A * b - W * W < t * (W * W) <= A * b).
  { unfold t. pose proof (Z.div_mod (A*b) (W*W) ltac:(nia)).
    pose proof (Z.mod_pos_bound (A*b) (W*W) ltac:(nia)). lia. }
  assert (Hr : 0 <= A - t * q < 2 * q).
  { apply (barrett_core A b (W*W)); try lia; auto. }
  set (Q := wadd _ _).
  assert (EQ : cong W Q t).
  { unfold Q, wadd, wmul. rewrite !wrap_cong. rewrite Et. apply cong_eq. ring. }
  assert (Er : wsub alo (wmul Q q) = A - t * q).
  { unfold wsub, wmul. apply wrap_uniq; [|lia]. rewrite !wrap_cong, EQ.
    exists (- ahi). lia. }
  cbn zeta. rewrite Er.
  destruct (CRed_spec (A - t * q) q) as [R C]; [lia|lia|lia|].
  unfold CRed in R, C. apply (cong_small q); [lia|apply Z.mod_pos_bound; lia|].
  rewrite C. rewrite cong_mod by lia. exists (-t). ring.
Qed.

Lemma modexp_loop_spec e : forall x r p,
  okmod p -> 0 <= x < W -> 0 <= r < W ->
  0 <= modexp_loop e x r p (BRedParams p) < p /\
  cong p (modexp_loop e x r p (BRedParams p)) (r * x ^ Zpos e).
Proof.
  induction e as [e IH|e IH|]; intros x r p Hok Hx Hr;
    pose proof (okmod_W p Hok) as HpW; pose proof Hok as [_ Hp]; cbn [modexp_loop].
  - rewrite !BRed_spec by auto.
    pose proof (Z.mod_pos_bound (x*x) p ltac:(lia)). pose proof (Z.mod_pos_bound (r*x) p ltac:(lia)).
    destruct (IH ((x*x) mod p) ((r*x) mod p) p) as [R C]; auto; try lia.
    split; [exact R|]. rewrite C. rewrite (cong_mod p (r*x)) by lia.
    rewrite (cong_pow p _ (x*x)); [|lia|apply cong_mod; lia].
    apply cong_eq. rewrite Pos2Z.inj_xI. replace (x*x) with (x^2) by ring.
    rewrite <- Z.pow_mul_r by lia.
    rewrite Z.pow_add_r by lia. ring.
  - rewrite !BRed_spec by auto.
    pose proof (Z.mod_pos_bound (x*x) p ltac:(lia)).
    destruct (IH ((x*x) mod p) r p) as [R C]; auto; try lia.
    split; [exact R|]. rewrite C.
    rewrite (cong_pow p _ (x*x)); [|lia|apply cong_mod; lia].
    apply cong_eq. rewrite Pos2Z.inj_xO. replace (x*x) with (x^2) by ring.
    rewrite <- Z.pow_mul_r by lia. ring.
  - rewrite !BRed_spec by auto. split; [apply Z.mod_pos_bound; lia|].
    rewrite cong_mod by lia. apply cong_eq. ring.
Qed.

Theorem ModExp_spec x e p :
  okmod p -> 0 <= x < W -> 0 < e ->
  ModExp x e p = (x ^ e) mod p.
Proof.
  intros Hok Hx He. destruct e as [|e|e]; try lia. cbn [ModExp].
  pose proof Hok as [_ Hp].
  destruct (modexp_loop_spec e x 1 p) as [R C]; auto; [rewrite W_val; lia|].
  apply (cong_small p); auto. apply Z.mod_pos_bound; lia.
  rewrite C, Z.mul_1_l, cong_mod by lia. reflexivity.
Qed.

Lemma modexp_mont_spec e : forall x r q X R,
  okmod q -> 0 <= x < q -> 0 <= r < q ->
  cong q x (X * W) -> cong q r (R * W) ->
  0 <= modexp_mont e x r q (MRedParams q) < q /\
  cong q (modexp_mont e x r q (MRedParams q)) (R * X ^ Zpos e * W).
Proof.
  assert (M : forall q a b A B, okmod q -> 0 <= a < q -> 0 <= b < q -> cong q a (A*W) -> cong q b (B*W) ->
     0 <= MRed a b q (MRedParams q) < q /\ cong q (MRed a b q (MRedParams q)) (A*B*W)).
  { intros q a b A B Hok Ha Hb EA EB. pose proof (okmod_W q Hok).
    destruct (MRed_spec a b q) as [R C]; auto; try lia; [nia|].
    split; [exact R|]. apply cong_mul_cancel with W; [now apply okmod_coprime|].
    rewrite (Z.mul_comm W). rewrite C, EA, EB. apply cong_eq. ring. }
  induction e as [e IH|e IH|]; intros x r q X R Hok Hx Hr EX ER; cbn [modexp_mont].
  - destruct (M q x x X X) as [R1 C1]; auto. destruct (M q r x R X) as [R2 C2]; auto.
    destruct (IH _ _ q _ _ Hok R1 R2 C1 C2) as [R3 C3]. split; [exact R3|].
    rewrite C3. apply cong_eq. rewrite Pos2Z.inj_xI. replace (X*X) with (X^2) by ring.
    rewrite <- Z.pow_mul_r by lia. rewrite Z.pow_add_r by lia. ring.
  - destruct (M q x x X X) as [R1 C1]; auto.
    destruct (IH _ _ q _ _ Hok R1 Hr C1 ER) as [R3 C3]. split; [exact R3|].
    rewrite C3. apply cong_eq. rewrite Pos2Z.inj_xO. replace (X*X) with (X^2) by ring.
    rewrite <- Z.pow_mul_r by lia. ring.
  - destruct (M q r x R X) as [R2 C2]; auto. split; [exact R2|]. rewrite C2. apply cong_eq. ring.
Qed.
