(** Correctness of the basis extension: tables, ModUp, ModDown, decomposition. *)
From Coq Require Import ZArith Znumtheory List Lia Setoid Morphisms Reals.
From Verif Require Import Go GoProofs Lattigo LattigoProofs Arith Fermat F64 F64Proofs ModUpFloat BasisExt.
From Verif Require Export Repr.
Import ListNotations.
Local Open Scope Z_scope.

(** moduli for which the 128-bit accumulations cannot overflow *)
Lemma mod61_ok q : mod61 q -> okmod q.
Proof. intros [H1 H2]. split; auto. assert (2^61 < 2^62) by reflexivity. lia. Qed.
Lemma mod61_W q : mod61 q -> 8 * q < W.
Proof. intros [_ H]. rewrite W_val. change (2^61) with 2305843009213693952 in H. lia. Qed.

(** multiplication by MRed of a Montgomery-form operand *)
Lemma MRed_mform a c C q : okmod q -> 0 <= a < q -> 0 <= c < q -> cong q c (C * W) ->
  0 <= MRed a c q (MRedParams q) < q /\ cong q (MRed a c q (MRedParams q)) (a * C).
Proof.
  intros Hok Ha Hc EC. pose proof (okmod_W q Hok).
  destruct (MRed_spec a c q) as [R C0]; auto; try lia; [nia|].
  split; [exact R|]. apply cong_mul_cancel with W; [now apply okmod_coprime|].
  rewrite (Z.mul_comm W). rewrite C0, EC. apply cong_eq. ring.
Qed.

Lemma mont_fold_spec m i l : forall s acc A,
  okmod m -> Forall (fun q => 0 <= q < W) l -> 0 <= acc < m -> cong m acc A ->
  let r := fold_left (fun acc '(j, qj) =>
      if Nat.eqb j i then acc
      else MRed acc (MForm qj m (BRedParams m)) m (MRedParams m))
    (combine (seq s (length l)) l) acc in
  0 <= r < m /\ 
  cong m r (A * (if (s <=? i)%nat then prodZ (firstn (i - s) l) * prodZ (skipn (S (i - s)) l) else prodZ l)).
Proof.
  induction l as [|q l IH]; intros s acc A Hok Hl Hacc EA; cbn [length seq combine fold_left].
  - split; [exact Hacc|]. rewrite firstn_nil, skipn_nil. cbn [prodZ].
    rewrite EA. apply cong_eq. destruct (s <=? i)%nat; ring.
  - inversion_clear Hl as [|? ? Hq Hl'].
    destruct (Nat.eqb_spec s i) as [->|Hn].
    + destruct (IH (S i) acc A) as [R C]; auto. split; [exact R|]. rewrite C.
      apply cong_eq. destruct (Nat.leb_spec (S i) i); [lia|].
      rewrite Nat.leb_refl. rewrite Nat.sub_diag. cbn [firstn skipn prodZ]. ring.
    + destruct (MForm_spec q m Hok Hq) as [R1 C1].
      destruct (MRed_mform acc _ q m Hok Hacc R1 C1) as [R2 C2].
      destruct (IH (S s) _ (A * q) Hok Hl' R2) as [R C].
      { rewrite C2, EA. reflexivity. }
      split; [exact R|]. rewrite C. apply cong_eq.
      destruct (Nat.leb_spec (S s) i), (Nat.leb_spec s i); try lia.
      * replace (i - s)%nat with (S (i - S s)) by lia. cbn [firstn skipn prodZ]. ring.
      * cbn [prodZ]. ring.
Qed.

Lemma mont_prod_except_spec Q i start m A :
  okmod m -> Forall (fun q => 0 <= q < W) Q -> 0 <= start < m -> cong m start A ->
  0 <= mont_prod_except Q i start m < m /\ cong m (mont_prod_except Q i start m) (A * except Q i).
Proof.
  intros Hok HQ Hs EA. destruct (mont_fold_spec m i Q 0 start A Hok HQ Hs EA) as [R C].
  cbn [Nat.leb] in C. rewrite Nat.sub_0_r in C. split; [exact R|exact C].
Qed.
Lemma mont_prod_all_spec m l : forall acc A,
  okmod m -> Forall (fun q => 0 <= q < W) l -> 0 <= acc < m -> cong m acc A ->
  let r := fold_left (fun acc qi => MRed acc (MForm qi m (BRedParams m)) m (MRedParams m)) l acc in
  0 <= r < m /\ cong m r (A * prodZ l).
Proof.
  induction l as [|q l IH]; intros acc A Hok Hl Hacc EA; cbn [fold_left].
  - split; auto. cbn [prodZ]. rewrite EA. apply cong_eq. ring.
  - inversion_clear Hl as [|? ? Hq Hl'].
    destruct (MForm_spec q m Hok Hq) as [R1 C1].
    destruct (MRed_mform acc _ q m Hok Hacc R1 C1) as [R2 C2].
    destruct (IH _ (A * q) Hok Hl' R2) as [R C]. { rewrite C2, EA. reflexivity. }
    split; [exact R|]. rewrite C. apply cong_eq. cbn [prodZ]. ring.
Qed.

Lemma vtimes_spec n v p : forall last L,
  okmod p -> 0 <= v <= p -> 0 <= last < p -> cong p last L ->
  length (vtimes n v p last) = S n /\
  (forall i, (i <= n)%nat -> 0 <= nth i (vtimes n v p last) 0 < p /\
      cong p (nth i (vtimes n v p last) 0) (L + Z.of_nat i * v)).
Proof.
  induction n as [|n IH]; intros last L Hok Hv Hl EL; cbn [vtimes length].
  - split; auto. intros [|i] Hi; [|lia]. cbn [nth]. split; auto. rewrite EL. apply cong_eq; lia.
  - pose proof (okmod_W p Hok).
    assert (E : wadd last v = last + v) by (unfold wadd; apply wrap_small; lia).
    rewrite E. destruct (CRed_spec (last + v) p) as [R C]; try lia.
    destruct (IH (CRed (last + v) p) (L + v)) as [Hlen Hi]; auto.
    { rewrite C, EL. reflexivity. }
    split; [cbn; now rewrite Hlen|].
    intros [|i] Hin; cbn [nth].
    + split; auto. rewrite EL. apply cong_eq; lia.
    + destruct (Hi i ltac:(lia)) as [R' C']. split; auto. rewrite C'. apply cong_eq. lia.
Qed.

(** What the tables must contain; independent of how they are computed. *)
Record tables_ok (qs ps : list Z) (pr : modupParams) : Prop := {
  tk_len_inv : length (qoverqiinvqi pr) = length qs;
  tk_len_tab : length (qoverqimodp pr) = length ps;
  tk_len_v : length (vtimesqmodp pr) = length ps;
  tk_inv : forall i, (i < length qs)%nat ->
    0 <= nth i (qoverqiinvqi pr) 0 < nth i qs 0 /\
    cong (nth i qs 0) (nth i (qoverqiinvqi pr) 0 * except qs i) W;
  tk_row : forall j, (j < length ps)%nat -> length (nth j (qoverqimodp pr) []) = length qs;
  tk_tab : forall j i, (j < length ps)%nat -> (i < length qs)%nat ->
    0 <= nth i (nth j (qoverqimodp pr) []) 0 < nth j ps 0 /\
    cong (nth j ps 0) (nth i (nth j (qoverqimodp pr) []) 0) (W * except qs i);
  tk_vrow : forall j, (j < length ps)%nat -> length (nth j (vtimesqmodp pr) []) = S (length qs);
  tk_v : forall j v, (j < length ps)%nat -> (v <= length qs)%nat ->
    0 <= nth v (nth j (vtimesqmodp pr) []) 0 < nth j ps 0 /\
    cong (nth j ps 0) (nth v (nth j (vtimesqmodp pr) []) 0) (- (Z.of_nat v * prodZ qs)) }.

Lemma prime_not_divide_prod q l : prime q -> Forall prime l -> ~ In q l -> ~ (q | prodZ l).
Proof.
  intros Hq Hl Hn Hd. induction Hl as [|p l Hp Hl IH]; cbn [prodZ] in Hd.
  - destruct Hq as [Hq _]. apply Z.divide_1_r_nonneg in Hd; lia.
  - apply prime_mult in Hd as [Hd|Hd]; auto.
    + apply Hn. left. symmetry. now apply prime_div_prime.
    + apply IH; auto. intros H; apply Hn; now right.
Qed.

Lemma NoDup_except_not_in (l : list Z) i :
  NoDup l -> (i < length l)%nat -> ~ In (nth i l 0) (firstn i l ++ skipn (S i) l).
Proof.
  intros H Hi. assert (E : l = firstn i l ++ nth i l 0 :: skipn (S i) l).
  { rewrite <- (firstn_skipn i l) at 1. f_equal. clear H. revert i Hi.
    induction l as [|a l IH]; intros i Hi; cbn in Hi; [lia|].
    destruct i; [reflexivity|]. cbn [skipn nth]. rewrite IH by lia. reflexivity. }
  rewrite E in H. now apply NoDup_remove_2 in H.
Qed.

Lemma nth_map0 (f : Z -> Z) l i : (i < length l)%nat -> nth i (map f l) 0 = f (nth i l 0).
Proof. intros H. rewrite (nth_indep _ 0 (f 0)) by (now rewrite map_length). apply map_nth. Qed.
Lemma nth_mapl {A B} (f : A -> B) l i d d' : (i < length l)%nat -> nth i (map f l) d' = f (nth i l d).
Proof. intros H. rewrite (nth_indep _ d' (f d)) by (now rewrite map_length). apply map_nth. Qed.

Theorem basisextenderparameters_ok Q P :
  Forall mod61 Q -> Forall mod61 P -> Forall prime Q -> NoDup Q ->
  tables_ok Q P (basisextenderparameters Q P).
Proof.
  intros HQ HP Hpr Hnd.
  assert (HQW : Forall (fun q => 0 <= q < W) Q).
  { eapply Forall_impl; [|exact HQ]. intros q Hq. pose proof (mod61_W q Hq). destruct Hq; lia. }
  unfold basisextenderparameters. split; cbn [qoverqiinvqi qoverqimodp vtimesqmodp].
  - rewrite map_length, combine_length, seq_length. lia.
  - now rewrite map_length.
  - now rewrite map_length.
  - intros i Hi. rewrite (nth_map_combine _ Q i 0 0) by auto.
    set (q := nth i Q 0). 
    assert (Hq : mod61 q) by now apply Forall_nth_Z.
    assert (Hqp : prime q) by now apply Forall_nth_Z.
    pose proof (mod61_ok q Hq) as Hok. pose proof (okmod_W q Hok).
    destruct (MForm_spec 1 q Hok ltac:(rewrite W_val; lia)) as [R1 C1].
    destruct (mont_prod_except_spec Q i _ q _ Hok HQW R1 C1) as [R2 C2].
    set (star := mont_prod_except Q i (MForm 1 q (BRedParams q)) q) in *.
    assert (E2 : wsub q 2 = q - 2). { unfold wsub. apply wrap_small. destruct Hq; lia. }
    rewrite E2. assert (Hodd : q <> 2). { destruct Hq as [Ho _]. intros E; rewrite E in Ho; discriminate. }
    assert (Hq2 : 0 < q - 2) by (destruct Hq; lia).
    destruct (q - 2) as [|e|e] eqn:Ee; try lia.
    unfold ModexpMontgomery.
    destruct (modexp_mont_spec e star (MForm 1 q (BRedParams q)) q (except Q i) 1 Hok R2 R1) as [R3 C3].
    { rewrite C2. apply cong_eq. ring. }
    { exact C1. }
    split; [exact R3|]. rewrite C3.
    assert (Hx0 : 0 <= except Q i).
    { unfold except. apply Z.mul_nonneg_nonneg.
      - apply Z.lt_le_incl, prodZ_pos. apply Forall_forall. intros x Hx.
        assert (In x Q) by (rewrite <- (firstn_skipn i Q); apply in_or_app; auto).
        rewrite Forall_forall in HQ. destruct (HQ x); auto; lia.
      - apply Z.lt_le_incl, prodZ_pos. apply Forall_forall. intros x Hx.
        assert (In x Q) by (rewrite <- (firstn_skipn (S i) Q); apply in_or_app; auto).
        rewrite Forall_forall in HQ. destruct (HQ x); auto; lia. }
    assert (Hnd' : ~ (q | except Q i)).
    { unfold except. rewrite <- prodZ_app. apply prime_not_divide_prod; auto.
      - apply Forall_app. split.
        + apply Forall_forall. intros x Hx. rewrite Forall_forall in Hpr. apply Hpr.
          rewrite <- (firstn_skipn i Q); apply in_or_app; auto.
        + apply Forall_forall. intros x Hx. rewrite Forall_forall in Hpr. apply Hpr.
          rewrite <- (firstn_skipn (S i) Q); apply in_or_app; auto.
      - now apply NoDup_except_not_in. }
    pose proof (fermat_Z q (except Q i) Hqp Hx0 Hnd') as F.
    rewrite Z.mul_1_l.
    replace (except Q i ^ Z.pos e * W * except Q i) with (except Q i ^ (q - 1) * W).
    2:{ replace (q - 1) with (Z.succ (Z.pos e)) by lia. rewrite Z.pow_succ_r by lia. ring. }
    rewrite F. apply cong_eq. ring.
  - intros j Hj. rewrite (nth_mapl _ P j 0 []) by auto. now rewrite map_length, seq_length.
  - intros j i Hj Hi. rewrite (nth_mapl _ P j 0 []) by auto. rewrite nth_map_seq by auto.
    set (p := nth j P 0). assert (Hp : mod61 p) by now apply Forall_nth_Z.
    pose proof (mod61_ok p Hp) as Hok. pose proof (okmod_W p Hok).
    destruct (mont_prod_except_spec Q i 1 p 1 Hok HQW) as [R2 C2]; [destruct Hp; lia|reflexivity|].
    destruct (MForm_spec (mont_prod_except Q i 1 p) p Hok ltac:(lia)) as [R3 C3].
    split; [exact R3|]. rewrite C3, C2. apply cong_eq. ring.
  - intros j Hj. rewrite (nth_mapl _ P j 0 []) by auto.
    set (p := nth j P 0). assert (Hp : mod61 p) by now apply Forall_nth_Z.
    pose proof (mod61_ok p Hp) as Hok. pose proof (okmod_W p Hok).
    destruct (mont_prod_all_spec p Q 1 1 Hok HQW) as [R C]; [destruct Hp; lia|reflexivity|].
    fold (mont_prod_all Q p) in R, C.
    apply (vtimes_spec (length Q) (wsub p (mont_prod_all Q p)) p 0 0); auto; [|destruct Hp; lia|reflexivity].
    unfold wsub. rewrite wrap_small; lia.
  - intros j v Hj Hv. rewrite (nth_mapl _ P j 0 []) by auto.
    set (p := nth j P 0). assert (Hp : mod61 p) by now apply Forall_nth_Z.
    pose proof (mod61_ok p Hp) as Hok. pose proof (okmod_W p Hok).
    destruct (mont_prod_all_spec p Q 1 1 Hok HQW) as [R C]; [destruct Hp; lia|reflexivity|].
    fold (mont_prod_all Q p) in R, C.
    assert (Ew : wsub p (mont_prod_all Q p) = p - mont_prod_all Q p).
    { unfold wsub. rewrite wrap_small; lia. }
    destruct (vtimes_spec (length Q) (wsub p (mont_prod_all Q p)) p 0 0) as [_ Hi]; auto;
      [lia|destruct Hp; lia|reflexivity|].
    destruct (Hi v Hv) as [R' C']. split; [exact R'|]. rewrite C', Ew, C.
    exists (Z.of_nat v). ring.
Qed.

(** * reconstructRNS *)
Lemma foldM_ext_in {A S} (f g : S -> A -> res S) l s :
  (forall s a, In a l -> f s a = g s a) -> foldM f l s = foldM g l s.
Proof.
  revert s. induction l as [|a l IH]; intros s H; cbn; auto.
  rewrite H by (left; auto). destruct (g s a); cbn; auto. apply IH. intros; apply H; right; auto.
Qed.

Lemma recon_spec off k col Q inv :
  (1 <= k <= 32)%nat -> (off + k <= length Q)%nat -> (off + k <= length col)%nat -> length inv = k ->
  Forall mod61 Q -> Forall (fun x => 0 <= x < W) col ->
  (forall i, (i < k)%nat -> 0 <= nth i inv 0 < nth (off + i) Q 0) ->
  exists ys v, recon off k col Q inv = Ok (ys, v) /\ length ys = k /\
    (forall i, (i < k)%nat -> 0 <= nth i ys 0 < nth (off + i) Q 0 /\
       cong (nth (off + i) Q 0) (nth i ys 0 * W) (nth (off + i) col 0 * nth i inv 0)) /\
    0 <= v <= Z.of_nat k /\
    (forall Qp (c : nat -> Z), 0 < Qp -> (forall i, (i < k)%nat -> nth (off + i) Q 0 * c i = Qp) ->
       let Y := sumn k (fun i => nth i ys 0 * c i) - v * Qp in
       - Qp <= 2 ^ 42 * Y <= 2 ^ 42 * Qp + Qp).
Proof.
  intros Hk HQl Hcl Hil HQ Hcol Hinv.
  pose (I := fun (n : nat) (st : list Z * f64) =>
    length (fst st) = n /\
    (forall i, (i < n)%nat -> 0 <= nth i (fst st) 0 < nth (off + i) Q 0 /\
       cong (nth (off + i) Q 0) (nth i (fst st) 0 * W) (nth (off + i) col 0 * nth i inv 0)) /\
    exists r, fval (snd st) r /\ (0 <= r <= IZR (Z.of_nat n))%R /\
      forall Qp (c : nat -> Z), 0 < Qp -> (forall i, (i < n)%nat -> nth (off + i) Q 0 * c i = Qp) ->
        (Rabs (r - IZR (sumn n (fun i => (nth i (fst st) 0 * c i)%Z)) / IZR Qp) <= IZR (Z.of_nat n) * eps47)%R).
  destruct (foldM_seq_inv (recon_step off col Q inv) I k ([], f0)) as ([ys s] & E & HI).
  - intros n [ys s] Hn (Hlen & Hys & r & Fr & Hr & He). cbn [fst snd] in *.
    unfold recon_step. rewrite (idx_nth inv n 0) by lia. cbn [bind].
    rewrite (idx_nth Q (off+n) 0) by lia. cbn [bind].
    rewrite (idx_nth col (off+n) 0) by lia. cbn [bind].
    destruct (Nat.leb_spec 32 n); [lia|].
    set (q := nth (off+n) Q 0) in *. set (x := nth (off+n) col 0).
    assert (Hq : mod61 q) by (apply Forall_nth_Z; auto; lia).
    assert (Hx : 0 <= x < W) by (apply (Forall_nth_Z (fun x => 0 <= x < W)); auto; lia).
    pose proof (mod61_ok q Hq) as Hok. pose proof (okmod_W q Hok).
    destruct (MRed_spec x (nth n inv 0) q Hok) as [R C]; auto.
    { specialize (Hinv n Hn). fold q in Hinv. lia. }
    { specialize (Hinv n Hn). fold q in Hinv. nia. }
    set (y := MRed x (nth n inv 0) q (MRedParams q)) in *.
    eexists. split; [reflexivity|]. unfold I. cbn [fst snd].
    split; [rewrite app_length; cbn; lia|]. split.
    + intros i Hi. destruct (Nat.eq_dec i n) as [->|Hne].
      * rewrite app_nth2 by lia. rewrite Hlen, Nat.sub_diag. cbn [nth]. fold q x. auto.
      * rewrite app_nth1 by lia. apply Hys. lia.
    + assert (Hqc : nth (off+n) Q 0 = q) by reflexivity.
      assert (Hqpos : 0 < q) by (destruct Hq; lia).
      (* exact rational sum, as a real *)
      assert (Hq62 : q < 2 ^ 62) by (destruct Hq as [_ Hq]; assert (2^61 < 2^62) by reflexivity; lia).
      (* canonical common multiple for the first n moduli *)
      set (pre := firstn n (skipn off Q)).
      pose (Qp0 := prodZ (pre ++ [q])).
      pose (S0 := (IZR (sumn n (fun i => (nth i ys 0 * (Qp0 / nth (off+i) Q 0))%Z)) / IZR Qp0)%R).
      assert (Hpos0 : 0 < Qp0).
      { unfold Qp0. apply prodZ_pos. apply Forall_app. split; [|constructor; auto].
        apply Forall_forall. intros z Hz. unfold pre in Hz.
        assert (In z Q). { rewrite <- (firstn_skipn off Q). apply in_or_app. right.
          rewrite <- (firstn_skipn n (skipn off Q)). apply in_or_app; auto. }
        rewrite Forall_forall in HQ. destruct (HQ z); auto; lia. }
      assert (Hdiv0 : forall i, (i < n)%nat -> nth (off + i) Q 0 * (Qp0 / nth (off+i) Q 0) = Qp0).
      { intros i Hi. symmetry. apply Znumtheory.Zdivide_Zdiv_eq.
        - assert (mod61 (nth (off+i) Q 0)) as [_ ?] by (apply Forall_nth_Z; auto; lia). lia.
        - unfold Qp0. rewrite prodZ_app. apply Z.divide_mul_l. apply prodZ_divide.
          assert (Enth : nth i pre 0 = nth (off + i) Q 0).
          { unfold pre. rewrite <- (firstn_skipn off Q) at 2.
            rewrite app_nth2 by (rewrite firstn_length; lia).
            rewrite firstn_length. replace (off + i - Nat.min off (length Q))%nat with i by lia.
            rewrite <- (firstn_skipn n (skipn off Q)) at 2.
            rewrite app_nth1; [reflexivity|]. rewrite firstn_length, skipn_length. lia. }
          rewrite <- Enth. apply nth_In. unfold pre. rewrite firstn_length, skipn_length. lia. }
      destruct (sum_step (Z.of_nat n) s r S0 y q) as (r' & Fr' & Hr' & He'); auto; try lia.
      { apply He; auto. }
      exists r'. split; [exact Fr'|]. split.
      { rewrite Nat2Z.inj_add. exact Hr'. }
      intros Qp c HQp Hc.
      replace (IZR (Z.of_nat (n + 1))) with (IZR (Z.of_nat n + 1)) by (f_equal; lia).
      replace (IZR (sumn (n + 1) (fun i => (nth i (ys ++ [y]) 0 * c i)%Z)) / IZR Qp)%R
        with (S0 + IZR y / IZR q)%R; [exact He'|].
      (* both sums are the same rational *)
      rewrite Nat.add_1_r. cbn [sumn]. rewrite app_nth2 by lia. rewrite Hlen, Nat.sub_diag. cbn [nth].
      assert (HQpR : (IZR Qp <> 0)%R) by (apply IZR_neq; lia).
      rewrite plus_IZR, Rdiv_plus_distr.
      assert (HqR : (IZR q <> 0)%R) by (apply IZR_neq; lia).
      f_equal.
      * unfold S0.
        apply Rmult_eq_reg_r with (IZR Qp0 * IZR Qp)%R.
        2:{ apply Rmult_integral_contrapositive_currified; apply IZR_neq; lia. }
        assert (HQp0R : (IZR Qp0 <> 0)%R) by (apply IZR_neq; lia).
        field_simplify; auto. rewrite <- !mult_IZR. f_equal.
        rewrite ?(Z.mul_comm Qp0 (sumn _ _)), <- !sumn_mul_r. apply sumn_ext. intros i Hi.
        rewrite app_nth1 by lia.
        assert (H1 := Hdiv0 i Hi). assert (H2 := Hc i ltac:(lia)).
        set (d := Qp0 / nth (off + i) Q 0) in *.
        rewrite <- H1, <- H2. ring.
      * assert (H2 := Hc n ltac:(lia)). rewrite Hqc in H2. rewrite <- H2.
        rewrite !mult_IZR. field. split; auto. intros Hcn.
        apply HQpR. rewrite <- H2, mult_IZR, Hcn. ring.
  - split; [reflexivity|]. split; [intros; lia|].
    exists 0%R. split; [apply fval_f0|]. cbn [Z.of_nat]. split; [split; apply Rle_refl|].
    intros. cbn [sumn]. unfold Rdiv. rewrite Rmult_0_l, Rminus_0_r, Rabs_R0, Rmult_0_l. apply Rle_refl.
  - destruct HI as (Hlen & Hys & r & Fr & Hr & He). cbn [fst snd] in *.
    exists ys, (u64_of_f s). unfold recon. rewrite E. cbn [bind fst snd].
    split; [reflexivity|]. split; [exact Hlen|]. split; [exact Hys|].
    split.
    + set (Qp0 := prodZ (firstn k (skipn off Q))).
      assert (Hpos0 : 0 < Qp0).
      { unfold Qp0. apply prodZ_pos.
        apply Forall_forall. intros z Hz.
        assert (In z Q). { rewrite <- (firstn_skipn off Q). apply in_or_app. right.
          rewrite <- (firstn_skipn k (skipn off Q)). apply in_or_app; auto. }
        rewrite Forall_forall in HQ. destruct (HQ z); auto; lia. }
      assert (Hdiv0 : forall i, (i < k)%nat -> nth (off + i) Q 0 * (Qp0 / nth (off+i) Q 0) = Qp0).
      { intros i Hi. symmetry. apply Znumtheory.Zdivide_Zdiv_eq.
        - assert (mod61 (nth (off+i) Q 0)) as [_ ?] by (apply Forall_nth_Z; auto; lia). lia.
        - unfold Qp0. apply prodZ_divide.
          assert (Enth : nth i (firstn k (skipn off Q)) 0 = nth (off + i) Q 0).
          { rewrite <- (firstn_skipn off Q) at 2.
            rewrite app_nth2 by (rewrite firstn_length; lia).
            rewrite firstn_length. replace (off + i - Nat.min off (length Q))%nat with i by lia.
            rewrite <- (firstn_skipn k (skipn off Q)) at 2.
            rewrite app_nth1; [reflexivity|]. rewrite firstn_length, skipn_length. lia. }
          rewrite <- Enth. apply nth_In. rewrite firstn_length, skipn_length. lia. }
      eapply (proj1 (trunc_bounds (Z.of_nat k) s r _ Qp0 ltac:(lia) Hpos0 Fr Hr (He Qp0 _ Hpos0 Hdiv0))).
    + intros Qp c HQp Hc. cbv zeta.
      apply (trunc_bounds (Z.of_nat k) s r _ Qp ltac:(lia) HQp Fr Hr (He Qp c HQp Hc)).
Qed.

(** * multSum *)
Lemma multSum_spec k ys v p vtab tab c :
  0 <= c <= 4 -> mod61 p -> length ys = k -> length tab = k -> length vtab = S k ->
  (forall i, (i < k)%nat -> 0 <= nth i ys 0) ->
  (forall i, (i < k)%nat -> 0 <= nth i tab 0 < p) ->
  sumn k (fun i => nth i ys 0) <= c * W ->
  0 <= v <= Z.of_nat k -> 0 <= nth (Z.to_nat v) vtab 0 < p ->
  exists z, multSum k ys v p vtab tab = Ok z /\ 0 <= z < (c + 2) * p /\
    cong p (z * W) (sumn k (fun i => nth i ys 0 * nth i tab 0) + nth (Z.to_nat v) vtab 0 * W).
Proof.
  intros Hc Hp Hly Hlt Hlv Hy Ht Hs Hv Hvt.
  pose proof (mod61_W p Hp) as HpW. pose proof W_pos as HW.
  pose proof (mod61_ok p Hp) as Hok. destruct Hp as [Hodd Hp].
  pose (I := fun (n : nat) (st : Z * Z) =>
     fst st * W + snd st = sumn n (fun i => nth i ys 0 * nth i tab 0) /\ 0 <= snd st < W /\ 0 <= fst st).
  assert (Hpart : forall n, (n <= k)%nat -> 0 <= sumn n (fun i => nth i ys 0 * nth i tab 0) <= c * W * (p-1)).
  { intros n Hn. split; [apply sumn_nonneg; intros i Hi; specialize (Hy i ltac:(lia)); specialize (Ht i ltac:(lia)); nia|].
    apply Z.le_trans with (sumn k (fun i => nth i ys 0 * nth i tab 0)).
    - replace k with (n + (k - n))%nat by lia. rewrite sumn_split.
      assert (0 <= sumn (k - n) (fun i => nth (n + i) ys 0 * nth (n + i) tab 0)).
      { apply sumn_nonneg. intros i Hi. specialize (Hy (n+i)%nat ltac:(lia)). specialize (Ht (n+i)%nat ltac:(lia)). nia. }
      lia.
    - apply Z.le_trans with (sumn k (fun i => nth i ys 0 * (p-1))).
      + apply sumn_le. intros i Hi. specialize (Hy i Hi). specialize (Ht i Hi). nia.
      + rewrite sumn_mul_r. nia. }
  destruct (foldM_seq_inv (acc_step ys tab) I k (0,0)) as ([rhi rlo] & E & HI).
  - intros n [hi lo] Hn (Hsum & Hlo & Hhi). cbn [fst snd] in *.
    unfold acc_step. rewrite (idx_nth ys n 0), (idx_nth tab n 0) by lia. cbn [bind fst snd].
    unfold add64. eexists. split; [reflexivity|]. unfold I. cbn [fst snd].
    set (y := nth n ys 0). set (t := nth n tab 0).
    assert (0 <= y) by (apply Hy; lia). assert (Htn : 0 <= t < p) by (apply Ht; lia).
    pose proof (mul_hilo y t) as Emul. pose proof (mullo_range y t) as Hml.
    assert (Hmh : 0 <= mulhi y t) by (unfold mulhi; apply Z.div_pos; nia).
    pose proof (Z.div_mod (lo + mullo y t) W ltac:(lia)) as Ed.
    set (cc := (lo + mullo y t) / W) in *.
    assert (Hcc : 0 <= cc) by (apply Z.div_pos; lia).
    fold (wrap (lo + mullo y t)) in Ed.
    pose proof (wrap_range (lo + mullo y t)) as Hlo'.
    assert (Etot : (hi + (mulhi y t + cc)) * W + wrap (lo + mullo y t)
                   = sumn (n + 1) (fun i => nth i ys 0 * nth i tab 0)).
    { rewrite Nat.add_1_r. cbn [sumn]. fold y t. rewrite <- Hsum. lia. }
    pose proof (Hpart (n+1)%nat ltac:(lia)) as Hb. rewrite <- Etot in Hb.
    assert (Hfit : hi + (mulhi y t + cc) < W).
    { assert (c * W * (p - 1) < W * W) by nia. nia. }
    assert (Ew : wadd hi (wadd (mulhi y t) cc) = hi + (mulhi y t + cc)).
    { unfold wadd. rewrite (wrap_small (mulhi y t + cc)) by lia. apply wrap_small. lia. }
    rewrite Ew. split; [exact Etot|]. split; [exact Hlo'|lia].
  - unfold I. cbn. lia.
  - destruct HI as (Hsum & Hlo & Hhi). cbn [fst snd] in *.
    unfold multSum. rewrite E. cbn [bind fst snd].
    rewrite (idxZ_nth vtab v 0) by lia. cbn [bind].
    eexists. split; [reflexivity|].
    set (A := sumn k (fun i => nth i ys 0 * nth i tab 0)) in *.
    pose proof (Hpart k ltac:(lia)) as HA. fold A in HA.
    assert (EA1 : A / W = rhi).
    { symmetry. apply Z.div_unique with rlo; [left; lia|lia]. }
    assert (EA2 : A mod W = rlo).
    { symmetry. apply Z.mod_unique with rhi; [left; lia|lia]. }
    destruct (mont_core A p (MRedParams p)) as [EM HM]; [lia|now apply MRedParams_spec|lia|].
    rewrite EA1, EA2 in *. set (H := mulhi (wmul rlo (MRedParams p)) p) in *.
    set (vt := nth (Z.to_nat v) vtab 0) in *.
    assert (Hrhi : rhi <= c * (p - 1)) by nia.
    assert (Ez : wadd (wadd (wsub rhi H) p) vt = rhi - H + p + vt).
    { unfold wadd, wsub. apply wrap_uniq; [|nia]. rewrite !wrap_cong. reflexivity. }
    rewrite Ez. split; [nia|].
    replace ((rhi - H + p + vt) * W) with (W * (rhi - H) + p * W + vt * W) by ring.
    rewrite EM. exists (W - wmul rlo (MRedParams p)). ring.
Qed.

(** * One coefficient of ModUp *)
(** Y represents the residues x and is in the interval allowed by the float error *)
Definition near_range (Y Qp : Z) : Prop := - Qp <= 2 ^ 42 * Y <= 2 ^ 42 * Qp + Qp.

Lemma near_range_kappa Y X Qp :
  0 < Qp -> near_range Y Qp -> cong Qp Y X -> 0 <= X < Qp ->
  exists kappa, Y = X + kappa * Qp /\ -1 <= kappa <= 1 /\
    (Qp < 2 ^ 42 * X -> Qp < 2 ^ 42 * (Qp - X) -> kappa = 0).
Proof.
  intros HQ [Hl Hu] [m Hm] HX. exists m. split; [lia|].
  change (2 ^ 42) with 4398046511104 in *.
  assert (Y = X + m * Qp) by lia. subst Y.
  assert (-1 <= m <= 1) by nia. split; auto.
  intros H1 H2. assert (m = 1 \/ m = 0 \/ m = -1) as [-> | [-> | ->]] by lia; lia.
Qed.

Lemma except_pos qs i : Forall mod61 qs -> 0 < except qs i.
Proof.
  intros H. unfold except. apply Z.mul_pos_pos; apply prodZ_pos; apply Forall_forall; intros x Hx;
  rewrite Forall_forall in H.
  - assert (In x qs) by (rewrite <- (firstn_skipn i qs); apply in_or_app; auto). destruct (H x); auto; lia.
  - assert (In x qs) by (rewrite <- (firstn_skipn (S i) qs); apply in_or_app; auto). destruct (H x); auto; lia.
Qed.
Lemma prodZ_pos61 qs : Forall mod61 qs -> 0 < prodZ qs.
Proof. intros H. apply prodZ_pos. eapply Forall_impl; [|exact H]. intros q [_ Hq]; lia. Qed.

Lemma except_divide qs i j : (i < length qs)%nat -> i <> j -> (nth i qs 0 | except qs j).
Proof.
  intros Hi Hij. unfold except. destruct (Nat.lt_ge_cases i j).
  - apply Z.divide_mul_l, prodZ_divide.
    rewrite <- (firstn_skipn j qs) at 1. rewrite app_nth1 by (rewrite firstn_length; lia).
    apply nth_In. rewrite firstn_length; lia.
  - apply Z.divide_mul_r, prodZ_divide.
    rewrite <- (firstn_skipn (S j) qs) at 1. rewrite app_nth2 by (rewrite firstn_length; lia).
    apply nth_In. rewrite firstn_length, skipn_length; lia.
Qed.

(** The integer recovered from the y's: congruent to x_i modulo q_i *)
Lemma recon_crt (qs xs invs ys : list Z) (v : Z) :
  Forall mod61 qs ->
  (forall i, (i < length qs)%nat ->
     cong (nth i qs 0) (nth i invs 0 * except qs i) W /\
     cong (nth i qs 0) (nth i ys 0 * W) (nth i xs 0 * nth i invs 0)) ->
  let Y := sumn (length qs) (fun i => nth i ys 0 * except qs i) - v * prodZ qs in
  forall i, (i < length qs)%nat -> cong (nth i qs 0) Y (nth i xs 0).
Proof.
  intros Hqs H Y i Hi. unfold Y.
  assert (Hq : mod61 (nth i qs 0)) by now apply Forall_nth_Z.
  pose proof (mod61_ok _ Hq) as Hok. set (q := nth i qs 0) in *.
  destruct (H i Hi) as [H1 H2]. fold q in H1, H2.
  assert (E : cong q (sumn (length qs) (fun j => nth j ys 0 * except qs j)) (nth i ys 0 * except qs i)).
  { transitivity (sumn (length qs) (fun j => if Nat.eqb j i then nth i ys 0 * except qs i else 0)).
    - apply sumn_cong. intros j Hj. destruct (Nat.eqb_spec j i) as [->|Hne]; [reflexivity|].
      destruct (except_divide qs i j Hi ltac:(auto)) as [m Hm]. fold q in Hm. rewrite Hm.
      exists (nth j ys 0 * m). ring.
    - rewrite (sumn_single (length qs) i) by (auto; intros j Hj Hne; destruct (Nat.eqb_spec j i); congruence).
      rewrite Nat.eqb_refl. reflexivity. }
  rewrite E.
  assert (EP : cong q (prodZ qs) 0).
  { rewrite <- (except_mul qs i Hi). fold q. exists (except qs i). ring. }
  rewrite EP. rewrite Z.mul_0_r, Z.sub_0_r.
  apply cong_mul_cancel with W; [now apply okmod_coprime|].
  rewrite <- H1 at 2.
  replace (W * (nth i ys 0 * except qs i)) with ((nth i ys 0 * W) * except qs i) by ring.
  rewrite H2. apply cong_eq. ring.
Qed.

Lemma nth_firstn_skipn (l : list Z) off k i d : (i < k)%nat -> nth i (firstn k (skipn off l)) d = nth (off + i) l d.
Proof.
  intros Hi. rewrite <- (firstn_skipn off l) at 2.
  destruct (Nat.le_gt_cases (length l) off) as [H|H].
  - rewrite skipn_all2 by lia. rewrite firstn_nil. rewrite app_nil_r.
    rewrite (nth_overflow (firstn off l)) by (rewrite firstn_length; lia). now destruct i.
  - rewrite app_nth2 by (rewrite firstn_length; lia).
    rewrite firstn_length. replace (off + i - Nat.min off (length l))%nat with i by lia.
    rewrite <- (firstn_skipn k (skipn off l)) at 2.
    destruct (Nat.lt_ge_cases i (length (firstn k (skipn off l)))).
    + now rewrite app_nth1.
    + rewrite nth_overflow by auto. rewrite app_nth2 by auto.
      rewrite firstn_length in *. rewrite skipn_length in *.
      rewrite (skipn_all2 (skipn off l)) by (rewrite skipn_length; lia).
      match goal with |- _ = nth ?n [] d => now destruct n end.
Qed.
Lemma Forall_firstn {A} (P : A -> Prop) n l : Forall P l -> Forall P (firstn n l).
Proof.
  intros H. apply Forall_forall. intros x Hx. rewrite Forall_forall in H. apply H.
  rewrite <- (firstn_skipn n l). apply in_or_app; auto.
Qed.
Lemma Forall_skipn {A} (P : A -> Prop) n l : Forall P l -> Forall P (skipn n l).
Proof.
  intros H. apply Forall_forall. intros x Hx. rewrite Forall_forall in H. apply H.
  rewrite <- (firstn_skipn n l). apply in_or_app; auto.
Qed.

Theorem up_words off k col Q ps pr :
  let qs := firstn k (skipn off Q) in
  tables_ok qs ps pr -> (1 <= k <= 32)%nat -> (off + k <= length Q)%nat -> (off + k <= length col)%nat ->
  Forall mod61 Q -> Forall mod61 ps -> Forall (fun x => 0 <= x < W) col ->
  exists ys v Y, recon off k col Q (qoverqiinvqi pr) = Ok (ys, v) /\
    near_range Y (prodZ qs) /\
    (forall i, (i < k)%nat -> cong (nth (off + i) Q 0) Y (nth (off + i) col 0)) /\
    (forall j, (j < length ps)%nat ->
       exists z, multSum k ys v (nth j ps 0) (nth j (vtimesqmodp pr) []) (nth j (qoverqimodp pr) []) = Ok z /\
         cong (nth j ps 0) z Y /\
         0 <= z < 6 * nth j ps 0 /\
         (forall c m, 0 <= c <= 4 -> Forall (fun q => q <= m) qs -> Z.of_nat k * m <= c * W -> z < (c + 2) * nth j ps 0)).
Proof.
  intros qs HT Hk HlQ Hlc HQ HP Hcol.
  assert (Hlq : length qs = k) by (unfold qs; rewrite firstn_length, skipn_length; lia).
  assert (Hqs : Forall mod61 qs) by (unfold qs; now apply Forall_firstn, Forall_skipn).
  assert (Hnth : forall i, (i < k)%nat -> nth i qs 0 = nth (off + i) Q 0).
  { intros i Hi. unfold qs. now apply nth_firstn_skipn. }
  pose proof (tk_len_inv _ _ _ HT) as Hli. rewrite Hlq in Hli.
  destruct (recon_spec off k col Q (qoverqiinvqi pr)) as (ys & v & E & Hly & Hys & Hv & Hb); auto.
  { intros i Hi. rewrite <- Hnth by auto. apply (tk_inv _ _ _ HT). lia. }
  exists ys, v, (sumn (length qs) (fun i => nth i ys 0 * except qs i) - v * prodZ qs).
  split; [exact E|]. split; [|split].
  - unfold near_range. rewrite Hlq. apply Hb; [now apply prodZ_pos61|].
    intros i Hi. rewrite <- Hnth by auto. apply except_mul. lia.
  - intros i Hi. rewrite <- !Hnth by auto. rewrite <- nth_firstn_skipn with (k := k) by auto.
    apply (recon_crt qs (firstn k (skipn off col)) (qoverqiinvqi pr) ys v); auto; [|lia].
    intros i' Hi'. split; [now apply (tk_inv _ _ _ HT)|].
    rewrite Hnth by lia. rewrite nth_firstn_skipn by lia. apply Hys. lia.
  - intros j Hj. set (p := nth j ps 0). assert (Hp : mod61 p) by now apply Forall_nth_Z.
    assert (Hvn : (Z.to_nat v <= length qs)%nat) by lia.
    assert (Key : forall c, 0 <= c <= 4 -> sumn k (fun i => nth i ys 0) <= c * W ->
      exists z, multSum k ys v p (nth j (vtimesqmodp pr) []) (nth j (qoverqimodp pr) []) = Ok z /\
        0 <= z < (c + 2) * p /\
        cong p (z * W) (sumn k (fun i => nth i ys 0 * nth i (nth j (qoverqimodp pr) []) 0)
                        + nth (Z.to_nat v) (nth j (vtimesqmodp pr) []) 0 * W)).
    { intros c Hc Hs. apply multSum_spec; auto.
      - rewrite (tk_row _ _ _ HT j Hj). exact Hlq.
      - rewrite (tk_vrow _ _ _ HT j Hj). lia.
      - intros i Hi. apply Hys; auto.
      - intros i Hi. apply (tk_tab _ _ _ HT j i Hj). lia.
      - apply (tk_v _ _ _ HT j (Z.to_nat v) Hj). lia. }
    assert (Hsum : forall m, Forall (fun q => q <= m) qs -> sumn k (fun i => nth i ys 0) <= Z.of_nat k * m).
    { intros m Hm. rewrite <- sumn_const. apply sumn_le. intros i Hi.
      destruct (Hys i Hi) as [Hr _]. rewrite <- Hnth in Hr by auto.
      assert (nth i qs 0 <= m) by (apply (Forall_nth_Z (fun q => q <= m)); auto; lia). lia. }
    destruct (Key 4) as (z & Ez & Rz & Cz); [lia| |].
    { eapply Z.le_trans; [apply (Hsum (2^61))|].
      - eapply Forall_impl; [|exact Hqs]. intros q [_ Hq]; lia.
      - rewrite W_val. change (2^61) with 2305843009213693952. lia. }
    exists z. split; [exact Ez|]. split; [|split; [lia|]].
    + pose proof (mod61_ok p Hp) as Hok.
      apply cong_mul_cancel with W; [now apply okmod_coprime|].
      rewrite (Z.mul_comm W z), Cz.
      destruct (tk_v _ _ _ HT j (Z.to_nat v) Hj Hvn) as [_ Cv]. fold p in Cv.
      rewrite Cv. rewrite Z2Nat.id by lia.
      rewrite (sumn_cong p k _ (fun i => W * (nth i ys 0 * except qs i))).
      2:{ intros i Hi. destruct (tk_tab _ _ _ HT j i Hj ltac:(lia)) as [_ Ct]. fold p in Ct.
          rewrite Ct. apply cong_eq. ring. }
      rewrite sumn_mul_l, Hlq. apply cong_eq. ring.
    + intros c m Hc Hm Hkm. destruct (Key c Hc) as (z' & Ez' & Rz' & _).
      { eapply Z.le_trans; [apply (Hsum m); auto|lia]. }
      rewrite Ez in Ez'. injection Ez' as <-. lia.
Qed.

(** * ModUp on whole polynomials *)

Lemma column_length p x : length (column p x) = length p.
Proof. apply map_length. Qed.
Lemma column_nth p x i : (i < length p)%nat -> nth i (column p x) 0 = nth x (nth i p []) 0.
Proof. intros H. unfold column. now rewrite (nth_mapl _ p i [] 0). Qed.
Lemma column_words p x : Forall words p -> words (column p x).
Proof.
  intros H. unfold words, column. apply Forall_forall. intros w Hw.
  apply in_map_iff in Hw as (l & <- & Hl). rewrite Forall_forall in H. specialize (H l Hl).
  destruct (Nat.lt_ge_cases x (length l)).
  - now apply (Forall_nth_Z (fun x => 0 <= x < W)).
  - rewrite nth_overflow by auto. rewrite W_val; lia.
Qed.
Lemma limbs_of_length n cols : length (limbs_of n cols) = n.
Proof. unfold limbs_of. now rewrite map_length, seq_length. Qed.
Lemma limbs_of_nth n cols j : (j < n)%nat -> nth j (limbs_of n cols) [] = map (fun c => nth j c 0) cols.
Proof. intros H. unfold limbs_of. now rewrite nth_map_seq. Qed.

(** limb [l] holds words congruent to the integer coefficients [Y], below [b] *)
Definition limb_of (q b : Z) (l Y : list Z) : Prop :=
  Forall2 (fun w y => 0 <= w < b /\ cong q w y) l Y.
Lemma limb_of_nth q b l Y : limb_of q b l Y ->
  length l = length Y /\ forall x, (x < length Y)%nat -> 0 <= nth x l 0 < b /\ cong q (nth x l 0) (nth x Y 0).
Proof.
  intros H. split; [induction H; cbn; auto|].
  induction H as [|w y l Y Hw H IH]; intros x Hx; cbn in Hx; [lia|].
  destruct x; cbn [nth]; auto. apply IH. lia.
Qed.
Lemma limb_of_intro q b l Y : length l = length Y ->
  (forall x, (x < length Y)%nat -> 0 <= nth x l 0 < b /\ cong q (nth x l 0) (nth x Y 0)) -> limb_of q b l Y.
Proof.
  revert Y. induction l as [|w l IH]; intros [|y Y] Hl H; cbn in Hl; try lia; constructor.
  - apply (H 0%nat). cbn; lia.
  - apply IH; [lia|]. intros x Hx. apply (H (S x)). cbn; lia.
Qed.

Theorem modUpExact_spec p1 n2 Q P pr N :
  let k := length p1 in
  let qs := firstn k Q in
  tables_ok qs P pr -> (1 <= k <= 32)%nat -> (k <= length Q)%nat -> (n2 <= length P)%nat ->
  Forall mod61 Q -> Forall mod61 P -> Forall words p1 -> Forall (fun l => length l = N) p1 ->
  exists p2 Y, modUpExact p1 n2 Q P pr = Ok p2 /\ length p2 = n2 /\ length Y = N /\
    (forall x, (x < N)%nat -> near_range (nth x Y 0) (prodZ qs)) /\
    (forall i x, (i < k)%nat -> (x < N)%nat -> cong (nth i Q 0) (nth x Y 0) (nth x (nth i p1 []) 0)) /\
    (forall j, (j < n2)%nat -> limb_of (nth j P 0) (6 * nth j P 0) (nth j p2 []) Y /\
       (forall c m x, (x < N)%nat -> 0 <= c <= 4 -> Forall (fun q => q <= m) qs -> Z.of_nat k * m <= c * W ->
           nth x (nth j p2 []) 0 < (c + 2) * nth j P 0)).
Proof.
  intros k qs HT Hk HlQ HlP HQ HP Hw HN.
  assert (Hnc : ncoef p1 = N).
  { unfold ncoef. rewrite Forall_forall in HN. apply HN. apply nth_In. lia. }
  pose (R := fun (x : nat) (c : list Z) => length c = n2 /\
     exists Y, near_range Y (prodZ qs) /\
       (forall i, (i < k)%nat -> cong (nth i Q 0) Y (nth x (nth i p1 []) 0)) /\
       forall j, (j < n2)%nat -> 0 <= nth j c 0 < 6 * nth j P 0 /\ cong (nth j P 0) (nth j c 0) Y /\
         (forall cc m, 0 <= cc <= 4 -> Forall (fun q => q <= m) qs -> Z.of_nat k * m <= cc * W ->
           nth j c 0 < (cc + 2) * nth j P 0)).
  destruct (mapM_seq_spec (fun x => modUpExact_coef (column p1 x) Q P n2 pr) R N 0) as (cols & E & Hlc & HR).
  - intros x Hx. unfold modUpExact_coef. rewrite column_length. fold k.
    assert (HT' : tables_ok (firstn k (skipn 0 Q)) P pr) by exact HT.
    destruct (up_words 0 k (column p1 x) Q P pr HT') as (ys & v & Y & Er & Hnr & Hcr & Hz); auto.
    { rewrite column_length. fold k. lia. }
    { now apply column_words. }
    rewrite Er. cbn [bind].
    destruct (mapM_seq_spec (fun j => bind (idx P j) (fun pj => bind (idx (vtimesqmodp pr) j) (fun vt =>
        bind (idx (qoverqimodp pr) j) (fun tb => multSum k ys v pj vt tb))))
      (fun j z => 0 <= z < 6 * nth j P 0 /\ cong (nth j P 0) z Y /\
         (forall cc m, 0 <= cc <= 4 -> Forall (fun q => q <= m) qs -> Z.of_nat k * m <= cc * W ->
           z < (cc + 2) * nth j P 0)) n2 0) as (zs & Ezs & Hlz & Hzs).
    { intros j Hj. rewrite (idx_nth P j 0) by lia.
      rewrite (idx_nth (vtimesqmodp pr) j []) by (rewrite (tk_len_v _ _ _ HT); lia).
      rewrite (idx_nth (qoverqimodp pr) j []) by (rewrite (tk_len_tab _ _ _ HT); lia). cbn [bind].
      destruct (Hz j ltac:(lia)) as (z & Ez & Cz & Rz & Bz). exists z. auto. }
    exists zs. split; [exact Ezs|]. split; [exact Hlz|].
    exists Y. split; [exact Hnr|]. split.
    + intros i Hi. rewrite <- column_nth by (fold k; lia). apply (Hcr i Hi).
    + intros j Hj. specialize (Hzs 0 j Hj). cbn in Hzs. tauto.
  - unfold modUpExact. rewrite Hnc, E. cbn [bind].
    (* choose the Y of every column *)
    assert (HY : exists Y, length Y = N /\ forall x, (x < N)%nat ->
       near_range (nth x Y 0) (prodZ qs) /\
       (forall i, (i < k)%nat -> cong (nth i Q 0) (nth x Y 0) (nth x (nth i p1 []) 0)) /\
       forall j, (j < n2)%nat -> 0 <= nth j (nth x cols []) 0 < 6 * nth j P 0 /\
         cong (nth j P 0) (nth j (nth x cols []) 0) (nth x Y 0) /\
         (forall cc m, 0 <= cc <= 4 -> Forall (fun q => q <= m) qs -> Z.of_nat k * m <= cc * W ->
           nth j (nth x cols []) 0 < (cc + 2) * nth j P 0)).
    { clear E. revert HR. generalize N. intros M HR. induction M as [|M IH].
      - exists []. split; auto. intros; lia.
      - destruct IH as (Y & HlY & HY). { intros d i Hi. apply HR. lia. }
        destruct (HR [] M ltac:(lia)) as [_ (y & Hy)]. cbn [Nat.add] in Hy.
        exists (Y ++ [y]). split; [rewrite app_length; cbn; lia|].
        intros x Hx. destruct (Nat.eq_dec x M) as [->|Hne].
        + rewrite app_nth2 by lia. rewrite HlY, Nat.sub_diag. cbn [nth]. exact Hy.
        + rewrite app_nth1 by lia. apply HY. lia. }
    destruct HY as (Y & HlY & HY).
    exists (limbs_of n2 cols), Y. split; [reflexivity|]. split; [apply limbs_of_length|].
    split; [exact HlY|]. split; [intros x Hx; apply HY; auto|]. split.
    + intros i x Hi Hx. now apply HY.
    + intros j Hj. rewrite limbs_of_nth by auto. split.
      * apply limb_of_intro; [rewrite map_length; lia|].
        intros x Hx. rewrite (nth_mapl _ cols x [] 0) by lia.
        rewrite HlY in Hx. destruct (HY x Hx) as (_ & _ & H3). specialize (H3 j Hj). tauto.
      * intros c m x Hx Hc Hm Hkm. rewrite (nth_mapl _ cols x [] 0) by lia.
        destruct (HY x Hx) as (_ & _ & H3). destruct (H3 j Hj) as (_ & _ & H4). eauto.
Qed.
