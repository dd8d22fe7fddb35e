(** What the leveled operations compute, as statements about represented polynomials. *)
From Coq Require Import ZArith Znumtheory List Lia Setoid Morphisms Bool.
From Verif Require Import Go GoProofs Lattigo LattigoProofs Arith NegRing NegRingProofs NTT NTTProofs BasisExtProofs ModDownProofs RingOps.
From Verif Require Export Repr.
Import ListNotations.
Local Open Scope Z_scope.

(** receiver after a leveled write of n limbs *)
Definition wrote (n : nat) (dst d : poly) : Prop :=
  p_ntt d = p_ntt dst /\ plen d = plen dst /\ (forall j, (n <= j)%nat -> nth j (p_co d) [] = nth j (p_co dst) []).

Lemma N_pos r : (0 < r_N r)%nat. Proof. apply deg_pos. Qed.
Lemma ring_q r j : ring_ok r -> (j < length (r_mods r))%nat -> mod61 (qj r j).
Proof. intros H Hj. exact (nm_ok _ _ _ (ro_nm r H j Hj)). Qed.
Lemma ring_q1 r j : ring_ok r -> (j < length (r_mods r))%nat -> 1 < qj r j /\ 8 * qj r j < W.
Proof. intros H Hj. pose proof (ring_q r j H Hj) as Hm. split; [destruct Hm; lia|now apply mod61_W]. Qed.
Lemma ring_okm r j : ring_ok r -> (j < length (r_mods r))%nat -> okmod (qj r j).
Proof. intros. apply mod61_ok. now apply ring_q. Qed.

Lemma lrep_mono N q b b' l A : b <= b' -> lrep N q b l A -> lrep N q b' l A.
Proof. intros Hb [H1 H2]. split; auto. intros i Hi. destruct (H2 i Hi). split; auto. lia. Qed.
Lemma lrep_peq N q b l A B : peq N q A B -> lrep N q b l A -> lrep N q b l B.
Proof. intros HE [H1 H2]. split; auto. intros i Hi. destruct (H2 i Hi). split; auto. now rewrite <- (HE i Hi). Qed.
Lemma lrep_words N q b l A : b <= W -> lrep N q b l A -> words l.
Proof.
  intros Hb [H1 H2]. apply Forall_forall. intros x Hx. apply In_nth with (d := 0) in Hx as (i & Hi & <-).
  destruct (H2 i ltac:(lia)). lia.
Qed.
Lemma prep_mono r b b' n co A : (forall j, (j < n)%nat -> b (qj r j) <= b' (qj r j)) -> prep r b n co A -> prep r b' n co A.
Proof. intros Hb (H1 & H2 & H3). repeat split; auto; intros; destruct (H3 j H) as [? HH]; auto; destruct (HH i H0); auto; specialize (Hb j H); lia. Qed.
Lemma prep_peq r b n co A B : (forall j, (j < n)%nat -> peq (r_N r) (qj r j) A B) -> prep r b n co A -> prep r b n co B.
Proof. intros HE (H1 & H2 & H3). split; [auto|split; [auto|]]. intros j Hj. eapply lrep_peq; eauto. Qed.
Lemma nrep_peq r n co A B : ring_ok r -> (forall j, (j < n)%nat -> peq (r_N r) (qj r j) A B) -> nrep r n co A -> nrep r n co B.
Proof.
  intros Hr HE (H1 & H2 & H3). split; [auto|split; [auto|]]. intros j Hj. eapply lrep_peq; [|apply H3; auto].
  intros i Hi. apply (nttf_peq (r_logN r)). now apply HE.
Qed.
Lemma prep_le r b n m co A : (m <= n)%nat -> prep r b n co A -> prep r b m co A.
Proof. intros Hm (H1 & H2 & H3). split; [lia|split; [lia|]]. intros j Hj. apply H3. lia. Qed.
Lemma nrep_le r n m co A : (m <= n)%nat -> nrep r n co A -> nrep r m co A.
Proof. intros Hm (H1 & H2 & H3). split; [lia|split; [lia|]]. intros j Hj. apply H3. lia. Qed.
Lemma nrep_nrepb r n co A : nrep r n co A -> nrepb r n co A.
Proof. intros (H1 & H2 & H3). split; [auto|split; [auto|]]. intros j Hj. eapply lrep_mono; [|apply H3; auto]. lia. Qed.
Lemma nrepb_le r n m co A : (m <= n)%nat -> nrepb r n co A -> nrepb r m co A.
Proof. intros Hm (H1 & H2 & H3). split; [lia|split; [lia|]]. intros j Hj. apply H3. lia. Qed.
Lemma nrepb_peq r n co A B : ring_ok r -> (forall j, (j < n)%nat -> peq (r_N r) (qj r j) A B) -> nrepb r n co A -> nrepb r n co B.
Proof.
  intros Hr HE (H1 & H2 & H3). split; [auto|split; [auto|]]. intros j Hj. eapply lrep_peq; [|apply H3; auto].
  intros i Hi. apply (nttf_peq (r_logN r)). now apply HE.
Qed.
Lemma prep_ext r b n co co' A : (n <= length co')%nat -> (forall j, (j < n)%nat -> nth j co' [] = nth j co []) -> prep r b n co A -> prep r b n co' A.
Proof. intros Hl HE (H1 & H2 & H3). split; [auto|split; [auto|]]. intros j Hj. rewrite HE by auto. auto. Qed.
Lemma nrep_ext r n co co' A : (n <= length co')%nat -> (forall j, (j < n)%nat -> nth j co' [] = nth j co []) -> nrep r n co A -> nrep r n co' A.
Proof. intros Hl HE (H1 & H2 & H3). split; [auto|split; [auto|]]. intros j Hj. rewrite HE by auto. auto. Qed.

Lemma Forall_nthl {T} (P : T -> Prop) l d j : Forall P l -> (j < length l)%nat -> P (nth j l d).
Proof. intros H Hj. rewrite Forall_forall in H. apply H. now apply nth_In. Qed.
Lemma Forall_of_nth {T} (P : T -> Prop) l d : (forall j, (j < length l)%nat -> P (nth j l d)) -> Forall P l.
Proof. intros H. apply Forall_forall. intros x Hx. apply In_nth with (d := d) in Hx as (j & Hj & <-). auto. Qed.
Lemma shp_nth N co j : shp N co -> (j < length co)%nat -> length (nth j co []) = N /\ words (nth j co []).
Proof. intros H Hj. apply (Forall_nthl _ _ [] j H Hj). Qed.

Lemma wrote_refl n p : wrote n p p. Proof. repeat split; auto. Qed.
Lemma wrote_trans n p q s : wrote n p q -> wrote n q s -> wrote n p s.
Proof. intros (A1 & A2 & A3) (B1 & B2 & B3). split; [congruence|split; [congruence|]]. intros j Hj. rewrite B3, A3; auto. Qed.
Lemma wrote_shp N n dst d : shp N (p_co dst) -> wrote n dst d ->
  (forall j, (j < n)%nat -> (j < plen d)%nat -> length (nth j (p_co d) []) = N /\ words (nth j (p_co d) [])) -> shp N (p_co d).
Proof.
  intros Hs (_ & HL & HU) H. apply (Forall_of_nth _ _ []). intros j Hj.
  destruct (lt_dec j n) as [Hn|Hn]; [auto|]. rewrite HU by lia. apply shp_nth; auto. unfold plen in *. lia.
Qed.
Lemma prep_shp r b n dst d A : shp (r_N r) (p_co dst) -> wrote n dst d -> prep r b n (p_co d) A ->
  (forall j, (j < n)%nat -> b (qj r j) <= W) -> shp (r_N r) (p_co d).
Proof.
  intros Hs Hw (H1 & H2 & H3) Hb. eapply wrote_shp; eauto. intros j Hj _. specialize (H3 j Hj). split; [apply H3|].
  eapply lrep_words; eauto.
Qed.
Lemma nrep_shp r n dst d A : ring_ok r -> shp (r_N r) (p_co dst) -> wrote n dst d -> nrep r n (p_co d) A -> shp (r_N r) (p_co d).
Proof.
  intros Hr Hs Hw (H1 & H2 & H3). eapply wrote_shp; eauto. intros j Hj _. specialize (H3 j Hj). split; [apply H3|].
  eapply lrep_words; [|exact H3]. destruct (ring_q1 r j Hr ltac:(lia)). lia.
Qed.

(** * writes *)
Lemma write_ok level ls dst : length ls = (level + 1)%nat -> (level < plen dst)%nat ->
  exists d, write level ls dst = Ok d /\ wrote (level + 1) dst d /\
    forall j, (j <= level)%nat -> nth j (p_co d) [] = nth j ls [].
Proof.
  intros Hls Hl. unfold write. destruct (Nat.leb_spec (plen dst) level); [lia|].
  eexists. split; [reflexivity|]. unfold wrote, plen in *. cbn. split; [split; [|split]|].
  - reflexivity.
  - rewrite app_length, skipn_length. lia.
  - intros j Hj. rewrite app_nth2 by lia. rewrite Hls.
    rewrite <- (firstn_skipn (level + 1) (p_co dst)) at 2.
    rewrite app_nth2 by (rewrite firstn_length; lia). rewrite firstn_length. f_equal. lia.
  - intros j Hj. now rewrite app_nth1 by lia.
Qed.

Lemma lvl1_ok r f level a dst : ring_ok r -> (level < length (r_mods r))%nat -> (level < plen a)%nat -> (level < plen dst)%nat ->
  exists d, lvl1 r f level a dst = Ok d /\ wrote (level + 1) dst d /\
    forall j, (j <= level)%nat -> nth j (p_co d) [] = f (qj r j) (psij r j) (nth j (p_co a) []).
Proof.
  intros Hr Hm Ha Hd. unfold lvl1, plen in *. pose proof (ro_len r Hr).
  rewrite (mapM_ok _ (fun j => f (qj r j) (psij r j) (nth j (p_co a) []))).
  2:{ intros j Hj. apply in_seq in Hj. rewrite (idx_nth (r_mods r) j 0), (idx_nth (r_psi r) j 0), (idx_nth (p_co a) j []) by lia. reflexivity. }
  cbn [bind]. destruct (write_ok level (map (fun j => f (qj r j) (psij r j) (nth j (p_co a) [])) (seq 0 (level + 1))) dst) as (d & E & Hw & Hn); auto.
  { now rewrite map_length, seq_length. }
  exists d. split; auto. split; auto. intros j Hj. rewrite Hn by auto. now rewrite nth_map_seq by lia.
Qed.
Lemma lvl2_ok r f level a b dst : ring_ok r -> (level < length (r_mods r))%nat -> (level < plen a)%nat -> (level < plen b)%nat -> (level < plen dst)%nat ->
  exists d, lvl2 r f level a b dst = Ok d /\ wrote (level + 1) dst d /\
    forall j, (j <= level)%nat -> nth j (p_co d) [] = f (qj r j) (nth j (p_co a) []) (nth j (p_co b) []).
Proof.
  intros Hr Hm Ha Hb Hd. unfold lvl2, plen in *.
  rewrite (mapM_ok _ (fun j => f (qj r j) (nth j (p_co a) []) (nth j (p_co b) []))).
  2:{ intros j Hj. apply in_seq in Hj. rewrite (idx_nth (r_mods r) j 0), (idx_nth (p_co b) j []), (idx_nth (p_co a) j []) by lia. reflexivity. }
  cbn [bind]. destruct (write_ok level (map (fun j => f (qj r j) (nth j (p_co a) []) (nth j (p_co b) [])) (seq 0 (level + 1))) dst) as (d & E & Hw & Hn); auto.
  { now rewrite map_length, seq_length. }
  exists d. split; auto. split; auto. intros j Hj. rewrite Hn by auto. now rewrite nth_map_seq by lia.
Qed.
Lemma lvl3_ok r f level a b dst : ring_ok r -> (level < length (r_mods r))%nat -> (level < plen a)%nat -> (level < plen b)%nat -> (level < plen dst)%nat ->
  exists d, lvl3 r f level a b dst = Ok d /\ wrote (level + 1) dst d /\
    forall j, (j <= level)%nat -> nth j (p_co d) [] = f (qj r j) (nth j (p_co a) []) (nth j (p_co b) []) (nth j (p_co dst) []).
Proof.
  intros Hr Hm Ha Hb Hd. unfold lvl3, plen in *.
  rewrite (mapM_ok _ (fun j => f (qj r j) (nth j (p_co a) []) (nth j (p_co b) []) (nth j (p_co dst) []))).
  2:{ intros j Hj. apply in_seq in Hj. rewrite (idx_nth (r_mods r) j 0), (idx_nth (p_co b) j []), (idx_nth (p_co a) j []), (idx_nth (p_co dst) j []) by lia. reflexivity. }
  cbn [bind]. destruct (write_ok level (map (fun j => f (qj r j) (nth j (p_co a) []) (nth j (p_co b) []) (nth j (p_co dst) [])) (seq 0 (level + 1))) dst) as (d & E & Hw & Hn); auto.
  { now rewrite map_length, seq_length. }
  exists d. split; auto. split; auto. intros j Hj. rewrite Hn by auto. now rewrite nth_map_seq by lia.
Qed.

(** pointwise limbs *)
Lemma map_lrep N q b q' b' l A B (g : Z -> Z) : lrep N q b l A ->
  (forall i x, (i < N)%nat -> 0 <= x < b -> cong q x (A i) -> 0 <= g x < b' /\ cong q' (g x) (B i)) -> lrep N q' b' (map g l) B.
Proof.
  intros [H1 H2] H. split; [now rewrite map_length|]. intros i Hi. rewrite nth_map0 by lia. destruct (H2 i Hi). auto.
Qed.
Lemma pw2_length g x y : length x = length y -> length (pw2 g x y) = length x.
Proof. intros H. unfold pw2. rewrite map_length, combine_length. lia. Qed.
Lemma pw2_nth g x y i : length x = length y -> (i < length x)%nat -> nth i (pw2 g x y) 0 = g (nth i x 0) (nth i y 0).
Proof.
  intros H Hi. unfold pw2. rewrite (nth_mapl _ _ _ (0, 0)) by (rewrite combine_length; lia).
  rewrite combine_nth by auto. reflexivity.
Qed.
Lemma pw3_length g x y z : length x = length y -> length y = length z -> length (pw3 g x y z) = length x.
Proof. intros H H'. unfold pw3. rewrite map_length, !combine_length. lia. Qed.
Lemma pw3_nth g x y z i : length x = length y -> length y = length z -> (i < length x)%nat ->
  nth i (pw3 g x y z) 0 = g (nth i x 0) (nth i y 0) (nth i z 0).
Proof.
  intros H H' Hi. unfold pw3. rewrite (nth_mapl _ _ _ (0, (0, 0))) by (rewrite !combine_length; lia).
  rewrite !combine_nth by (try rewrite combine_length; lia). reflexivity.
Qed.
Lemma pw2_lrep N q bx by_ b' x y A B C (g : Z -> Z -> Z) : lrep N q bx x A -> lrep N q by_ y B ->
  (forall i u v, (i < N)%nat -> 0 <= u < bx -> 0 <= v < by_ -> cong q u (A i) -> cong q v (B i) -> 0 <= g u v < b' /\ cong q (g u v) (C i)) ->
  lrep N q b' (pw2 g x y) C.
Proof.
  intros [H1 H2] [H3 H4] H. split; [rewrite pw2_length; lia|]. intros i Hi. rewrite pw2_nth by lia.
  destruct (H2 i Hi), (H4 i Hi). auto.
Qed.
Lemma pw3_lrep N q bx by_ bz b' x y z A B D C (g : Z -> Z -> Z -> Z) : lrep N q bx x A -> lrep N q by_ y B -> lrep N q bz z D ->
  (forall i u v w, (i < N)%nat -> 0 <= u < bx -> 0 <= v < by_ -> 0 <= w < bz -> cong q u (A i) -> cong q v (B i) -> cong q w (D i) ->
     0 <= g u v w < b' /\ cong q (g u v w) (C i)) ->
  lrep N q b' (pw3 g x y z) C.
Proof.
  intros [H1 H2] [H3 H4] [H5 H6] H. split; [rewrite pw3_length; lia|]. intros i Hi. rewrite pw3_nth by lia.
  destruct (H2 i Hi), (H4 i Hi), (H6 i Hi). auto.
Qed.

(** * scalar facts *)
Lemma InvMForm_spec a q : okmod q -> 0 <= a < W ->
  0 <= InvMForm a q (MRedParams q) < q /\ cong q (InvMForm a q (MRedParams q) * W) a.
Proof.
  intros Hok Ha. pose proof (okmod_W q Hok) as HW. destruct Hok as [Hodd Hq].
  destruct (mont_core a q (MRedParams q)) as [E HB]; [lia|now apply MRedParams_spec|lia|].
  rewrite Z.mod_small, Z.div_small in E by lia. rewrite Z.mod_small in HB by lia.
  unfold InvMForm. set (H := mulhi (wmul a (MRedParams q)) q) in *. set (m := wmul a (MRedParams q)) in *. clearbody m.
  replace (wsub q H) with (q - H) by (unfold wsub; rewrite wrap_small; lia).
  destruct (Z.leb_spec q (q - H)).
  - assert (H = 0) as Hz by lia. unfold wsub. rewrite wrap_small by lia. split; [lia|].
    exists (- m). rewrite Hz in *. lia.
  - split; [lia|]. exists (W - m). nia.
Qed.
Lemma W_cancel q x y : okmod q -> cong q (x * W) (y * W) -> cong q x y.
Proof.
  intros Hok H. apply (cong_mul_cancel q W); [now apply okmod_coprime|].
  rewrite !(Z.mul_comm W). exact H.
Qed.

Lemma CRed_add_spec x y q bx by_ b' : okmod q -> 0 <= x < bx -> 0 <= y < by_ -> bx + by_ - q - 1 <= b' -> q <= b' -> b' <= q + 1 ->
  0 <= CRed (wadd x y) q < b' /\ cong q (CRed (wadd x y) q) (x + y).
Proof.
  intros Hok Hx Hy Hb Hb1 Hb2. pose proof (okmod_W q Hok). destruct Hok as [_ Hq].
  unfold CRed, wadd. rewrite wrap_small by lia. destruct (Z.leb_spec q (x + y)).
  - unfold wsub. rewrite wrap_small by lia. split; [lia|]. exists (-1). ring.
  - split; [lia|reflexivity].
Qed.
Lemma CRed_sub_spec x y q b : okmod q -> 0 <= x < b -> 0 <= y <= q -> q <= b <= q + 1 ->
  0 <= CRed (wsub (wadd x q) y) q < b /\ cong q (CRed (wsub (wadd x q) y) q) (x - y).
Proof.
  intros Hok Hx Hy Hb. pose proof (okmod_W q Hok). destruct Hok as [_ Hq].
  unfold CRed, wadd. rewrite wrap_small by lia. unfold wsub. rewrite (wrap_small (x + q - y)) by lia.
  destruct (Z.leb_spec q (x + q - y)).
  - rewrite wrap_small by lia. split; [lia|]. exists 0. ring.
  - split; [lia|]. exists 1. ring.
Qed.

(** * leveled operations *)
Section Ops.
Context (r : ringd) (Hr : ring_ok r).
Notation N := (r_N r).

Ltac limbs j Hj := split; [|split]; [lia|unfold plen in *; lia|intros j Hj].

Lemma NTTLvl_ok b level a dst A : prep r b (level + 1) (p_co a) A -> (level < plen dst)%nat ->
  exists d, NTTLvl r level a dst = Ok d /\ wrote (level + 1) dst d /\ nrep r (level + 1) (p_co d) A.
Proof.
  intros (H1 & H2 & H3) Hd.
  destruct (lvl1_ok r (NTT (r_logN r)) level a dst) as (d & E & Hw & Hn); auto; try (unfold plen in *; lia).
  exists d. split; [exact E|split; [exact Hw|]]. pose proof Hw as (_ & HL & _). limbs j Hj.
  rewrite Hn by lia. pose proof (ro_nm r Hr j ltac:(lia)) as Hnm. split; [apply NTT_length|].
  intros i Hi. destruct (NTT_nth _ _ _ Hnm (nth j (p_co a) []) i Hi) as [Hb Hc]. split; auto.
  rewrite Hc. apply nttf_peq. intros k Hk. apply (H3 j Hj). exact Hk.
Qed.
Lemma InvNTTLvl_ok level a dst A : nrep r (level + 1) (p_co a) A -> (level < plen dst)%nat ->
  exists d, InvNTTLvl r level a dst = Ok d /\ wrote (level + 1) dst d /\ prep r (fun q => q) (level + 1) (p_co d) A.
Proof.
  intros (H1 & H2 & H3) Hd.
  destruct (lvl1_ok r (InvNTT (r_logN r)) level a dst) as (d & E & Hw & Hn); auto; try (unfold plen in *; lia).
  exists d. split; [exact E|split; [exact Hw|]]. pose proof Hw as (_ & HL & _). limbs j Hj.
  rewrite Hn by lia. pose proof (ro_nm r Hr j ltac:(lia)) as Hnm. split; [apply InvNTT_length|].
  intros i Hi. split; [now apply InvNTT_nth|]. apply (InvNTT_spec _ _ _ Hnm); auto. intros k Hk. apply (H3 j Hj). exact Hk.
Qed.
Lemma InvNTTLazyLvl_ok lz level a dst A : nrep r (level + 1) (p_co a) A -> (level < plen dst)%nat ->
  exists d, InvNTTLazyLvl lz r level a dst = Ok d /\ wrote (level + 1) dst d /\ prep r (fun q => 2 * q) (level + 1) (p_co d) A.
Proof.
  intros (H1 & H2 & H3) Hd.
  destruct (lvl1_ok r (InvNTTLazy lz (r_logN r)) level a dst) as (d & E & Hw & Hn); auto; try (unfold plen in *; lia).
  exists d. split; [exact E|split; [exact Hw|]]. pose proof Hw as (_ & HL & _). limbs j Hj.
  rewrite Hn by lia. pose proof (ro_nm r Hr j ltac:(lia)) as Hnm.
  pose proof (ring_q1 r j Hr ltac:(lia)) as [Hq1 _].
  unfold InvNTTLazy. rewrite <- (InvNTT_length (r_logN r) (qj r j) (psij r j) (nth j (p_co a) [])) at 1.
  split; [rewrite map_length, combine_length, seq_length, InvNTT_length; unfold r_N; lia|].
  intros i Hi. rewrite nth_map_combine with (da := 0) by (rewrite InvNTT_length; exact Hi).
  pose proof (InvNTT_nth _ _ _ Hnm (nth j (p_co a) []) i Hi) as HB.
  assert (HC : cong (qj r j) (nth i (InvNTT (r_logN r) (qj r j) (psij r j) (nth j (p_co a) [])) 0) (A i)).
  { apply (InvNTT_spec _ _ _ Hnm); auto. intros k Hk. apply (H3 j Hj). exact Hk. }
  destruct (lz _ _ _); [|split; [lia|exact HC]]. split; [lia|].
  rewrite <- HC. exists 1. ring.
Qed.

(** NTT-domain scalar operations *)
Lemma nttf_scale psi c A i : nttf (r_logN r) psi (pscale c A) i = c * nttf (r_logN r) psi A i.
Proof. apply peval_scale. Qed.
Lemma nttf_add psi A B i : nttf (r_logN r) psi (padd A B) i = nttf (r_logN r) psi A i + nttf (r_logN r) psi B i.
Proof. apply peval_add. Qed.
Lemma nttf_sub psi A B i : nttf (r_logN r) psi (psub A B) i = nttf (r_logN r) psi A i - nttf (r_logN r) psi B i.
Proof. apply peval_sub. Qed.

Lemma MFormLvl_ok level a dst A : nrep r (level + 1) (p_co a) A -> (level < plen dst)%nat ->
  exists d, MFormLvl r level a dst = Ok d /\ wrote (level + 1) dst d /\ nrep r (level + 1) (p_co d) (pscale W A).
Proof.
  intros (H1 & H2 & H3) Hd.
  destruct (lvl1_ok r (fun q _ => map (fun x => MForm x q (BRedParams q))) level a dst) as (d & E & Hw & Hn); auto; try (unfold plen in *; lia).
  exists d. split; [exact E|split; [exact Hw|]]. pose proof Hw as (_ & HL & _). limbs j Hj.
  rewrite Hn by lia. pose proof (ring_q1 r j Hr ltac:(lia)) as [Hq1 HqW].
  eapply map_lrep; [apply (H3 j Hj)|]. intros i x Hi Hx Hc.
  destruct (MForm_spec x (qj r j) (ring_okm r j Hr ltac:(lia)) ltac:(lia)) as [HB HC]. split; auto.
  rewrite HC, Hc, nttf_scale. apply cong_eq. ring.
Qed.
Lemma InvMFormLvl_ok level a dst A : nrep r (level + 1) (p_co a) (pscale W A) -> (level < plen dst)%nat ->
  exists d, InvMFormLvl r level a dst = Ok d /\ wrote (level + 1) dst d /\ nrep r (level + 1) (p_co d) A.
Proof.
  intros (H1 & H2 & H3) Hd.
  destruct (lvl1_ok r (fun q _ => map (fun x => InvMForm x q (MRedParams q))) level a dst) as (d & E & Hw & Hn); auto; try (unfold plen in *; lia).
  exists d. split; [exact E|split; [exact Hw|]]. pose proof Hw as (_ & HL & _). limbs j Hj.
  rewrite Hn by lia. pose proof (ring_q1 r j Hr ltac:(lia)) as [Hq1 HqW]. pose proof (ring_okm r j Hr ltac:(lia)) as Hok.
  eapply map_lrep; [apply (H3 j Hj)|]. intros i x Hi Hx Hc.
  destruct (InvMForm_spec x (qj r j) Hok ltac:(lia)) as [HB HC]. split; auto.
  apply W_cancel; auto. rewrite HC, Hc, nttf_scale. apply cong_eq. ring.
Qed.
Lemma MulScalarBigintLvl_ok level a c dst A : nrep r (level + 1) (p_co a) A -> (level < plen dst)%nat ->
  exists d, MulScalarBigintLvl r level a c dst = Ok d /\ wrote (level + 1) dst d /\ nrep r (level + 1) (p_co d) (pscale c A).
Proof.
  intros (H1 & H2 & H3) Hd. unfold MulScalarBigintLvl.
  match goal with |- context [lvl1 r ?f level a dst] => destruct (lvl1_ok r f level a dst) as (d & E & Hw & Hn); auto; try (unfold plen in *; lia) end.
  exists d. split; [exact E|split; [exact Hw|]]. pose proof Hw as (_ & HL & _). limbs j Hj.
  rewrite Hn by lia. pose proof (ring_q1 r j Hr ltac:(lia)) as [Hq1 HqW]. pose proof (ring_okm r j Hr ltac:(lia)) as Hok.
  eapply map_lrep; [apply (H3 j Hj)|]. intros i x Hi Hx Hc.
  pose proof (Z.mod_pos_bound c (qj r j) ltac:(lia)).
  destruct (MForm_spec (c mod qj r j) (qj r j) Hok ltac:(lia)) as [HB HC].
  destruct (MRed_mform x (MForm (c mod qj r j) (qj r j) (BRedParams (qj r j))) (c mod qj r j) (qj r j) Hok) as [HB2 HC2]; try lia; auto.
  split; auto. rewrite HC2, Hc, nttf_scale. rewrite cong_mod by lia. apply cong_eq. ring.
Qed.

(** Montgomery product: if x*y = W*c then MRed x y = c *)
Lemma MRed_prod x y q X Y C : okmod q -> 0 <= x < q + 1 -> 0 <= y < q -> cong q x X -> cong q y Y -> cong q (X * Y) (W * C) ->
  0 <= MRed x y q (MRedParams q) < q /\ cong q (MRed x y q (MRedParams q)) C.
Proof.
  intros Hok Hx Hy HX HY HC. pose proof (okmod_W q Hok).
  destruct (MRed_spec x y q Hok) as [HB HM]; try lia; [nia|]. split; auto.
  apply W_cancel; auto. rewrite HM, HX, HY, HC. apply cong_eq. ring.
Qed.
Lemma nttf_prod j X Y C i : (j < length (r_mods r))%nat -> peq N (qj r j) (pmul N X Y) (pscale W C) ->
  cong (qj r j) (nttf (r_logN r) (psij r j) X i * nttf (r_logN r) (psij r j) Y i) (W * nttf (r_logN r) (psij r j) C i).
Proof.
  intros Hj HE. rewrite <- (nttf_scale (psij r j) W C i).
  assert (H : cong (qj r j) (nttf (r_logN r) (psij r j) (pmul N X Y) i) (nttf (r_logN r) (psij r j) (pscale W C) i)) by (apply (nttf_peq (r_logN r)); exact HE).
  rewrite <- H. symmetry. apply nttf_mul. now apply ro_nm.
Qed.

Definition montprod (n : nat) (X Y C : zpoly) : Prop :=
  forall j, (j < n)%nat -> peq N (qj r j) (pmul N X Y) (pscale W C).
Lemma montprod_l n A B : montprod n (pscale W A) B (pmul N A B).
Proof. intros j Hj. apply pscale_mul_l. Qed.
Lemma montprod_r n A B : montprod n A (pscale W B) (pmul N A B).
Proof. intros j Hj. apply pscale_mul_r. Qed.

Lemma MulMont_ok level a b dst X Y C : nrepb r (level + 1) (p_co a) X -> nrep r (level + 1) (p_co b) Y -> (level < plen dst)%nat ->
  montprod (level + 1) X Y C ->
  exists d, MulCoeffsMontgomeryLvl r level a b dst = Ok d /\ wrote (level + 1) dst d /\ nrep r (level + 1) (p_co d) C.
Proof.
  intros (H1 & H2 & H3) (G1 & G2 & G3) Hd HM. unfold MulCoeffsMontgomeryLvl.
  match goal with |- context [lvl2 r ?f level a b dst] => destruct (lvl2_ok r f level a b dst) as (d & E & Hw & Hn); auto; try (unfold plen in *; lia) end.
  exists d. split; [exact E|split; [exact Hw|]]. pose proof Hw as (_ & HL & _). limbs j Hj.
  rewrite Hn by lia. pose proof (ring_okm r j Hr ltac:(lia)) as Hok.
  eapply pw2_lrep; [apply (H3 j Hj)|apply (G3 j Hj)|]. intros i u v Hi Hu Hv Cu Cv.
  eapply MRed_prod; eauto. apply nttf_prod; [lia|auto].
Qed.
Lemma MulMontAdd_ok level a b dst X Y Z0 C : nrepb r (level + 1) (p_co a) X -> nrep r (level + 1) (p_co b) Y -> nrep r (level + 1) (p_co dst) Z0 ->
  montprod (level + 1) X Y C ->
  exists d, MulCoeffsMontgomeryAndAddLvl r level a b dst = Ok d /\ wrote (level + 1) dst d /\ nrep r (level + 1) (p_co d) (padd Z0 C).
Proof.
  intros (H1 & H2 & H3) (G1 & G2 & G3) (K1 & K2 & K3) HM. unfold MulCoeffsMontgomeryAndAddLvl.
  match goal with |- context [lvl3 r ?f level a b dst] => destruct (lvl3_ok r f level a b dst) as (d & E & Hw & Hn); auto; try (unfold plen in *; lia) end.
  exists d. split; [exact E|split; [exact Hw|]]. pose proof Hw as (_ & HL & _). limbs j Hj.
  rewrite Hn by lia. pose proof (ring_okm r j Hr ltac:(lia)) as Hok.
  eapply pw3_lrep; [apply (H3 j Hj)|apply (G3 j Hj)|apply (K3 j Hj)|]. intros i u v w Hi Hu Hv Hw' Cu Cv Cw.
  destruct (MRed_prod u v (qj r j) _ _ _ Hok Hu Hv Cu Cv (nttf_prod j X Y C i ltac:(lia) (HM j Hj))) as [HB HC].
  destruct (CRed_add_spec w (MRed u v (qj r j) (MRedParams (qj r j))) (qj r j) (qj r j) (qj r j) (qj r j) Hok) as [HB2 HC2]; try lia.
  split; auto. rewrite HC2, HC, Cw, nttf_add. reflexivity.
Qed.
Lemma MulMontSub_ok level a b dst X Y Z0 C : nrepb r (level + 1) (p_co a) X -> nrep r (level + 1) (p_co b) Y -> nrep r (level + 1) (p_co dst) Z0 ->
  montprod (level + 1) X Y C ->
  exists d, MulCoeffsMontgomeryAndSubLvl r level a b dst = Ok d /\ wrote (level + 1) dst d /\ nrep r (level + 1) (p_co d) (psub Z0 C).
Proof.
  intros (H1 & H2 & H3) (G1 & G2 & G3) (K1 & K2 & K3) HM. unfold MulCoeffsMontgomeryAndSubLvl.
  match goal with |- context [lvl3 r ?f level a b dst] => destruct (lvl3_ok r f level a b dst) as (d & E & Hw & Hn); auto; try (unfold plen in *; lia) end.
  exists d. split; [exact E|split; [exact Hw|]]. pose proof Hw as (_ & HL & _). limbs j Hj.
  rewrite Hn by lia. pose proof (ring_okm r j Hr ltac:(lia)) as Hok.
  eapply pw3_lrep; [apply (H3 j Hj)|apply (G3 j Hj)|apply (K3 j Hj)|]. intros i u v w Hi Hu Hv Hw' Cu Cv Cw.
  destruct (MRed_prod u v (qj r j) _ _ _ Hok Hu Hv Cu Cv (nttf_prod j X Y C i ltac:(lia) (HM j Hj))) as [HB HC].
  pose proof (ring_q1 r j Hr ltac:(lia)) as [Hq1 HqW].
  set (m := MRed u v (qj r j) (MRedParams (qj r j))) in *.
  replace (wsub (qj r j) m) with (qj r j - m) by (unfold wsub; rewrite wrap_small; lia).
  destruct (CRed_add_spec w (qj r j - m) (qj r j) (qj r j) (qj r j + 1) (qj r j) Hok) as [HB2 HC2]; try lia.
  split; auto. rewrite HC2, HC, Cw, nttf_sub. exists 1. ring.
Qed.
Lemma AddLvl_ntt_ok level a b dst X Y : nrep r (level + 1) (p_co a) X -> nrep r (level + 1) (p_co b) Y -> (level < plen dst)%nat ->
  exists d, AddLvl r level a b dst = Ok d /\ wrote (level + 1) dst d /\ nrep r (level + 1) (p_co d) (padd X Y).
Proof.
  intros (H1 & H2 & H3) (G1 & G2 & G3) Hd. unfold AddLvl.
  match goal with |- context [lvl2 r ?f level a b dst] => destruct (lvl2_ok r f level a b dst) as (d & E & Hw & Hn); auto; try (unfold plen in *; lia) end.
  exists d. split; [exact E|split; [exact Hw|]]. pose proof Hw as (_ & HL & _). limbs j Hj.
  rewrite Hn by lia. pose proof (ring_okm r j Hr ltac:(lia)) as Hok.
  eapply pw2_lrep; [apply (H3 j Hj)|apply (G3 j Hj)|]. intros i u v Hi Hu Hv Cu Cv.
  destruct (CRed_add_spec u v (qj r j) (qj r j) (qj r j) (qj r j) Hok) as [HB2 HC2]; try lia.
  split; auto. rewrite HC2, Cu, Cv, nttf_add. reflexivity.
Qed.
Lemma SubLvl_ntt_ok level a b dst X Y : nrep r (level + 1) (p_co a) X -> nrep r (level + 1) (p_co b) Y -> (level < plen dst)%nat ->
  exists d, SubLvl r level a b dst = Ok d /\ wrote (level + 1) dst d /\ nrep r (level + 1) (p_co d) (psub X Y).
Proof.
  intros (H1 & H2 & H3) (G1 & G2 & G3) Hd. unfold SubLvl.
  match goal with |- context [lvl2 r ?f level a b dst] => destruct (lvl2_ok r f level a b dst) as (d & E & Hw & Hn); auto; try (unfold plen in *; lia) end.
  exists d. split; [exact E|split; [exact Hw|]]. pose proof Hw as (_ & HL & _). limbs j Hj.
  rewrite Hn by lia. pose proof (ring_okm r j Hr ltac:(lia)) as Hok.
  eapply pw2_lrep; [apply (H3 j Hj)|apply (G3 j Hj)|]. intros i u v Hi Hu Hv Cu Cv.
  destruct (CRed_sub_spec u v (qj r j) (qj r j) Hok) as [HB2 HC2]; try lia.
  split; auto. rewrite HC2, Cu, Cv, nttf_sub. reflexivity.
Qed.
(** NTT-domain NegLvl: q - x; a zero slot gives the word q, so the result is reduced only off zero *)
Lemma NegLvl_ntt_ok level a dst X : nrepb r (level + 1) (p_co a) X -> (level < plen dst)%nat ->
  exists d, NegLvl r level a dst = Ok d /\ wrote (level + 1) dst d /\ nrepb r (level + 1) (p_co d) (popp X).
Proof.
  intros (H1 & H2 & H3) Hd. unfold NegLvl.
  match goal with |- context [lvl1 r ?f level a dst] => destruct (lvl1_ok r f level a dst) as (d & E & Hw & Hn); auto; try (unfold plen in *; lia) end.
  exists d. split; [exact E|split; [exact Hw|]]. pose proof Hw as (_ & HL & _). limbs j Hj.
  rewrite Hn by lia. pose proof (ring_q1 r j Hr ltac:(lia)) as [Hq1 HqW].
  eapply map_lrep; [apply (H3 j Hj)|]. intros i x Hi Hx Hc.
  unfold wsub. rewrite wrap_small by lia. split; [lia|].
  replace (nttf (r_logN r) (psij r j) (popp X) i) with (- nttf (r_logN r) (psij r j) X i) by (unfold nttf; now rewrite peval_opp).
  rewrite <- Hc. exists 1. ring.
Qed.

(** coefficient-domain additions; bounds *)
Lemma AddLvl_ok bx by_ b' level a b dst X Y : prep r bx (level + 1) (p_co a) X -> prep r by_ (level + 1) (p_co b) Y -> (level < plen dst)%nat ->
  (forall q, bx q + by_ q - q - 1 <= b' q /\ q <= b' q <= q + 1) ->
  exists d, AddLvl r level a b dst = Ok d /\ wrote (level + 1) dst d /\ prep r b' (level + 1) (p_co d) (padd X Y).
Proof.
  intros (H1 & H2 & H3) (G1 & G2 & G3) Hd HB. unfold AddLvl.
  match goal with |- context [lvl2 r ?f level a b dst] => destruct (lvl2_ok r f level a b dst) as (d & E & Hw & Hn); auto; try (unfold plen in *; lia) end.
  exists d. split; [exact E|split; [exact Hw|]]. pose proof Hw as (_ & HL & _). limbs j Hj.
  rewrite Hn by lia. pose proof (ring_okm r j Hr ltac:(lia)) as Hok.
  eapply pw2_lrep; [apply (H3 j Hj)|apply (G3 j Hj)|]. intros i u v Hi Hu Hv Cu Cv.
  specialize (HB (qj r j)).
  destruct (CRed_add_spec u v (qj r j) (bx (qj r j)) (by_ (qj r j)) (b' (qj r j)) Hok) as [HB2 HC2]; try lia.
  split; auto. rewrite HC2, Cu, Cv. reflexivity.
Qed.
Lemma SubLvl_ok bx by_ level a b dst X Y : prep r bx (level + 1) (p_co a) X -> prep r by_ (level + 1) (p_co b) Y -> (level < plen dst)%nat ->
  (forall q, by_ q <= q + 1 /\ q <= bx q <= q + 1) ->
  exists d, SubLvl r level a b dst = Ok d /\ wrote (level + 1) dst d /\ prep r bx (level + 1) (p_co d) (psub X Y).
Proof.
  intros (H1 & H2 & H3) (G1 & G2 & G3) Hd HB. unfold SubLvl.
  match goal with |- context [lvl2 r ?f level a b dst] => destruct (lvl2_ok r f level a b dst) as (d & E & Hw & Hn); auto; try (unfold plen in *; lia) end.
  exists d. split; [exact E|split; [exact Hw|]]. pose proof Hw as (_ & HL & _). limbs j Hj.
  rewrite Hn by lia. pose proof (ring_okm r j Hr ltac:(lia)) as Hok.
  eapply pw2_lrep; [apply (H3 j Hj)|apply (G3 j Hj)|]. intros i u v Hi Hu Hv Cu Cv.
  specialize (HB (qj r j)).
  destruct (CRed_sub_spec u v (qj r j) (bx (qj r j)) Hok) as [HB2 HC2]; try lia.
  split; auto. rewrite HC2, Cu, Cv. reflexivity.
Qed.
Lemma NegLvl_ok level a dst X : prep r (fun q => q + 1) (level + 1) (p_co a) X -> (level < plen dst)%nat ->
  exists d, NegLvl r level a dst = Ok d /\ wrote (level + 1) dst d /\ prep r (fun q => q + 1) (level + 1) (p_co d) (popp X).
Proof.
  intros (H1 & H2 & H3) Hd. unfold NegLvl.
  match goal with |- context [lvl1 r ?f level a dst] => destruct (lvl1_ok r f level a dst) as (d & E & Hw & Hn); auto; try (unfold plen in *; lia) end.
  exists d. split; [exact E|split; [exact Hw|]]. pose proof Hw as (_ & HL & _). limbs j Hj.
  rewrite Hn by lia. pose proof (ring_q1 r j Hr ltac:(lia)) as [Hq1 HqW].
  eapply map_lrep; [apply (H3 j Hj)|]. intros i x Hi Hx Hc. cbn beta in Hx.
  unfold wsub. rewrite wrap_small by lia. split; [lia|]. unfold popp.
  rewrite <- Hc. exists 1. ring.
Qed.
Lemma ReduceLvl_ok b level a dst X : prep r b (level + 1) (p_co a) X -> (forall j, (j <= level)%nat -> b (qj r j) <= W) -> (level < plen dst)%nat ->
  exists d, ReduceLvl r level a dst = Ok d /\ wrote (level + 1) dst d /\ prep r (fun q => q) (level + 1) (p_co d) X.
Proof.
  intros (H1 & H2 & H3) HB Hd. unfold ReduceLvl.
  match goal with |- context [lvl1 r ?f level a dst] => destruct (lvl1_ok r f level a dst) as (d & E & Hw & Hn); auto; try (unfold plen in *; lia) end.
  exists d. split; [exact E|split; [exact Hw|]]. pose proof Hw as (_ & HL & _). limbs j Hj.
  rewrite Hn by lia. pose proof (ring_q1 r j Hr ltac:(lia)) as [Hq1 HqW]. specialize (HB j ltac:(lia)).
  eapply map_lrep; [apply (H3 j Hj)|]. intros i x Hi Hx Hc.
  rewrite BRedAdd_spec by (try apply ring_okm; auto; lia). split; [apply Z.mod_pos_bound; lia|].
  rewrite cong_mod by lia. exact Hc.
Qed.
Lemma CopyValuesLvl_ok b level a dst X : prep r b (level + 1) (p_co a) X -> (level < plen dst)%nat ->
  exists d, CopyValuesLvl r level a dst = Ok d /\ wrote (level + 1) dst d /\ prep r b (level + 1) (p_co d) X.
Proof.
  intros (H1 & H2 & H3) Hd. unfold CopyValuesLvl.
  match goal with |- context [lvl1 r ?f level a dst] => destruct (lvl1_ok r f level a dst) as (d & E & Hw & Hn); auto; try (unfold plen in *; lia) end.
  exists d. split; [exact E|split; [exact Hw|]]. pose proof Hw as (_ & HL & _). limbs j Hj.
  rewrite Hn by lia. apply (H3 j Hj).
Qed.
End Ops.

(** * automorphisms in the coefficient domain *)
Lemma upd_length l k v : (k < length l)%nat -> length (upd l k v) = length l.
Proof. intros H. unfold upd. rewrite app_length, firstn_length. cbn [length]. rewrite skipn_length. lia. Qed.
Lemma upd_nth l k v j : (k < length l)%nat -> nth j (upd l k v) 0 = if Nat.eqb j k then v else nth j l 0.
Proof.
  intros H. unfold upd. destruct (Nat.eqb_spec j k) as [->|Hne].
  - rewrite app_nth2; rewrite firstn_length; [|lia]. replace (k - Nat.min k (length l))%nat with O by lia. reflexivity.
  - destruct (lt_dec j k).
    + rewrite app_nth1 by (rewrite firstn_length; lia). apply nth_firstn. lia.
    + rewrite app_nth2; rewrite firstn_length; [|lia]. replace (j - Nat.min k (length l))%nat with (S (j - k - 1)) by lia.
      cbn [nth]. rewrite <- (firstn_skipn (k + 1) l) at 2. rewrite app_nth2; rewrite firstn_length; [|lia]. f_equal. lia.
Qed.
Lemma scatter (k : nat -> nat) (v : nat -> Z) old : forall m,
  (forall i, (i < m)%nat -> (k i < length old)%nat) -> (forall i j, (i < m)%nat -> (j < m)%nat -> k i = k j -> i = j) ->
  let out := fold_left (fun out i => upd out (k i) (v i)) (seq 0 m) old in
  length out = length old /\ (forall i, (i < m)%nat -> nth (k i) out 0 = v i).
Proof.
  induction m as [|m IH]; intros Hk Hi out; subst out; [split; [reflexivity|lia]|].
  rewrite seq_S, fold_left_app. cbn [fold_left Nat.add].
  destruct IH as [HL HV]; [auto|intros; apply Hi; auto; lia|].
  set (o := fold_left _ _ _) in *.
  split; [rewrite upd_length; rewrite HL; auto|].
  intros i Hi'. rewrite upd_nth by (rewrite HL; auto). destruct (Nat.eqb_spec (k i) (k m)) as [E|E].
  - apply Hi in E; try lia. now subst.
  - apply HV. assert (i <> m) by congruence. lia.
Qed.

Lemma permute_limb_lrep logN g g' q b x old A : (1 <= logN <= 30)%nat -> 1 < q -> q < W -> b <= q + 1 ->
  0 <= g < 2 * Z.of_nat (deg logN) -> Z.Odd g -> cong (2 * Z.of_nat (deg logN)) (g * g') 1 ->
  length old = deg logN -> lrep (deg logN) q b x A ->
  lrep (deg logN) q (q + 1) (permute_limb logN g q x old) (sigma_inv (deg logN) g' A).
Proof.
  intros HL Hq HqW Hb Hg Hodd Hgg Hold [Hx1 Hx2]. pose proof (deg_pos logN) as HN. set (N := deg logN) in *. set (n := Z.of_nat N) in *.
  assert (Hn0 : 0 < n) by lia.
  assert (Hn30 : n <= 2 ^ 30) by (unfold n, N; rewrite deg_Z; apply Z.pow_le_mono_r; lia).
  assert (Hraw : forall i, (i < N)%nat -> wmul (Z.of_nat i) g = Z.of_nat i * g).
  { intros i Hi. unfold wmul. apply wrap_small. rewrite W_val. change (2 ^ 30) with 1073741824 in Hn30. nia. }
  set (k := fun i => Z.to_nat ((Z.of_nat i * g) mod n)).
  set (v := fun i => if ((Z.of_nat i * g) / n) mod 2 =? 0 then nth i x 0 else wsub q (nth i x 0)).
  assert (EQ : permute_limb logN g q x old = fold_left (fun out i => upd out (k i) (v i)) (seq 0 N) old).
  { unfold permute_limb. fold N. fold n.
    assert (HH : forall l o, (forall i, In i l -> (i < N)%nat) ->
      fold_left (fun out i => upd out (Z.to_nat (wmul (Z.of_nat i) g mod n)) (if wmul (Z.of_nat i) g / n mod 2 =? 0 then nth i x 0 else wsub q (nth i x 0))) l o =
      fold_left (fun out i => upd out (k i) (v i)) l o).
    { induction l as [|i l IH]; intros o Ho; [reflexivity|]. cbn [fold_left]. rewrite (Hraw i) by (apply Ho; now left).
      apply IH. intros; apply Ho; now right. }
    apply HH. intros i Hi. apply in_seq in Hi. lia. }
  assert (Hgn : cong n (g * g') 1). { destruct Hgg as [u Hu]. exists (2 * u). rewrite Hu. ring. }
  destruct (scatter k v old N) as [HLen HV].
  { intros i Hi. unfold k. pose proof (Z.mod_pos_bound (Z.of_nat i * g) n Hn0). lia. }
  { intros i j Hi Hj E. unfold k in E.
    pose proof (Z.mod_pos_bound (Z.of_nat i * g) n Hn0). pose proof (Z.mod_pos_bound (Z.of_nat j * g) n Hn0).
    assert (E' : (Z.of_nat i * g) mod n = (Z.of_nat j * g) mod n) by lia.
    assert (C : cong n (Z.of_nat i * g) (Z.of_nat j * g)) by (rewrite <- (cong_mod n (Z.of_nat i * g)), E', cong_mod by lia; reflexivity).
    assert (C2 : cong n (Z.of_nat i) (Z.of_nat j)).
    { transitivity (Z.of_nat i * g * g'); [rewrite <- Z.mul_assoc, Hgn; apply cong_eq; ring|]. rewrite C, <- Z.mul_assoc, Hgn. apply cong_eq; ring. }
    destruct C2 as [u Hu]. assert (u = 0) by nia. subst u. lia. }
  rewrite EQ. set (out := fold_left _ _ _) in *. split; [lia|]. intros m Hm.
  set (i := Z.to_nat ((g' * Z.of_nat m) mod n)).
  pose proof (Z.mod_pos_bound (g' * Z.of_nat m) n Hn0) as Hmod.
  assert (Hi : (i < N)%nat) by (unfold i; lia).
  assert (Hiz : Z.of_nat i = (g' * Z.of_nat m) mod n) by (unfold i; lia).
  pose proof (Z.div_mod (g' * Z.of_nat m) n ltac:(lia)) as HD. rewrite <- Hiz in HD. set (t := (g' * Z.of_nat m) / n) in *.
  destruct Hodd as [h Hh]. destruct Hgg as [u Hu].
  assert (HE : Z.of_nat i * g = Z.of_nat m + n * (t + 2 * (u * Z.of_nat m - t * (h + 1)))).
  { assert (Z.of_nat i = g' * Z.of_nat m - n * t) by lia. rewrite H.
    replace ((g' * Z.of_nat m - n * t) * g) with ((g * g' - 1) * Z.of_nat m + Z.of_nat m - n * t * g) by ring.
    rewrite Hu, Hh. ring. }
  assert (Hki : k i = m).
  { unfold k. rewrite HE, (Z.mul_comm n), Z.mod_add, Z.mod_small by lia. lia. }
  pose proof (HV i Hi) as HVm. rewrite Hki in HVm. rewrite HVm. unfold v.
  rewrite HE, (Z.mul_comm n), Z.div_add, (Z.div_small (Z.of_nat m)) by lia. rewrite Z.add_0_l.
  replace (t + 2 * (u * Z.of_nat m - t * (h + 1))) with (t + (u * Z.of_nat m - t * (h + 1)) * 2) by ring. rewrite Z.mod_add by lia.
  unfold sigma_inv, ext. fold n t. fold i.
  destruct (Hx2 i Hi) as [HB HC].
  rewrite Zmod_even. destruct (Z.even t); cbn.
  - split; [lia|exact HC].
  - unfold wsub. rewrite wrap_small by lia. split; [lia|]. rewrite <- HC. exists 1. ring.
Qed.

Section Auto.
Context (r : ringd) (Hr : ring_ok r) (g g' : Z).
Context (Hg : 0 <= g < 2 * Z.of_nat (r_N r)) (Hodd : Z.Odd g) (Hgg : cong (2 * Z.of_nat (r_N r)) (g * g') 1).
Lemma permuteLvl_ok b level a dst A : prep r b (level + 1) (p_co a) A -> (forall q, b q <= q + 1) -> (level < plen dst)%nat ->
  shp (r_N r) (p_co dst) ->
  exists d, permuteLvl r level a g dst = Ok d /\ wrote (level + 1) dst d /\
    prep r (fun q => q + 1) (level + 1) (p_co d) (sigma_inv (r_N r) g' A).
Proof.
  intros (H1 & H2 & H3) HB Hd Hs. unfold permuteLvl.
  match goal with |- context [lvl3 r ?f level a a dst] => destruct (lvl3_ok r f level a a dst) as (d & E & Hw & Hn); auto; try (unfold plen in *; lia) end.
  exists d. split; [exact E|split; [exact Hw|]]. pose proof Hw as (_ & HL & _).
  split; [lia|split; [unfold plen in *; lia|]]. intros j Hj. rewrite Hn by lia.
  pose proof (ring_q1 r j Hr ltac:(lia)) as [Hq1 HqW].
  eapply permute_limb_lrep; eauto; try lia.
  - apply (ro_log r Hr).
  - apply shp_nth; [exact Hs|unfold plen in *; lia].
Qed.
Lemma Permute_ok b a dst A : (0 < length (r_mods r))%nat -> prep r b (length (r_mods r)) (p_co a) A -> (forall q, b q <= q + 1) ->
  (length (r_mods r) <= plen dst)%nat -> shp (r_N r) (p_co dst) ->
  exists d, Permute r a g dst = Ok d /\ wrote (length (r_mods r)) dst d /\
    prep r (fun q => q + 1) (length (r_mods r)) (p_co d) (sigma_inv (r_N r) g' A).
Proof.
  intros H0 Ha HB Hd Hs. unfold Permute. pose proof (permuteLvl_ok b (length (r_mods r) - 1) a dst A) as H.
  replace (length (r_mods r) - 1 + 1)%nat with (length (r_mods r)) in H by lia.
  apply H; auto; lia.
Qed.
Lemma PermuteNTT_ok level a dst A : nrep r (level + 1) (p_co a) A -> (level < plen dst)%nat ->
  exists d, PermuteNTTWithIndexLvl level a (PermuteNTTIndex (r_logN r) g) dst = Ok d /\ wrote (level + 1) dst d /\
    nrep r (level + 1) (p_co d) (sigma_inv (r_N r) g' A).
Proof.
  intros (H1 & H2 & H3) Hd. unfold PermuteNTTWithIndexLvl.
  assert (HX : forall j, exists l', (j < level + 1)%nat -> permute_ntt (PermuteNTTIndex (r_logN r) g) (nth j (p_co a) []) = Ok l' /\
     lrep (r_N r) (qj r j) (qj r j) l' (nttf (r_logN r) (psij r j) (sigma_inv (r_N r) g' A))).
  { intros j. destruct (lt_dec j (level + 1)) as [Hj|Hj]; [|exists []; lia].
    destruct (H3 j Hj) as [HL HN].
    destruct (permute_ntt_spec (r_logN r) (qj r j) (psij r j) (ro_nm r Hr j ltac:(lia)) g g' (nth j (p_co a) []) A) as (l' & E & L & S1 & S2); auto; try lia.
    { intros i Hi. apply HN. exact Hi. }
    exists l'. intros _. split; auto. split; [exact L|]. intros i Hi. destruct (S1 i Hi) as (k & Hk & Ek).
    split; [rewrite Ek; apply HN; exact Hk|]. now apply S2. }
  assert (HF : exists f, forall j, (j < level + 1)%nat -> permute_ntt (PermuteNTTIndex (r_logN r) g) (nth j (p_co a) []) = Ok (f j) /\
     lrep (r_N r) (qj r j) (qj r j) (f j) (nttf (r_logN r) (psij r j) (sigma_inv (r_N r) g' A))).
  { exists (fun j => match permute_ntt (PermuteNTTIndex (r_logN r) g) (nth j (p_co a) []) with Ok l => l | Panic _ => [] end).
    intros j Hj. destruct (HX j) as [l' HX']. destruct (HX' Hj) as [E ?]. rewrite E. auto. }
  destruct HF as [f HF].
  rewrite (mapM_ok _ f). 2:{ intros j Hj. apply in_seq in Hj. rewrite (idx_nth (p_co a) j []) by lia. cbn [bind]. apply HF. lia. }
  cbn [bind]. destruct (write_ok level (map f (seq 0 (level + 1))) dst) as (d & E & Hw & Hn); auto.
  { now rewrite map_length, seq_length. }
  exists d. split; [exact E|split; [exact Hw|]]. pose proof Hw as (_ & HL & _).
  split; [lia|split; [unfold plen in *; lia|]]. intros j Hj. rewrite Hn by lia. rewrite nth_map_seq by lia. apply HF. lia.
Qed.
End Auto.
