(** What a sequence of evaluator calls computes on complex slots, and with which error.  Definitions only. *)
From Coq Require Import String ZArith List Bool Reals.
From Coq.Floats Require Import SpecFloat.
From Verif Require Import Spec Go Arith NegRing BasisExt NTT RingOps Maps Params Elements KeySwitch KeySets KeyGen F64 EncDec Utils Evaluator Repr SpecKeys SpecCt SpecEnc SpecEv SpecRot SpecSlots SpecLREnc Circuit.
Import ListNotations.
Local Open Scope R_scope.

(** the complex number z times the real r *)
Definition cscale (r : R) (z : C2) : C2 := cmul (creal r) z.
(** the integer polynomial M has in every slot i the value sc * m i, up to e *)
Definition slots_near (pp : params) (sc : f64) (m : Z -> C2) (e : R) (M : zpoly) : Prop :=
  forall i, (0 <= i < Z.of_nat (pa_N pp) / 2)%Z -> cnorm (csub (slot (pa_N pp) M i) (cscale (fR sc) (m i))) <= e.
(** ct is a ciphertext of level l and scale sc, of parties among ids, that encrypts the complex slots m up to e *)
Record holds (pp : params) (s : string -> zpoly) (ids : list string) (l : nat) (sc : f64) (m : Z -> C2) (e : R) (ct : ckct) : Prop := {
  hd_l : (l < QCount pp)%nat; hd_ct : ct_ok pp l (c_ct ct); hd_ids : forall id, party (c_ct ct) id -> In id ids; hd_sc : c_scale ct = sc;
  hd_m : exists M : zpoly, (forall j, (j <= l)%nat -> peq (pa_N pp) (modulus (pa_Q pp) j) (phase (pa_N pp) s (c_ct ct) j) M) /\ slots_near pp sc m e M }.
(** pt is a plaintext of the maximum level, in coefficient form, of scale sc, with the slots m up to e *)
Definition holds_pt (pp : params) (sc : f64) (m : Z -> C2) (e : R) (pt : poly * f64) : Prop :=
  snd pt = sc /\ p_ntt (fst pt) = false /\ exists M : zpoly, plaintext_is pp (maxLevel pp) (fst pt) M /\ slots_near pp sc m e M.
(** the largest of the slots 0 .. n-1 *)
Fixpoint csup (n : nat) (m : Z -> C2) : R := match n with O => 0 | S k => Rmax (csup k m) (cnorm (m (Z.of_nat k))) end.

(** ** the calls on slots *)
(** level, scale, slots, error *)
Record cval := mkV { v_l : nat; v_s : f64; v_m : Z -> C2; v_e : R }.
Record cpt := mkVp { vp_s : f64; vp_m : Z -> C2; vp_e : R }.
Section Track.
(** thr: the evaluator's default scale; g, s, Bs, Be, Dm: gadget, secrets, their size, the size of the errors in the keys and of the digits *)
Context (pp : params) (thr : f64) (g : nat -> Z) (s : string -> zpoly) (Bs Be Dm : Z) (ids : list string) (rks : rotset) (cks : conjset) (pts : list cpt).
Notation N := (pa_N pp).
Notation Q := (pa_Q pp).
Notation k := (Z.of_nat (List.length ids)).
Notation h := (N / 2)%nat.
Notation sup m := (csup h m).
Notation N2 := (2 * INR N).
(** errors that an operation adds of its own, on slots: relinearization, rounding when n moduli are dropped, a key switch *)
Definition relin_noise (l : nat) : R := N2 * (IZR (mul_noise_bound N k k (Z.of_nat (Beta pp l)) Bs Be Dm (bigP pp)) / IZR (bigP pp)).
Definition round_noise (l n : nat) : R := N2 * IZR (rescale_noise N k Bs (dropped Q l n)).
Definition switch_noise (l : nat) : R := N2 * (IZR (k * ks_noise N (Z.of_nat (Beta pp l)) Bs Be Dm (bigP pp)) / IZR (bigP pp)).
(** of a product: operands with scales s0, s1, slots m0, m1 and errors e0, e1; w: the errors the operation adds; result recorded with scale sc
    after division by D *)
Definition prod_err (s0 s1 sc : f64) (D : Z) (m0 m1 : Z -> C2) (e0 e1 w : R) : R :=
  (e0 * (Rabs (fR s1) * sup m1) + e1 * (Rabs (fR s0) * sup m0) + e0 * e1 + w) / IZR D + Rabs (fR s0 * fR s1 / IZR D - fR sc) * (sup m0 * sup m1).
(** of a sum or difference: the operands multiplied by the integers k0, k1 *)
Definition sum_err (s0 s1 sc : f64) (k0 k1 : Z) (m0 m1 : Z -> C2) (e0 e1 : R) : R :=
  IZR k0 * e0 + IZR k1 * e1 + Rabs (IZR k0 * fR s0 - fR sc) * sup m0 + Rabs (IZR k1 * fR s1 - fR sc) * sup m1.

(** [track vs c v]: the call c on ciphertexts with levels, scales, slots and errors vs can be made, and v are those of the result *)
Inductive track (vs : list cval) : call -> cval -> Prop :=
| T_add i j a b : nth_error vs i = Some a -> nth_error vs j = Some b -> comparable (v_s a) (v_s b) ->
    let sc := if fltb (v_s b) (v_s a) then v_s a else v_s b in
    track vs (CAdd i j) (mkV (Nat.min (v_l a) (v_l b)) sc (fun x => cadd (v_m a x) (v_m b x))
      (sum_err (v_s a) (v_s b) sc (align_factor (v_s a) (v_s b)) (align_factor (v_s b) (v_s a)) (v_m a) (v_m b) (v_e a) (v_e b)))
| T_sub i j a b : nth_error vs i = Some a -> nth_error vs j = Some b -> comparable (v_s a) (v_s b) ->
    let sc := if fltb (v_s b) (v_s a) then v_s a else v_s b in
    track vs (CSub i j) (mkV (Nat.min (v_l a) (v_l b)) sc (fun x => csub (v_m a x) (v_m b x))
      (sum_err (v_s a) (v_s b) sc (align_factor (v_s a) (v_s b)) (align_factor (v_s b) (v_s a)) (v_m a) (v_m b) (v_e a) (v_e b)))
| T_mul i j a b n : nth_error vs i = Some a -> nth_error vs j = Some b -> let l := Nat.min (v_l a) (v_l b) in
    rescale_steps Q l (fmul (v_s a) (v_s b)) thr n -> let sc := scale_after Q l (fmul (v_s a) (v_s b)) n in
    track vs (CMul i j) (mkV (l - n) sc (fun x => cmul (v_m a x) (v_m b x))
      (prod_err (v_s a) (v_s b) sc (dropped Q l n) (v_m a) (v_m b) (v_e a) (v_e b) (relin_noise l + round_noise l n)))
| T_mulpt i p a b n : nth_error vs i = Some a -> nth_error pts p = Some b ->
    rescale_steps Q (v_l a) (fmul (v_s a) (vp_s b)) thr n -> let sc := scale_after Q (v_l a) (fmul (v_s a) (vp_s b)) n in
    track vs (CMulPt i p) (mkV (v_l a - n) sc (fun x => cmul (v_m a x) (vp_m b x))
      (prod_err (v_s a) (vp_s b) sc (dropped Q (v_l a) n) (v_m a) (vp_m b) (v_e a) (vp_e b) (round_noise (v_l a) n)))
| T_const i a c t : nth_error vs i = Some a -> finite c -> encoded_at (modulus Q (v_l a)) [c] t ->
    let n := scaled_const c t in let sc := fmul (v_s a) t in
    track vs (CConst i c) (mkV (v_l a) sc (fun x => cscale (fR c) (v_m a x))
      (Rabs (IZR n) * v_e a + Rabs (IZR n * fR (v_s a) - fR sc * fR c) * sup (v_m a)))
| T_rot i a r n : nth_error vs i = Some a -> (forall ct, (forall id, party ct id -> In id ids) -> rot_ready pp g Be s ct rks (r mod (Z.of_nat N / 2)) n) ->
    track vs (CRot i r) (mkV (v_l a) (v_s a) (fun x => v_m a ((x + r) mod (Z.of_nat N / 2))%Z) (v_e a + IZR n * switch_noise (v_l a)))
| T_rot_hoisted i a r n : nth_error vs i = Some a -> ((r mod (Z.of_nat N / 2) = 0)%Z /\ n = 0%Z \/
      (r mod (Z.of_nat N / 2) <> 0)%Z /\ n = 1%Z /\ forall ct, (forall id, party ct id -> In id ids) -> rot_keys pp g Be s ct (r mod (Z.of_nat N / 2)) rks) ->
    track vs (CRotHoisted i r) (mkV (v_l a) (v_s a) (fun x => v_m a ((x + r) mod (Z.of_nat N / 2))%Z) (v_e a + IZR n * switch_noise (v_l a)))
| T_conj i a : nth_error vs i = Some a -> v_l a = maxLevel pp -> (forall ct, (forall id, party ct id -> In id ids) -> conj_keys pp g Be s ct cks) ->
    track vs (CConj i) (mkV (v_l a) (v_s a) (fun x => cconj (v_m a x)) (v_e a + switch_noise (v_l a)))
| T_rescale i a t n : nth_error vs i = Some a -> ~ rescale_err (v_l a) (v_s a) t -> rescale_count Q (v_l a) (v_s a) (fdiv t (f_of_Z 2)) n -> n <> O ->
    let sc := scale_after Q (v_l a) (v_s a) n in let D := IZR (dropped Q (v_l a) n) in
    track vs (CRescale i t) (mkV (v_l a - n) sc (v_m a) ((v_e a + round_noise (v_l a) n) / D + Rabs (fR (v_s a) / D - fR sc) * sup (v_m a)))
| T_drop i a n : nth_error vs i = Some a -> (n <= v_l a)%nat ->
    track vs (CDrop i n) (mkV (v_l a - n) (v_s a) (v_m a) (v_e a))
(** the hoisted form and the calls in place give what the others give *)
| T_mul_hoisted i j hi hj v : track vs (CMul i j) v -> track vs (CMulHoisted i j hi hj) v
| T_const_in i c v : track vs (CConst i c) v -> track vs (CConstIn i c) v
| T_rescale_in i t v : track vs (CRescale i t) v -> track vs (CRescaleIn i t) v
| T_rescale_in_0 i a t : nth_error vs i = Some a -> ~ rescale_err (v_l a) (v_s a) t -> rescale_count Q (v_l a) (v_s a) (fdiv t (f_of_Z 2)) 0 ->
    track vs (CRescaleIn i t) a
| T_drop_in i n v : track vs (CDrop i n) v -> track vs (CDropIn i n) v.
(** a sequence of calls; each result is appended, or replaces the operand of a call in place *)
Inductive tracks : list cval -> list call -> list cval -> Prop :=
| T_nil vs : tracks vs [] vs
| T_cons vs c p v vs' : track vs c v -> tracks (stored c v vs) p vs' -> tracks vs (c :: p) vs'.
End Track.

(** ** keys and state *)
(** all parties ids have relinearization keys made for the secrets s, r *)
Record circ_keys (pp : params) (g : nat -> Z) (A U : nat -> zpoly) (s r : string -> zpoly) (Bs Be Dm : Z) (ids : list string) (keys : rlkset) : Prop := {
  ck_g : gadget pp g; ck_U : crs_is pp (-1) U; ck_D : digit_bound pp Dm; ck_no0 : ~ In "0"%string ids;
  ck_Bs : (0 <= Bs)%Z; ck_Be : (0 <= Be)%Z; ck_Dm : (0 <= Dm)%Z;
  ck_s : forall id, In id ids -> pnorm_le (pa_N pp) (s id) Bs /\ pnorm_le (pa_N pp) (r id) Bs;
  ck_rlk : forall id, In id ids -> exists rl, sget keys id = Some rl /\ rlk_valid pp g A U Be (s id) (r id) rl }.
Record circ_ok (pp : params) (ids : list string) (keys : rlkset) (st : cst) : Prop := {
  co_ev : ev_ok pp (cs_ev st); co_keys : rs_keys (cs_rs st) = keys;
  co_h0 : forall id, In id ids -> exists v, sget (rs_h0 (cs_rs st)) id = Some v /\ swk_ok pp v;
  co_h1 : forall id, In id ids -> exists v, sget (rs_h1 (cs_rs st)) id = Some v /\ swk_ok pp v }.
Definition v_holds (pp : params) (s : string -> zpoly) (ids : list string) (v : cval) (ct : ckct) : Prop := holds pp s ids (v_l v) (v_s v) (v_m v) (v_e v) ct.
Definition vp_holds (pp : params) (v : cpt) (pt : poly * f64) : Prop := holds_pt pp (vp_s v) (vp_m v) (vp_e v) pt.
