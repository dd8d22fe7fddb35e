(** What it means that a ciphertext encrypts real slots up to an error, the keys a logistic-regression program needs, and the errors
    of the evaluator's operations on slots.  Definitions only. *)
From Coq Require Import String ZArith List Bool Reals.
From Coq.Floats Require Import SpecFloat.
From Verif Require Import Spec Go Arith NegRing BasisExt NTT RingOps Maps Params Elements KeySwitch KeySets KeyGen F64 EncDec Evaluator Repr SpecKeys SpecCt SpecEnc SpecEv SpecRot SpecSlots LR SpecLR LREval LRShadow LRRel.
Import ListNotations.
Local Open Scope R_scope.

Definition creal (x : R) : C2 := (x, 0).
(** |Re z| + |Im z| *)
Definition cnorm (z : C2) : R := Rabs (fst z) + Rabs (snd z).
(** the real value of a float64 (0 for infinities and NaN) *)
Definition fR (x : f64) : R :=
  match x with S754_finite s m e => IZR (if s then Zneg m else Zpos m) * powerRZ 2 e | _ => 0 end.

(** ct is a level-l ciphertext of scale sc and of parties among ids, and an integer polynomial M with the residues of its phase has in
    every slot i the value sc * m i, up to e *)
Record encrypts (pp : params) (s : string -> zpoly) (ids : list string) (l : nat) (sc : f64) (m : Z -> R) (e : R) (ct : ckct) : Prop := {
  ec_l : (l < QCount pp)%nat; ec_ct : ct_ok pp l (c_ct ct); ec_ids : forall id, party (c_ct ct) id -> In id ids; ec_sc : c_scale ct = sc;
  ec_m : exists M : zpoly, (forall j, (j <= l)%nat -> peq (pa_N pp) (modulus (pa_Q pp) j) (phase (pa_N pp) s (c_ct ct) j) M) /\
    forall i, (0 <= i < Z.of_nat (pa_N pp) / 2)%Z -> cnorm (csub (slot (pa_N pp) M i) (creal (fR sc * m i))) <= e }.
(** pt is a plaintext of the maximum level, in coefficient form, of scale sc, with the value sc * m i in slot i, up to e *)
Definition encodes (pp : params) (sc : f64) (m : Z -> R) (e : R) (pt : poly * f64) : Prop :=
  snd pt = sc /\ p_ntt (fst pt) = false /\ exists M : zpoly, plaintext_is pp (maxLevel pp) (fst pt) M /\
    forall i, (0 <= i < Z.of_nat (pa_N pp) / 2)%Z -> cnorm (csub (slot (pa_N pp) M i) (creal (fR sc * m i))) <= e.

(** the largest absolute value of the slots 0 .. n-1 *)
Fixpoint sup (n : nat) (m : Z -> R) : R := match n with O => 0 | S k => Rmax (sup k m) (Rabs (m (Z.of_nat k))) end.

(** ** running a program on slots with error bounds *)
(** level, scale, exact slots, bound on the error (as in [encrypts]) *)
Record aval := mkA { a_l : nat; a_s : f64; a_m : Z -> R; a_e : R }.
Record apt := mkAp { ap_s : f64; ap_m : Z -> R; ap_e : R }.
(** the errors an operation adds: a product at level l that drops n moduli, a product with a plaintext, a rotation, a fresh encryption of 0 *)
Record noise := mkNoise { n_mul : nat -> nat -> R; n_mulp : nat -> nat -> R; n_rot : nat -> R; n_zero : R }.
(** the error of a product of values of scales s0, s1 with slots m0, m1 and errors e0, e1, divided by D and recorded with the scale s *)
Definition mul_err (h : nat) (s0 s1 s : f64) (D : Z) (m0 m1 : Z -> R) (e0 e1 : R) : R :=
  (e0 * (Rabs (fR s1) * sup h m1) + e1 * (Rabs (fR s0) * sup h m0) + e0 * e1) / IZR D + Rabs (fR s0 * fR s1 / IZR D - fR s) * (sup h m0 * sup h m1).
(** the error of a sum, the operands multiplied by the integers k0, k1, recorded with the scale s *)
Definition add_err (h : nat) (s0 s1 s : f64) (k0 k1 : Z) (m0 m1 : Z -> R) (e0 e1 : R) : R :=
  IZR k0 * e0 + IZR k1 * e1 + Rabs (IZR k0 * fR s0 - fR s) * sup h m0 + Rabs (IZR k1 * fR s1 - fR s) * sup h m1.
(** [h]: number of slots; the rest as for [scaleOps] *)
Definition errOps (h : nat) (nz : noise) (Q : list Z) (top : nat) (thr : f64) : heops (list nat) aval apt :=
  let mul l s0 s1 m0 m1 e0 e1 extra : SM (list nat) aval := fun log =>
    match rsteps Q l (fmul s0 s1) thr with
    | None => Panic PIndex
    | Some n => let s := scale_after Q l (fmul s0 s1) n in
        Ok (mkA (l - n) s (fun i => m0 i * m1 i) (mul_err h s0 s1 s (dropped Q l n) m0 m1 e0 e1 + extra n), n :: log)
    end in {|
  o_mul := fun _ a b => let l := Nat.min (a_l a) (a_l b) in mul l (a_s a) (a_s b) (a_m a) (a_m b) (a_e a) (a_e b) (n_mul nz l);
  o_mulp := fun a p => mul (a_l a) (a_s a) (ap_s p) (a_m a) (ap_m p) (a_e a) (ap_e p) (n_mulp nz (a_l a));
  o_add := fun a b log => if cmpb (a_s a) (a_s b) then
      let s := if fltb (a_s b) (a_s a) then a_s a else a_s b in
      Ok (mkA (Nat.min (a_l a) (a_l b)) s (fun i => a_m a i + a_m b i)
            (add_err h (a_s a) (a_s b) s (align_factor (a_s a) (a_s b)) (align_factor (a_s b) (a_s a)) (a_m a) (a_m b) (a_e a) (a_e b)), log)
    else Panic PIndex;
  o_rot := fun a k => sret (mkA (a_l a) (a_s a) (fun i => a_m a ((i + k) mod Z.of_nat h)%Z) (a_e a + n_rot nz (a_l a)));
  o_zero := sret (mkA top thr (fun _ => 0) (n_zero nz))
|}.

(** ** keys and state of a program on the evaluator *)
(** ids: all parties; s, r: their secrets, of size Bs; key errors of size Be; digits of size Dm; every rotation is done with at most
    nr key switches *)
Record lr_keys (pp : params) (g : nat -> Z) (A U : nat -> zpoly) (s r : string -> zpoly) (Bs Be Dm nr : Z) (ids : list string) (keys : rlkset) (rks : rotset) : Prop := {
  lk_g : gadget pp g; lk_U : crs_is pp (-1) U; lk_D : digit_bound pp Dm; lk_0 : ~ In "0"%string ids;
  lk_Bs : (0 <= Bs)%Z; lk_Be : (0 <= Be)%Z; lk_Dm : (0 <= Dm)%Z;
  lk_s : forall id, In id ids -> pnorm_le (pa_N pp) (s id) Bs /\ pnorm_le (pa_N pp) (r id) Bs;
  lk_rlk : forall id, In id ids -> exists rl, sget keys id = Some rl /\ rlk_valid pp g A U Be (s id) (r id) rl;
  lk_rot : forall ct k, (forall id, party ct id -> In id ids) -> exists n, (0 <= n <= nr)%Z /\ rot_ready pp g Be s ct rks (k mod (Z.of_nat (pa_N pp) / 2)) n }.
(** the encryptions of zero the program makes: public key of one of the parties, error of size B, samples of size Bu and B; the encoder
    writes a plaintext whose slots are at most ez *)
Record zero_setting (pp : params) (s : string -> zpoly) (ids : list string) (pk : pubkey) {Msg} (encode : poly -> Msg -> poly) (zero_msg : Msg)
    (rnd : nat -> small * small * small) (Bu B : Z) (ez : R) : Prop := {
  zs_pk : exists e a, pk_is pp pk (s (pk_ID pk)) e a /\ pnorm_le (pa_N pp) e B; zs_id : In (pk_ID pk) ids;
  zs_Bu : bound_ok pp Bu; zs_B : bound_ok pp B;
  zs_rnd : forall n, small_ok (pa_N pp) Bu (fst (fst (rnd n))) /\ small_ok (pa_N pp) B (snd (fst (rnd n))) /\ small_ok (pa_N pp) B (snd (rnd n));
  zs_enc : exists M, (forall p, plen p = QCount pp -> plaintext_is pp (maxLevel pp) (encode p zero_msg) M) /\
    forall i, (0 <= i < Z.of_nat (pa_N pp) / 2)%Z -> cnorm (slot (pa_N pp) M i) <= ez }.
(** state of the program: evaluator and encryptor as their calls leave them; the key set with its keys and pools for all parties *)
Record lr_ok (pp : params) (sc : f64) (ids : list string) (keys : rlkset) (st : lrst) : Prop := {
  lo_ev : ev_ok pp (lr_ev st); lo_keys : rs_keys (lr_rs st) = keys; lo_en : encst_ok (mkCkp pp sc) (lr_en st);
  lo_h0 : forall id, In id ids -> exists v, sget (rs_h0 (lr_rs st)) id = Some v /\ swk_ok pp v;
  lo_h1 : forall id, In id ids -> exists v, sget (rs_h1 (lr_rs st)) id = Some v /\ swk_ok pp v }.
(** the errors of the operations on slots: an integer polynomial bounded by B has slots at most 2*N*B *)
Definition lr_noise (pp : params) (k Bs Be Dm nr Bu B : Z) (ez : R) : noise :=
  let N2 := 2 * INR (pa_N pp) in let P := IZR (bigP pp) in let beta l := Z.of_nat (Beta pp l) in {|
  n_mul := fun l n => let D := dropped (pa_Q pp) l n in
    N2 * (IZR (mul_noise_bound (pa_N pp) k k (beta l) Bs Be Dm (bigP pp)) / P + IZR (rescale_noise (pa_N pp) k Bs D)) / IZR D;
  n_mulp := fun l n => let D := dropped (pa_Q pp) l n in N2 * IZR (rescale_noise (pa_N pp) k Bs D) / IZR D;
  n_rot := fun l => N2 * IZR (nr * (k * ks_noise (pa_N pp) (beta l) Bs Be Dm (bigP pp))) / P;
  n_zero := ez + N2 * IZR (B * (1 + Z.of_nat (pa_N pp) * Bu + Z.of_nat (pa_N pp) * Bs)) |}.

(** ** statements about whole programs *)
(** the level of a ciphertext: one less than the number of limbs of its component "0" *)
Definition level_of (ct : ckct) : nat := match sget (c_ct ct) "0"%string with Some p => (plen p - 1)%nat | None => O end.
(** the same evaluator, noting for every multiplication how many moduli lower than the lower operand its result is, the last first *)
Definition logOps {St} (E : heops St ckct (poly * f64)) : heops (St * list nat) ckct (poly * f64) :=
  let quiet (m : SM St ckct) : SM (St * list nat) ckct := fun st => let* (c, st') := m (fst st) in Ok (c, (st', snd st)) in
  let noted l (m : SM St ckct) : SM (St * list nat) ckct := fun st => let* (c, st') := m (fst st) in Ok (c, (st', (l - level_of c)%nat :: snd st)) in {|
  o_mul := fun same a b => noted (Nat.min (level_of a) (level_of b)) (o_mul E same a b);
  o_mulp := fun a p => noted (level_of a) (o_mulp E a p);
  o_add := fun a b => quiet (o_add E a b);
  o_rot := fun a k => quiet (o_rot E a k);
  o_zero := quiet (o_zero E)
|}.
(** everything a program runs with: the evaluator's environment, keys, iteration orders, what the encryptions of zero use, and the
    state it starts in *)
Record lr_setting (ce : ckenv) (g : nat -> Z) (A U : nat -> zpoly) (s r : string -> zpoly) (Bs Be Dm nr : Z) (ids : list string) (keys : rlkset) (rks : rotset)
    (orders : nat -> order) (rnd : nat -> small * small * small) (pk : pubkey) {Msg} (encode : poly -> Msg -> poly) (zero_msg : Msg) (Bu B : Z) (ez : R) (st : lrst) : Prop := {
  ls_env : env_ok (ce_env ce); ls_h : (0 < Z.of_nat (pa_N (e_pp (ce_env ce))) / 2)%Z; ls_keys : lr_keys (e_pp (ce_env ce)) g A U s r Bs Be Dm nr ids keys rks;
  ls_orders : forall n, order_ok (orders n); ls_zero : zero_setting (e_pp (ce_env ce)) s ids pk encode zero_msg rnd Bu B ez;
  ls_st : lr_ok (e_pp (ce_env ce)) (ce_scale ce) ids keys st }.
(** a fresh ciphertext / plaintext: maximum level, the parameters' scale *)
Definition fresh (pp : params) (sc : f64) (s : string -> zpoly) (ids : list string) (e : R) (m : Z -> R) (ct : ckct) : Prop := encrypts pp s ids (maxLevel pp) sc m e ct.
Definition freshpt (pp : params) (sc : f64) (e : R) (m : Z -> R) (pt : poly * f64) : Prop := encodes pp sc m e pt.
(** the constants of a program, each encoding or encrypting its slots *)
Definition consts_held (pp : params) (sc : f64) (s : string -> zpoly) (ids : list string) (e : R) (K : lrconst (Z -> R) (Z -> R)) (KE : lrconst ckct (poly * f64)) : Prop :=
  const_refine (fresh pp sc s ids e) (freshpt pp sc e) K KE.
Definition batches_held (pp : params) (sc : f64) (s : string -> zpoly) (ids : list string) (e : R) (bs : list (list ((Z -> R) * (Z -> R) * list (Z -> R)))) (be : list (list (ckct * (poly * f64) * list (poly * f64)))) : Prop :=
  Forall2 (Forall2 (fun x y => fresh pp sc s ids e (fst (fst x)) (fst (fst y)) /\ freshpt pp sc e (snd (fst x)) (snd (fst y)) /\ Forall2 (freshpt pp sc e) (snd x) (snd y))) bs be.
(** the inputs of the run on slots with error bounds *)
Definition fa (top : nat) (sc : f64) (e : R) (m : Z -> R) : aval := mkA top sc m e.
Definition fp (sc : f64) (e : R) (m : Z -> R) : apt := mkAp sc m e.
Definition errConst (top : nat) (sc : f64) (e : R) (K : lrconst (Z -> R) (Z -> R)) : lrconst aval apt := mapConst (fa top sc e) (fp sc e) K.
Definition mapBatches {A B A' B'} (f : A -> A') (h : B -> B') (bs : list (list (A * B * list B))) : list (list (A' * B' * list B')) :=
  map (map (fun x => (f (fst (fst x)), h (snd (fst x)), map h (snd x)))) bs.
(** exact real slots *)
Definition realOps (pp : params) : heops unit (Z -> R) (Z -> R) := exactOps 0 Rplus Rmult (Z.of_nat (pa_N pp) / 2).
(** v, b, t encrypt, up to the errors ev, eb, et: the two parameter vectors of Nesterov's method in the feature slots of every row, and the
    prediction sigma3(x . beta) in slot 0 *)
Definition learned (pp : params) (s : string -> zpoly) (ids : list string) (rows cols nf : nat) (c0 c1 c3 : R) (x : list R) (nb : (nat -> R) * (nat -> R))
    (lv lb lt : nat) (sv sb st : f64) (ev eb et : R) (v b t : ckct) : Prop :=
  exists xv xb xt, encrypts pp s ids lv sv xv ev v /\ encrypts pp s ids lb sb xb eb b /\ encrypts pp s ids lt st xt et t /\
    (forall row j, (row < rows)%nat -> (j < nf)%nat -> let i := Z.of_nat (cols * row + j) in xv i = fst nb j /\ xb i = snd nb j) /\
    xt 0%Z = sigma3 Rplus Rmult c0 c1 c3 (dot 0 Rplus Rmult nf (entry1 0 x) (snd nb)).
