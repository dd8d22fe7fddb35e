(** What lattigo's samplers and encoder are assumed to return in a run of a logistic-regression program.  Definitions only. *)
From Coq Require Import Reals String ZArith List Bool.
From Verif Require Import Spec Go Arith NegRing BasisExt NTT RingOps Maps Params Elements KeySwitch KeySets KeyGen F64 EncDec Evaluator Repr ParamsSpec SpecKeys SpecCt SpecEnc SpecSlots SpecLR SpecLREnc LR LREval LRShadow LRSetup.
Import ListNotations.
Local Open Scope Z_scope.

(** the samples of a party: secrets with coefficients of absolute value at most Bs, errors at most B *)
Definition party_ok (pp : params) (Bs B : Z) (x : partyRnd) : Prop :=
  small_ok (pa_N pp) Bs (r_sk x) /\ small_ok (pa_N pp) B (r_pk x) /\ small_ok (pa_N pp) Bs (r_r x) /\
  errs_ok pp B (r_b x) /\ errs_ok pp B (r_d x) /\ errs_ok pp B (r_v x) /\ forall k, errs_ok pp B (r_rot x k).
(** the samples of an encryption: a ternary polynomial and two errors *)
Definition enc_ok (pp : params) (Bs B : Z) (x : small * small * small) : Prop :=
  small_ok (pa_N pp) Bs (fst (fst x)) /\ small_ok (pa_N pp) B (snd (fst x)) /\ small_ok (pa_N pp) B (snd x).
(** everything a run reads from the samplers and the iteration orders it sees; only the moduli and the degree of pp matter *)
Record samples_ok (pp : params) (Bs B : Z) (u : runRnd) : Prop := {
  so_crs0 : forall ix i, uniform_sample pp (u_crs0 u ix i);
  so_crs : forall k ix i, uniform_sample pp (u_crs u k ix i);
  so_party : forall id, party_ok pp Bs B (u_party u id);
  so_enc : forall n, enc_ok pp Bs B (u_enc u n);
  so_zero : forall n, enc_ok pp Bs B (u_zero u n);
  so_gen : order_ok (u_gen u); so_ev : order_ok (u_ev u); so_dec : forall n, order_ok (u_dec u n);
  so_eo : forall n, order_ok (u_eo u n); so_oo : forall n, order_ok (u_oo u n) }.
(** the encoder turns N/2 real numbers m into a plaintext of the maximum level, in coefficient form, whose slots are sc * m up to ee *)
Definition encoder_ok (pp : params) (sc : f64) (encode : poly -> list R -> poly) (ee : R) : Prop :=
  forall m, (List.length m = pa_N pp / 2)%nat -> (forall p, p_ntt (encode p m) = false) /\ exists M : zpoly,
    (forall p, plen p = QCount pp -> plaintext_is pp (maxLevel pp) (encode p m) M) /\
    forall i, 0 <= i < Z.of_nat (pa_N pp) / 2 -> (cnorm (csub (slot (pa_N pp) M i) (creal (fR sc * nth (Z.to_nat i) m 0))) <= ee)%R.
(** the parties *)
Definition companyNames (n : nat) : list string := map companyName (seq 0 n).
(** the parameters without common reference strings *)
Definition bare (logN : nat) (Q P psiQ psiP : list Z) : params := mkParams logN Q P psiQ psiP 2 [].
(** same degree, moduli, roots, gamma *)
Definition same_rings (pp pp' : params) : Prop :=
  (pa_logN pp', pa_Q pp', pa_P pp', pa_psiQ pp', pa_psiP pp', pa_gamma pp') = (pa_logN pp, pa_Q pp, pa_P pp, pa_psiQ pp, pa_psiP pp, pa_gamma pp).

(** msg is what the decoder returns for a plaintext of level l and scale sc; if 4 (|sc * m| + e) is below the modulus of level l in all slots, the
    centred value of that plaintext has sc * m in its slots, up to e *)
Definition shows (pp : params) {Msg} (decode : poly -> f64 -> Msg) (l : nat) (sc : f64) (m : Z -> R) (e : R) (msg : Msg) : Prop :=
  exists pt, msg = decode pt sc /\ plen pt = (l + 1)%nat /\
    ((forall i, 0 <= i < Z.of_nat (pa_N pp) / 2 -> (4 * (Rabs (fR sc * m i) + e) < IZR (Ql pp l))%R) ->
     exists V, centred_value pp l false pt V /\ forall i, 0 <= i < Z.of_nat (pa_N pp) / 2 -> (cnorm (csub (slot (pa_N pp) V i) (creal (fR sc * m i))) <= e)%R).
(** the first nf slots of each of the rows, which are cols slots long, are w *)
Definition rows_hold (rows cols nf : nat) (m : Z -> R) (w : nat -> R) : Prop :=
  forall row j, (row < rows)%nat -> (j < nf)%nat -> m (Z.of_nat (cols * row + j)) = w j.
(** the same for a ciphertext of known level, scale, slots and error, from a plaintext of some level between L and that of the ciphertext *)
Definition shown (pp : params) {Msg} (decode : poly -> f64 -> Msg) (L : nat) (a : aval) (msg : Msg) : Prop :=
  exists l, (L <= l <= a_l a)%nat /\ shows pp decode l (a_s a) (a_m a) (a_e a) msg.
(** what a run that trains for numIter iterations and predicts the points xs leaves behind.
    [trainA k]: k iterations on slots with error bounds; [nb k]: Nesterov's method after k iterations; preA: the inputs it decrypts first; pr: whether it
    decrypts v and beta after each iteration; lv, lb, lt and sv, sb, st: levels and scales of v, beta and the predictions *)
Record run_result (pp : params) {Msg} (decode : poly -> f64 -> Msg) (s : string -> zpoly) (ids : list string) (n rows cols nf numIter : nat) (c0 c1 c3 : R)
    (nb : nat -> (nat -> R) * (nat -> R)) (EA : heops (list nat) aval apt) (KA : lrconst aval apt) (test : (Z -> R) -> aval) (trainA : nat -> res (aval * aval * list nat))
    (preA : list aval) (pr : bool) (lv : nat) (sv : f64) (lb : nat) (sb : f64) (lt : nat) (st : f64) (log1 log2 : list nat) (xs : list (list R)) (rs : @mainResult Msg) : Prop := {
  rr_rings : same_rings pp (tc_pp (mr_tc rs));
  (* the slots of v and beta after k iterations are those of Nesterov's method *)
  rr_weights : forall k vk lk, (k <= numIter)%nat -> trainA k = Ok (vk, lk) -> rows_hold rows cols nf (a_m (fst vk)) (fst (nb k)) /\ rows_hold rows cols nf (a_m (snd vk)) (snd (nb k));
  rr_pre : Forall2 (shown pp decode (maxLevel pp)) preA (mr_pre rs);
  (* the printed beta and v are those of the iteration *)
  rr_len : length (mr_iter rs) = if pr then numIter else 0%nat;
  rr_iter : forall k mb mv, nth_error (mr_iter rs) k = Some (mb, mv) -> exists av ab lk, trainA (S k) = Ok ((av, ab), lk) /\ shown pp decode lt ab mb /\ shown pp decode lt av mv;
  (* the last v and beta, and the predictions *)
  rr_final : exists av ab, trainA numIter = Ok ((av, ab), log1) /\
    encrypts pp s ids lv sv (a_m av) (a_e av) (fst (mr_vb rs)) /\ encrypts pp s ids lb sb (a_m ab) (a_e ab) (snd (mr_vb rs)) /\
    Forall2 (fun x m => exists tv at', testVector 0%R n nf x = Ok tv /\ infer EA KA (Z.of_nat nf) (test (ofList 0%R tv)) ab [] = Ok (at', log2) /\
      a_m at' 0 = sigma3 Rplus Rmult c0 c1 c3 (dot 0%R Rplus Rmult nf (entry1 0%R x) (snd (nb numIter))) /\ shows pp decode lt st (a_m at') (a_e at') m) xs (mr_pred rs) }.
(** in the first numIter iterations the levels of v and beta do not fall below lt *)
Definition stays (f : nat -> res ((nat * f64) * (nat * f64) * list nat)) (numIter lt : nat) : Prop :=
  forall k lv sv lb sb log, (k < numIter)%nat -> f (S k) = Ok (((lv, sv), (lb, sb)), log) -> (lt <= lv)%nat /\ (lt <= lb)%nat.
(** the error of a fresh encryption, on slots: the encoder's and the noise *)
Definition ierr (pp : params) (Bs B : Z) (ee : R) : R := (ee + 2 * INR (pa_N pp) * IZR (B * (1 + Z.of_nat (pa_N pp) * Bs + Z.of_nat (pa_N pp) * Bs)))%R.
(** the assumptions on a run: well-formed parameters, sample bounds below half of every prime, a bound Dm on the gadget digits, samples and encoder *)
Record run_ok (pp : params) (sc : f64) (Bs B Dm : Z) (u : runRnd) (encode : poly -> list R -> poly) (ee : R) : Prop := {
  ra_pp : params_ok pp; ra_Bs : bound_ok pp Bs; ra_B : bound_ok pp B; ra_Dm0 : 0 <= Dm; ra_Dm : digit_bound pp Dm;
  ra_samples : samples_ok pp Bs B u; ra_enc : encoder_ok pp sc encode ee }.
(** the parties' secrets *)
Definition secretOf (u : runRnd) (id : string) : zpoly := smallpoly (r_sk (u_party u id)).
(** operations on slots with error bounds: the noise of these parameters, numCompany parties *)
Definition errOf (pp : params) (sc : f64) (Bs B Dm : Z) (ee : R) (numCompany : nat) : heops (list nat) aval apt :=
  errOps (pa_N pp / 2) (lr_noise pp (Z.of_nat numCompany) Bs B Dm (Z.of_nat (pa_logN pp) - 1) Bs B ee) (pa_Q pp) (maxLevel pp) sc.

(** ** the claims about the main functions.  [lv], [lb], [lt]: levels of v, beta and the predictions; [sv], [sb], [st]: their scales; [log1], [log2]: how many
    primes each rescaling removes *)
(** lr.go, lr_toy.go: for all samples, orders, companies, data and constants, the run does not panic, and its results are those of Nesterov's method *)
Definition lr_correct (pp : params) (sc : f64) (rots : list Z) (toy : bool) (rr c nf numIter : nat) (lv : nat) (sv : f64) (lb : nat) (sb : f64) (lt : nat) (st : f64) (log1 log2 : list nat) : Prop :=
  forall (lz : lazyf) (u : runRnd) (Bs B Dm : Z) (numCompany : nat) encode (ee : R) (Msg : Type) (decode : poly -> f64 -> Msg), run_ok pp sc Bs B Dm u encode ee -> (0 < numCompany)%nat ->
  forall (gamma c0 c1 c3 : R) (etas : list R) (feature : list (list R)) (label : list R) (xs : list (list R)),
  c3 <> 0%R -> table feature (2 ^ rr) nf -> (2 ^ rr <= length label)%nat -> length etas = numIter -> (forall x, In x xs -> nf <= length x)%nat ->
  let n := (2 ^ rr * 2 ^ c)%nat in let gn := (gamma / INR (2 ^ rr))%R in let e := ierr pp Bs B ee in let top := maxLevel pp in
  let EA := errOf pp sc Bs B Dm ee numCompany in let zeroA := fa top sc e (fun _ => 0%R) in
  let nb k := nesterovAll 0%R 1%R Rplus Rmult Rminus c0 c1 c3 gn nf (entry 0%R feature) (entry1 0%R label) (fun _ => seq 0 (2 ^ rr)) (firstn k etas) in
  exists zv yv rs, zVector 0%R n (2 ^ rr) (2 ^ c) nf feature = Ok zv /\ labelVector 0%R n (2 ^ rr) (2 ^ c) label = Ok yv /\
    let KA := errConst top sc e (vconst 0%R 1%R Rmult Rminus Ropp gn c0 c3 (c1 / c3)%R etas (maskVector 0%R 1%R n (2 ^ c)) (ofList 0%R yv)) in
    let zA := fa top sc e (ofList 0%R zv) in
    let trainA k := train EA KA (2 ^ Z.of_nat rr) (2 ^ Z.of_nat c) k zA (zeroA, zeroA) [] in
    lrProgram 0%R 1%R Rmult Rminus Ropp encode decode lz toy u (pa_logN pp) (pa_Q pp) (pa_P pp) (pa_psiQ pp) (pa_psiP pp) sc rots numCompany n (2 ^ rr) (2 ^ c) nf numIter gn c0 c3 (c1 / c3)%R etas feature label xs = Ok rs /\
    run_result pp decode (secretOf u) (companyNames numCompany) n (2 ^ rr) (2 ^ c) nf numIter c0 c1 c3 nb EA KA (fa top sc e) trainA (if toy then [zA] else []) (negb toy) lv sv lb sb lt st log1 log2 xs rs.
(** lr_minibatch.go, lr_minibatch_toy.go: 2^sl slots, c = the number of column bits, ne learning-rate weights *)
Definition lr_batch_correct (pp : params) (sc : f64) (rots : list Z) (sl c nf batchSize numTrain ne numIter : nat) (lv : nat) (sv : f64) (lb : nat) (sb : f64) (lt : nat) (st : f64) (log1 log2 : list nat) : Prop :=
  forall (lz : lazyf) (u : runRnd) (Bs B Dm : Z) (numCompany : nat) encode (ee : R) (Msg : Type) (decode : poly -> f64 -> Msg), run_ok pp sc Bs B Dm u encode ee -> (0 < numCompany)%nat ->
  forall (gn c0 c1 c3 : R) (etas : list R) (feature : list (list R)) (label : list R) (xs : list (list R)),
  c3 <> 0%R -> table feature numTrain nf -> (numTrain <= length label)%nat -> length etas = ne -> (forall x, In x xs -> nf <= length x)%nat ->
  let n := (2 ^ sl)%nat in let e := ierr pp Bs B ee in let top := maxLevel pp in
  let EA := errOf pp sc Bs B Dm ee numCompany in let zeroA := fa top sc e (fun _ => 0%R) in
  let nb k := nesterovAll 0%R 1%R Rplus Rmult Rminus c0 c1 c3 gn nf (entry 0%R feature) (entry1 0%R label) (fun a => seq (a mod (numTrain / batchSize) * batchSize) batchSize) (firstn k etas) in
  exists bs rs, packBatches 0%R 1%R Rmult Rminus Ropp n nf numTrain batchSize gn c0 c3 (c1 / c3)%R etas feature label = Ok bs /\
    let KA := errConst top sc e (vconst 0%R 1%R Rmult Rminus Ropp gn c0 c3 (c1 / c3)%R etas (maskVector 0%R 1%R n (2 ^ c)) (fun _ => 0%R)) in
    let trainA k := trainBatch EA KA (2 ^ Z.of_nat (sl - c)) (2 ^ Z.of_nat c) (mapBatches (fa top sc e) (fp sc e) bs) k (zeroA, zeroA) [] in
    lrBatchProgram 0%R 1%R Rmult Rminus Ropp encode decode lz u (pa_logN pp) (pa_Q pp) (pa_P pp) (pa_psiQ pp) (pa_psiP pp) sc rots numCompany n nf (2 ^ c) numTrain batchSize numIter gn c0 c3 (c1 / c3)%R etas feature label xs = Ok rs /\
    run_result pp decode (secretOf u) (companyNames numCompany) n (2 ^ (sl - c)) (2 ^ c) nf numIter c0 c1 c3 nb EA KA (fa top sc e) trainA [] true lv sv lb sb lt st log1 log2 xs rs.
