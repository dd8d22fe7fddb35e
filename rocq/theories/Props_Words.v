(** C72: goroutines that multiply with one RelinearizationKeySet, one word of a pool at a time. *)
From Coq Require Import String ZArith List Bool Arith.
From Verif Require Import Spec Go Arith NegRing NTT RingOps Maps Params Elements KeySwitch KeySets F64 EncDec Evaluator Repr SpecCt SpecEnc SpecEv Shipped Conc SpecConc Words SpecWords WordsProofs WordsThms RaceWorld WordsWorld.
Import ListNotations.
Local Open Scope Z_scope.
Local Open Scope list_scope.

(** C72: programs over shared words, of which i stores only to the words of F i and loads only those and the words of R, the F i pairwise
    disjoint and none stores to R.  In every schedule a program is where it would be after as many steps alone, its words hold what they
    would hold then, and words of no F i are unchanged. *)
Theorem C72_isolated : forall (X : Type) (F : nat -> cell -> Prop) (R : cell -> Prop) (progs : nat -> wprog X) m0,
  (forall i, confined (F i) R (progs i)) -> (forall i j c, i <> j -> F i c -> ~ F j c) -> (forall i c, R c -> ~ F i c) ->
  forall sched i, let w := wrun sched (mkWW m0 progs) in let s := alone (count_occ Nat.eq_dec sched i) (m0, progs i) in
  ww_t w i = snd s /\ (forall c, F i c -> ww_mem w c = fst s c) /\ forall c, (forall j, ~ F j c) -> ww_mem w c = m0 c.
Proof. intros X F R progs m0 HC HD HR sched i. exact (isolated F R progs m0 HC HD HR sched i). Qed.
Print Assumptions C72_isolated.

(** C72: and no two of them ever race. *)
Theorem C72_no_race : forall (X : Type) (F : nat -> cell -> Prop) (R : cell -> Prop) (progs : nat -> wprog X) m0,
  (forall i, confined (F i) R (progs i)) -> (forall i j c, i <> j -> F i c -> ~ F j c) -> (forall i c, R c -> ~ F i c) ->
  forall sched i j, i <> j -> let w := wrun sched (mkWW m0 progs) in ~ racing (ww_t w i) (ww_t w j).
Proof. intros X F R progs m0 HC HD HR sched i j. exact (no_race F R progs m0 HC HD HR sched i j). Qed.
Print Assumptions C72_no_race.

(** C72: T goroutines call MulRelinNew, each on its own Evaluator, all with one RelinearizationKeySet, and no two calls use one entry of one
    pool (pool 0 for the first operand and for squares, pool 1 for the second).  In every interleaving of their loads and stores of pool
    words, whatever the pools held: no goroutine panics, what a goroutine returns is the product of its operands, and a goroutine
    that has made enough steps has returned. *)
Theorem C72_mul : forall ce g A U s r Bs Be Dm rs T l0 l1 n calls evs m0, env_ok (ce_env ce) ->
  (forall i, (i < T)%nat -> call_ok ce g A U s r Bs Be Dm rs (l0 i) (l1 i) (n i) (calls i)) ->
  (forall i, (i < T)%nat -> ev_ok (e_pp (ce_env ce)) (evs i)) -> mem_ok m0 ->
  (forall i j, (i < T)%nat -> (j < T)%nat -> i <> j -> ~ shares (calls i) (calls j)) ->
  forall i, (i < T)%nat -> exists k, forall sched, let p := ww_t (wrun sched (mkWW m0 (goroutines ce T calls rs evs))) i in
    (forall e, p <> WDone (Panic e)) /\
    (forall out st, p = WDone (Ok (out, st)) -> product_of ce s Bs Be Dm (l0 i) (l1 i) (n i) (calls i) out) /\
    ((k <= count_occ Nat.eq_dec sched i)%nat -> exists out st, p = WDone (Ok (out, st))).
Proof. intros ce g A U s r Bs Be Dm rs T l0 l1 n calls evs m0 He HC Hev Hm. exact (words_correct ce He g A U s r Bs Be Dm rs T l0 l1 n calls HC evs Hev m0 Hm). Qed.
Print Assumptions C72_mul.

(** C72: two of the goroutines can race on a word if and only if their calls use one entry of one pool. *)
Theorem C72_race_iff : forall ce g A U s r Bs Be Dm rs T l0 l1 n calls evs m0, env_ok (ce_env ce) ->
  (forall i, (i < T)%nat -> call_ok ce g A U s r Bs Be Dm rs (l0 i) (l1 i) (n i) (calls i)) ->
  (forall i, (i < T)%nat -> ev_ok (e_pp (ce_env ce)) (evs i)) -> mem_ok m0 ->
  forall i j, (i < T)%nat -> (j < T)%nat -> i <> j ->
  (exists sched, let w := wrun sched (mkWW m0 (goroutines ce T calls rs evs)) in racing (ww_t w i) (ww_t w j)) <-> shares (calls i) (calls j).
Proof. intros ce g A U s r Bs Be Dm rs T l0 l1 n calls evs m0 He HC Hev Hm i j. exact (race_iff ce He g A U s r Bs Be Dm rs T l0 l1 n calls HC evs Hev m0 Hm i j). Qed.
Print Assumptions C72_race_iff.

(** concrete cases, with the shipped parameters: "a" times "b" beside the square of "b" does not share an entry, two products of
    ciphertexts of "a" do *)
Example C72_case_disjoint : exists ce st rs g A U s r Dm, let pp := e_pp (ce_env ce) in
  env_ok (ce_env ce) /\ pa_Q pp = shippedQ /\ pa_P pp = shippedP /\ pa_logN pp = 15%nat /\ ev_ok pp st /\
  (forall i, call_ok ce g A U s r 1 1 Dm rs 20 20 1 (wcalls pp i)) /\ ~ shares (wcalls pp 0) (wcalls pp 1).
Proof. exact wcalls_world. Qed.
Example C72_case_shared : forall N, shares (rcalls N 0) (rcalls N 1).
Proof. exact rcalls_share. Qed.
(** two tiny programs: one stores 5 to a word and loads it, the other stores 7 to another one *)
Example C72_case_tiny :
  let c0 := (false, "a"%string, 0%nat, false, 0%nat, 0%nat) in let c1 := (true, "a"%string, 0%nat, false, 0%nat, 0%nat) in
  let progs := fun i : nat => match i with O => WStore c0 5 (WLoad c0 (fun v => WDone v)) | 1%nat => WStore c1 7 (WDone 0) | _ => WDone 0 end in
  let w := wrun [0; 1; 0]%nat (mkWW (fun _ => 0) progs) in
  ww_t w 0%nat = WDone 5 /\ ww_mem w c0 = 5 /\ ww_mem w c1 = 7 /\ ~ racing (progs 0%nat) (progs 1%nat).
Proof. cbv zeta. split; [reflexivity|]. split; [reflexivity|]. split; [reflexivity|]. intros (c & a & b & E1 & E2 & _). cbn in E1, E2. congruence. Qed.
