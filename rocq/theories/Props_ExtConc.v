(** C75: basis extenders, their shallow copies, and goroutines that use them. *)
From Coq Require Import String ZArith List Arith.
From Verif Require Import Go Lattigo Arith BasisExt NTT RingOps Params Words SpecWords DownNTT ExtConc SpecExt ExtConcProofs ExtConcWorld.
Import ListNotations.
Local Open Scope nat_scope.

(** C75: in every program over extenders no two of them have a scratch polynomial in common; ShallowCopy of nil is nil, otherwise an extender with the receiver's
    tables and scratch polynomials that no extender has, and it leaves the other extenders as they are *)
Theorem C75_objects : forall I vs n, runX I = Ok (vs, n) ->
  (forall i j x y, nth_error vs i = Some (Some x) -> nth_error vs j = Some (Some y) -> i <> j -> xo_pool x <> xo_pool y) /\
  (forall k v, nth_error vs k = Some v -> exists vs' n', stepX (vs, n) (XCopy k) = Ok (vs', n') /\ firstn (List.length vs) vs' = vs /\ List.length vs' = S (List.length vs) /\
     (v = None -> nth_error vs' (List.length vs) = Some None) /\
     (forall x, v = Some x -> exists y, nth_error vs' (List.length vs) = Some (Some y) /\ xo_tab y = xo_tab x /\ forall j z, nth_error vs j = Some (Some z) -> xo_pool y <> xo_pool z)).
Proof. exact objects_thm. Qed.
Print Assumptions C75_objects.

(** C75: T goroutines call ModDownQPtoQ, ModDownQPtoP or ModDownQPtoQNTT, no two of them on one scratch polynomial: the extenders differ (one
    may be a shallow copy of another), or one call is ModDownQPtoP and the other is not.  In every
    interleaving of their loads and stores of scratch words, whatever these held: no race, what a call returns is the value of BasisExt.v or DownNTT.v
    (panics included), and a goroutine that has made enough steps has returned. *)
Theorem C75_separate : forall T x c m0, (forall i j, i < T -> j < T -> i <> j -> xo_pool (x i) <> xo_pool (x j) \/ inP (c i) <> inP (c j)) -> forall i, i < T ->
  (exists k, forall sched, let p := ww_t (wrun sched (mkWW m0 (xgoroutines T x c))) i in
     (forall r, p = WDone r -> r = callVal (xo_tab (x i)) (c i)) /\ (k <= count_occ Nat.eq_dec sched i -> p = WDone (callVal (xo_tab (x i)) (c i)))) /\
  forall sched j, i <> j -> let w := wrun sched (mkWW m0 (xgoroutines T x c)) in ~ racing (ww_t w i) (ww_t w j).
Proof. exact separate_thm. Qed.
Print Assumptions C75_separate.

(** C75: two goroutines whose calls get as far as the scratch polynomial can race if and only if they use one scratch polynomial of one extender *)
Theorem C75_race_iff : forall T x c m0 i j, i < T -> j < T -> i <> j -> (forall k, k < T -> exists v r up, extended (xo_tab (x k)) (c k) = Ok ((v :: r) :: up)) ->
  (exists sched, let w := wrun sched (mkWW m0 (xgoroutines T x c)) in racing (ww_t w i) (ww_t w j)) <-> xo_pool (x i) = xo_pool (x j) /\ inP (c i) = inP (c j).
Proof. exact race_iff_thm. Qed.
Print Assumptions C75_race_iff.

(** C75: and there are an extender, calls and a schedule with which ModDownQPtoQ returns without an error something else than its value *)
Theorem C75_shared_wrong : exists b c sched r, let x := fun _ : nat => mkXo b 0 in
  ww_t (wrun sched (mkWW (fun _ => 0%Z) (xgoroutines 2 x c))) 0%nat = WDone (Ok [r]) /\
  exists r', ModDownQPtoQ b 0 0 [repeat 40%Z 8] [repeat 3%Z 8] = Ok r' /\ c 0%nat = CDownQ 0 0 [repeat 40%Z 8] [repeat 3%Z 8] /\ r' <> r.
Proof. exact wrong_thm. Qed.
Print Assumptions C75_shared_wrong.

(** * concrete cases *)
Example C75_case : exists n, runX [XNew [97%Z] [17%Z]; XCopy 0; XNil; XCopy 2; XCopy 1] = Ok ([Some (mkXo tinyExt 0); Some (mkXo tinyExt 1); None; None; Some (mkXo tinyExt 2)], n).
Proof. exact runs_copy. Qed.
Example C75_case_separate : exists r, ww_t (tinyWorld (mkXo tinyExt) tinySched) 0%nat = WDone (Ok r) /\ callVal tinyExt (tinyCall 0) = Ok r.
Proof. exact tiny_right. Qed.
Example C75_case_shared : forall i, exists v r up, extended tinyExt (tinyCall i) = Ok ((v :: r) :: up).
Proof. exact tiny_extended. Qed.
