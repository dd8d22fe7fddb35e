(** Vocabulary of the theorem statements.  Nothing here refers to the model. *)
From Coq Require Import ZArith Znumtheory List String Bool.
Import ListNotations.
Local Open Scope Z_scope.

(** product of a list of moduli *)
Definition product (l : list Z) : Z := fold_right Z.mul 1 l.
(** a = b modulo q *)
Definition eqm (q a b : Z) : Prop := a mod q = b mod q.
(** pairwise distinct odd primes below 2^61 *)
Definition ntt_primes (l : list Z) : Prop :=
  NoDup l /\ Forall (fun q => prime q /\ 2 < q < 2 ^ 61) l.
(** m limbs of N uint64 words *)
Definition rns_words (N : nat) (p : list (list Z)) : Prop :=
  Forall (fun l => List.length l = N /\ Forall (fun w => 0 <= w < 2 ^ 64) l) p.
(** limb j, coefficient x of an RNS polynomial; j-th modulus *)
Definition word (p : list (list Z)) (j x : nat) : Z := nth x (nth j p []) 0.
Definition modulus (Q : list Z) (j : nat) : Z := nth j Q 0.

(** trial division, used only to exhibit concrete primes *)
Fixpoint no_divisor (fuel : nat) (p d : Z) : bool :=
  match fuel with O => true | S n => negb (p mod d =? 0) && no_divisor n p (d + 1) end.
Definition prime_b (p : Z) : bool := (1 <? p) && no_divisor (Z.to_nat (Z.sqrt p) - 1) p 2.

(** * basis extension (C06, C08, C09) *)
(** [pout] over P holds the integer of [pin] over Q, up to one multiple of the product when it is
    within 2^-42 of the ends of its range *)
Definition modup_correct (Q P : list Z) (nQ nP N : nat) (pin pout : list (list Z)) : Prop :=
  List.length pout = nP /\ (forall j, (j < nP)%nat -> List.length (nth j pout []) = N) /\
  forall x, (x < N)%nat ->
    exists X kappa, 0 <= X < product (firstn nQ Q) /\ (forall i, (i < nQ)%nat -> eqm (modulus Q i) X (word pin i x)) /\
      (kappa = -1 \/ kappa = 0 \/ kappa = 1) /\
      (product (firstn nQ Q) < 2 ^ 42 * X -> product (firstn nQ Q) < 2 ^ 42 * (product (firstn nQ Q) - X) -> kappa = 0) /\
      forall j, (j < nP)%nat -> 0 <= word pout j x < 6 * modulus P j /\
        eqm (modulus P j) (word pout j x) (X + kappa * product (firstn nQ Q)).
(** [out] is the floor of the division by the product of P, up to one when the remainder is within
    2^-42 of the ends of its range; [X] is any integer with the given residues *)
Definition moddown_correct (Q P : list Z) (nQ nP N : nat) (pQ pP out : list (list Z)) : Prop :=
  List.length out = nQ /\ (forall i, (i < nQ)%nat -> List.length (nth i out []) = N) /\
  forall x X, (x < N)%nat ->
    (forall i, (i < nQ)%nat -> eqm (modulus Q i) X (word pQ i x)) ->
    (forall j, (j < nP)%nat -> eqm (modulus P j) X (word pP j x)) ->
    let B := product (firstn nP P) in
    exists kappa, (kappa = -1 \/ kappa = 0 \/ kappa = 1) /\
      (B < 2 ^ 42 * (X mod B) -> B < 2 ^ 42 * (B - X mod B) -> kappa = 0) /\
      forall i, (i < nQ)%nat -> word out i x = (X / B - kappa) mod modulus Q i.
Definition lazy_words (Q : list Z) (n N : nat) (p : list (list Z)) : Prop :=
  (n <= List.length p)%nat /\ forall j, (j < n)%nat -> List.length (nth j p []) = N /\ forall x, (x < N)%nat -> 0 <= word p j x < 2 * modulus Q j.

(** * programs over sets of identifiers (C01) *)
(** one API call; variables are numbered *)
Inductive idop : Type :=
| INew (r : nat)                      (* r = NewIDSet() *)
| IAdd (r : nat) (v : string)         (* r.Add(v) *)
| IRemove (r : nat) (v : string)      (* r.Remove(v) *)
| IUnion (r a b : nat)                (* r = a.Union(b) *)
| IInter (r a b : nat)                (* r = a.Intersection(b) *)
| ICopy (r a : nat).                  (* r = a.CopyNew() *)
Definition setvar {A} (s : nat -> A) (r : nat) (v : A) : nat -> A := fun i => if Nat.eqb i r then v else s i.

(** the same program on mathematical sets *)
Definition setstep (s : nat -> string -> Prop) (p : idop) : nat -> string -> Prop :=
  match p with
  | INew r => setvar s r (fun _ => False)
  | IAdd r v => setvar s r (fun x => x = v \/ s r x)
  | IRemove r v => setvar s r (fun x => x <> v /\ s r x)
  | IUnion r a b => setvar s r (fun x => s a x \/ s b x)
  | IInter r a b => setvar s r (fun x => s a x /\ s b x)
  | ICopy r a => setvar s r (s a)
  end.
Definition setrun (l : list idop) : nat -> string -> Prop := fold_left setstep l (fun _ _ => False).
Definition adds_zero (p : idop) : Prop := exists r, p = IAdd r "0"%string.
(** L enumerates the set A *)
Definition enumerates (L : list string) (A : string -> Prop) : Prop := NoDup L /\ forall x, In x L <-> A x.


(** * gadget decomposition (C10) *)
(** f 0 + ... + f (n-1) *)
Fixpoint sum_upto (n : nat) (f : nat -> Z) : Z := match n with O => 0 | S n => sum_upto n f + f n end.
(** the primes q_j, j <= levelQ, of block i *)
Definition digit_block (Q : list Z) (alpha i levelQ : nat) : list Z :=
  firstn (Nat.min alpha (levelQ + 1 - i * alpha)) (skipn (i * alpha) Q).
(** the limbs outQ, outP hold one integer per coefficient, D x, which is congruent to the input
    modulo the primes of block i and lies in [0, B] up to B / 2^42, B being the product of the block *)
Definition digit_correct (Q P : list Z) (alpha i levelQ levelP N : nat) (pin outQ outP : list (list Z)) (D : nat -> Z) : Prop :=
  let B := product (digit_block Q alpha i levelQ) in
  List.length outQ = (levelQ + 1)%nat /\ List.length outP = (levelP + 1)%nat /\
  rns_words N outQ /\ rns_words N outP /\
  forall x, (x < N)%nat ->
    - B <= 2 ^ 42 * D x <= 2 ^ 42 * B + B /\
    (forall j, (i * alpha <= j < (i + 1) * alpha)%nat -> (j <= levelQ)%nat -> eqm (modulus Q j) (D x) (word pin j x)) /\
    (forall j, (j <= levelQ)%nat -> eqm (modulus Q j) (word outQ j x) (D x)) /\
    (forall j, (j <= levelP)%nat -> eqm (modulus P j) (word outP j x) (D x)).
(** g is a gadget: g_i = T modulo the primes of block i and 0 modulo the other primes *)
Definition is_gadget (Q : list Z) (alpha levelQ beta : nat) (T : Z) (g : nat -> Z) : Prop :=
  forall i j, (i < beta)%nat -> (j <= levelQ)%nat -> eqm (modulus Q j) (g i) (if Nat.eqb (j / alpha) i then T else 0).

(** an RNS polynomial with one limb of N reduced words per modulus *)
Definition residues (Q : list Z) (N : nat) (p : list (list Z)) : Prop :=
  List.length p = List.length Q /\
  forall j, (j < List.length Q)%nat -> List.length (nth j p []) = N /\ forall x, (x < N)%nat -> 0 <= word p j x < modulus Q j.
