(** The levels and scales of the four logistic-regression programs on the shipped parameters. *)
From Coq Require Import ZArith List Lia.
From Coq.Floats Require Import SpecFloat.
From Verif Require Import Go F64 Spec LR SpecEv LRShadow Shipped EvWorld SpecLREnc.
Import ListNotations.
Local Open Scope Z_scope.

Lemma map_const {A B} (b : B) (l : list A) : map (fun _ => b) l = repeat b (length l).
Proof. induction l; cbn; congruence. Qed.
(** every list of constants has n elements *)
Definition lists_len {ct pt} (K : lrconst ct pt) (n : nat) : Prop := length (k_2 K) = n /\ length (k_4 K) = n /\ length (k_6 K) = n /\ length (k_7 K) = n.
Definition KC (top : nat) (sc : f64) (n : nat) : lrconst (nat * f64) f64 := mkConst _ _ sc sc (repeat sc n) sc (repeat sc n) (top, sc) (repeat sc n) (repeat sc n) sc (top, sc).
Lemma scaleConst_len {ct pt} (K : lrconst ct pt) top sc n : lists_len K n -> scaleConst top sc K = KC top sc n.
Proof. intros (H1 & H2 & H3 & H4). unfold scaleConst, mapConst, KC. now rewrite !map_const, H1, H2, H3, H4. Qed.
Notation SO := (scaleOps shippedQ 20 sc38).
Notation t := (20%nat, sc38).
(** 2048 rows of 8, 4 iterations, 7 features (lr.go); 512 rows of 32, 2 iterations, 20 features (lr_toy.go) *)
Definition beta38 : f64 := S754_finite false 9006954448226125 (-15).
Lemma run_lr : lrRun SO (KC 20 sc38 4) 2048 8 4 7 t (t, t) t [] = Ok ((4%nat, S754_finite false 9007149865596385 (-15)), (4%nat, beta38), (1%nat, sc38), repeat 1%nat 56).
Proof. vm_compute. reflexivity. Qed.
Lemma run_toy : lrRun SO (KC 20 sc38 2) 512 32 2 20 t (t, t) t [] = Ok ((12%nat, S754_finite false 9007014574901172 (-15)), (12%nat, beta38), (9%nat, sc38), repeat 1%nat 30).
Proof. vm_compute. reflexivity. Qed.
(** the mini-batch programs: 4 batches of one ciphertext each *)
Lemma run_mini : lrRunBatch SO (KC 20 sc38 4) 2048 8 (repeat [(t, sc38, repeat sc38 4)] 4) 4 7 (t, t) t [] = Ok ((4%nat, S754_finite false 4503667274105103 (-14)), (4%nat, sc38), (1%nat, sc38), repeat 1%nat 56).
Proof. vm_compute. reflexivity. Qed.
Lemma run_mini_toy : lrRunBatch SO (KC 20 sc38 4) 512 32 (repeat [(t, sc38, repeat sc38 4)] 4) 3 20 (t, t) t [] = Ok ((8%nat, sc38), (8%nat, sc38), (5%nat, S754_finite false 4503707005784917 (-14)), repeat 1%nat 43).
Proof. vm_compute. reflexivity. Qed.
