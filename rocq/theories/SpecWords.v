(** Vocabulary of C72: what programs over shared words may touch, and data races.  Definitions only. *)
From Coq Require Import String ZArith List Bool Arith.
From Verif Require Import Go Arith Maps Params Elements KeySwitch KeySets F64 EncDec Evaluator SpecCt SpecEnc Conc Words.
Import ListNotations.

(** the program loads only cells of F or R and stores only to cells of F, whatever values it loads *)
Inductive confined {A} (F R : cell -> Prop) : wprog A -> Prop :=
| cf_done a : confined F R (WDone a)
| cf_load c k : F c \/ R c -> (forall v, confined F R (k v)) -> confined F R (WLoad c k)
| cf_store c v k : F c -> confined F R k -> confined F R (WStore c v k).
(** the next access of a program: the cell, and whether it is a store *)
Definition next {A} (p : wprog A) : option (cell * bool) :=
  match p with WDone _ => None | WLoad c _ => Some (c, false) | WStore c _ _ => Some (c, true) end.
(** a data race: two programs are both about to access one cell, and one of them to store *)
Definition racing {A} (p q : wprog A) : Prop := exists c a b, next p = Some (c, a) /\ next q = Some (c, b) /\ (a = true \/ b = true).
(** two calls use the same entry of the same pool *)
Definition shares (c d : ccall) : Prop := exists id,
  (party (c_ct (cc_op0 c)) id /\ party (c_ct (cc_op0 d)) id) \/
  (cc_same c = false /\ cc_same d = false /\ party (c_ct (cc_op1 c)) id /\ party (c_ct (cc_op1 d)) id).
(** a memory of uint64 words *)
Definition mem_ok (m : memory) : Prop := forall c, (0 <= m c < W)%Z.
