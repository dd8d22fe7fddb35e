(** Vocabulary of C75: the calls on values.  Definitions only. *)
From Coq Require Import String ZArith List.
From Verif Require Import Go Lattigo Arith BasisExt NTT RingOps Params Words DownNTT ExtConc.
Import ListNotations.
Open Scope go_scope.

(** what the call returns when nobody interferes (BasisExt.v, DownNTT.v) *)
Definition callVal (b : extender) (c : xcall) : xres :=
  match c with
  | CDownQ levelQ levelP p1Q p1P => let* out := ModDownQPtoQ b levelQ levelP p1Q p1P in Ok [out]
  | CDownP levelQ levelP p1Q p1P => let* out := ModDownQPtoP b levelQ levelP p1Q p1P in Ok [out]
  | CDownNTT lzi lzn rQ rP levelQ levelP p1Q p1P p2Q => let* (y, out) := ModDownQPtoQNTT lzi lzn rQ rP b levelQ levelP p1Q p1P p2Q in Ok [p_co y; p_co out]
  end.
(** what the call stores in its scratch polynomial first, and in which of the two *)
Definition extended (b : extender) (c : xcall) : res limbs :=
  match c with
  | CDownQ levelQ levelP _ p1P => ModUpPtoQ b levelP levelQ p1P
  | CDownP levelQ levelP p1Q _ => ModUpQtoP b levelQ levelP p1Q
  | CDownNTT lzi _ _ rP levelQ levelP _ p1P _ => let* y := InvNTTLazyLvl lzi rP levelP p1P p1P in ModUpPtoQ b levelP levelQ (p_co y)
  end.
Definition inP (c : xcall) : bool := match c with CDownP _ _ _ _ => true | _ => false end.
