(** Which call of NewParameters a variable comes from, and what that family of copies holds.  Traces are read backwards: the latest operation comes first. *)
From Coq Require Import ZArith List String Bool.
From Verif Require Import Go Lattigo RingOps Maps Params ParamVars.
Import ListNotations.
Local Open Scope Z_scope.

(** the number of operations before the NewParameters from which the value of x was copied; None for a zero value *)
Fixpoint origin (t : list pop) (x : string) : option nat :=
  match t with
  | [] => None
  | PNew y _ _ _ _ _ _ _ :: t => if String.eqb x y then Some (List.length t) else origin t x
  | PAssign y z :: t => if String.eqb x y then origin t z else origin t x
  | PZero y :: t => if String.eqb x y then None else origin t x
  | PAdd _ _ _ :: t => origin t x
  end.
(** the parameters of family n: those NewParameters made, changed by every AddCRS on any member, in order (NewParameters and AddCRS of Params.v, on values) *)
Fixpoint family (t : list pop) (n : nat) : res params :=
  match t with
  | [] => Panic PNil
  | op :: t =>
      if Nat.eqb (List.length t) n then
        match op with PNew _ logN Q P psiQ psiP gamma smp => NewParameters logN Q P psiQ psiP gamma smp | _ => Panic PNil end
      else
        match op with
        | PAdd y ix smp => match origin t y with Some k => if Nat.eqb k n then bind (family t n) (fun pp => AddCRS pp ix smp) else family t n | None => family t n end
        | _ => family t n
        end
  end.
(** the variables and objects that hold parameters: main's variable and the first context; the second context *)
Local Open Scope string_scope.
Definition first_ctx : list string := ["params"; "testContext.params"; "kgen"; "rlkSet"; "encryptor"; "decryptor"; "evaluator"].
Definition second_ctx : list string := ["testContext2.params"; "kgen2"; "rlkSet2"; "encryptor2"; "decryptor2"; "evaluator2"].
