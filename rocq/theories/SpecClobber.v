(** What is left of an operand whose last limb is overwritten. *)
From Coq Require Import ZArith List String.
From Verif Require Import Lattigo NegRing RingOps Maps Elements SpecCt.
Import ListNotations.
Local Open Scope Z_scope.
(** [b] is [a] with the limb l of every component replaced by [cl q_l limb]; Q are the moduli *)
Definition overwritten (Q : list Z) (cl : Z -> list Z -> list Z) (l : nat) (a b : ciphertext) : Prop :=
  mkeys b = mkeys a /\ forall id p, sget a id = Some p ->
    sget b id = Some (mkPoly (p_ntt p) (firstn l (p_co p) ++ cl (nth l Q 0) (nth l (p_co p) []) :: skipn (l + 1) (p_co p))).
(** the phase of a ciphertext with the components of [ct] whose words are all 1 *)
Definition ones_phase (N : nat) (s : string -> zpoly) (ct : ciphertext) : zpoly := psumL (fun id => pmul N (secret s id) (fun _ => 1)) (mkeys ct).
