(** The logistic-regression programs on the modelled evaluator: the calls of LR.v are those of mkckks/evaluator.go and
    mkckks/encryptor.go. *)
From Coq Require Import ZArith Bool List String.
From Verif Require Import Go Arith RingOps Maps Params Elements KeySwitch KeySets KeyGen F64 EncDec Evaluator LR.
Import ListNotations.
Local Open Scope Z_scope.

(** What a program mutates: the evaluator, the relinearization key set (its hoisting pools), the encryptor; and a count of the calls. *)
Record lrst := mkLr { lr_ev : evst; lr_rs : rlkpool; lr_en : encst; lr_n : nat }.
Section Eval.
(** [orders n]: the map iteration orders of the n-th call; [rnd n]: the polynomials u, e0, e1 it samples if it encrypts *)
Context (ce : ckenv) (orders : nat -> order) (rnd : nat -> small * small * small) (rks : rotset) (pk : pubkey).
(** message type, encoder and the message of zeros of lr/lr_minibatch.go:259-267 *)
Context {Msg : Type} (encode : poly -> Msg -> poly) (zero_msg : Msg).
(** lr/lr.go:57-73 (evaluator, rlkSet, rtkSet, encryptor); a plaintext is its polynomial and its scale *)
Definition evalOps : heops lrst ckct (poly * f64) := {|
  o_mul := fun same a b st =>
    let* (c, rs, ev) := MulRelinNew ce (orders (lr_n st)) same a b (lr_rs st) (lr_ev st) in Ok (c, mkLr ev rs (lr_en st) (S (lr_n st)));
  o_mulp := fun a p st =>
    let* (c, ev) := MulPtxtNew ce (orders (lr_n st)) a (fst p) (snd p) (lr_ev st) in Ok (c, mkLr ev (lr_rs st) (lr_en st) (S (lr_n st)));
  o_add := fun a b st =>
    let* (c, ev) := AddNew ce (orders (lr_n st)) a b (lr_ev st) in Ok (c, mkLr ev (lr_rs st) (lr_en st) (S (lr_n st)));
  o_rot := fun a k st =>
    let* (c, ev) := RotateNew ce (orders (lr_n st)) a k rks (lr_ev st) in Ok (c, mkLr ev (lr_rs st) (lr_en st) (S (lr_n st)));
  o_zero := fun st =>
    let '(u, e0, e1) := rnd (lr_n st) in
    let* (c, en) := EncryptMsgNew (mkCkp (e_pp (ce_env ce)) (ce_scale ce)) encode (orders (lr_n st)) zero_msg pk u e0 e1 (lr_en st) in
    Ok (c, mkLr (lr_ev st) (lr_rs st) en (S (lr_n st)))
|}.
End Eval.
