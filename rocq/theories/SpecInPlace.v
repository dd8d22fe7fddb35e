(** Vocabulary of C73.  Definitions only. *)
From Coq Require Import String ZArith List.
From Verif Require Import Go NTT RingOps Maps Params Elements KeySwitch F64 EncDec SpecCt SpecEv.
Import ListNotations.
Local Open Scope Z_scope.

(** the components of ct whose ids are in K *)
Definition only (K : list string) (ct : ciphertext) : ciphertext := filter (fun kp => if in_dec string_dec (fst kp) K then true else false) ct.
(** the scale of a sum of ciphertexts with scales s0 and s1 in a receiver with scale so that is the first operand (in0), else the second one (in1), or neither *)
Definition sum_scale (in0 in1 : bool) (s0 s1 so : f64) : f64 :=
  if in0 then if 1 <? align_factor s0 s1 then s1 else s0 else if in1 then if 1 <? align_factor s1 s0 then s0 else s1 else so.
