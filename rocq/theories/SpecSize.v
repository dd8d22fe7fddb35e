(** What the sizes of the mini-batch programs should be, and how accurate math.Log must be.  Definitions only. *)
From Coq Require Import ZArith Reals.
From Coq.Floats Require Import SpecFloat.
From Verif Require Import Go F64 SpecEv SpecLREnc.
Local Open Scope R_scope.

(** [lg] computes the binary logarithm of a fraction in [1/2, 1) with an error of at most 2^-45 *)
Definition log_ok (lg : f64 -> f64) : Prop :=
  forall f, finite f -> / 2 <= fR f < 1 -> finite (lg f) /\ Rabs (fR (lg f) - ln (fR f) / ln 2) <= / 2 ^ 45.

(** [slots] slots of a ciphertext hold [perCt] records of [perData] slots each; a batch takes [cts] ciphertexts with [real] records each *)
Record sizes_ok (slots features batch perData perCt real cts : Z) : Prop := {
  so_pow : exists c, (0 <= c)%Z /\ perData = (2 ^ c)%Z;              (* a power of two *)
  so_fit : (features <= perData)%Z;                                 (* a record fits *)
  so_least : (perData < 2 * features)%Z;                            (* no smaller power of two would do *)
  so_all : (perData * perCt = slots)%Z;                             (* the records fill the ciphertext *)
  so_real : real = Z.min batch perCt;
  so_cover : (batch <= cts * perCt)%Z;                              (* the batch fits in its ciphertexts *)
  so_few : ((cts - 1) * perCt < batch)%Z }.                         (* and not in fewer *)
