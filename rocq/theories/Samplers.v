(** The samplers of mkrlwe/keygen.go and mkrlwe/encryptor.go: how the random bytes become a ternary polynomial, and where the Gaussian errors are cut. *)
From Coq Require Import String ZArith List Bool.
From Verif Require Import Go F64 NTT RingOps Params Elements KeySwitch KeySets KeyGen.
Import ListNotations.
Local Open Scope Z_scope.

(** lattigo ring.TernarySampler with p = 0.5 (recalled): two strings of N/8 random bytes; bit i&7 of byte i>>3 of the first one decides whether coefficient i is
    not zero, the same bit of the second one is its sign: index = (coeff & (sign^1)) | ((sign & coeff) << 1) into the table [0, 1, q-1].
    Simplification: the two strings are one list of pairs of bits; they are what a PRNG gives (keygen.go:69-73, encryptor.go:32-35). *)
Definition prngBits : Type := list (bool * bool).
Definition ternaryIndex (coeff sign : bool) : nat := (if coeff && negb sign then 1 else 0) + 2 * (if sign && coeff then 1 else 0).
Definition ternaryValue (i : nat) : bool * Z := nth i [(true, 0); (true, 1); (false, 1)] (true, 0).
Definition ternary (d : prngBits) : small := map (fun '(c, s) => ternaryValue (ternaryIndex c s)) d.
(** keygen.go:58-60 GenSecretKey calls GenSecretKeyWithDistrib (68-75) with p = 1/2; encryptor.go:49 has the same sampler for u *)
Definition GenSecretKey (pp : params) (d : prngBits) (id : string) : res seckey := genSecretKey pp (ternary d) id.

(** rlwe.DefaultSigma = 3.2 (recalled), the float64 nearest to 16/5 *)
Definition DefaultSigma : f64 := fdiv (f_of_Z 16) (f_of_Z 5).
(** keygen.go:35, encryptor.go:48: int(6*params.Sigma()), where the Gaussian sampler cuts *)
Definition errBound (sigma : f64) : Z := ftrunc (fmul (f_of_Z 6) sigma).
