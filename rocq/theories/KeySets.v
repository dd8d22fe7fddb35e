(** mkrlwe/keys.go: key types and key sets. *)
From Coq Require Import ZArith List String Bool.
From Verif Require Import Go NTT RingOps Maps Params Elements KeySwitch.
Import ListNotations.
Open Scope go_scope.

(** keys.go:6-9, 17-20 *)
Record seckey := mkSk { sk_val : qp; sk_ID : string }.
Record pubkey := mkPk { pk_0 : qp; pk_1 : qp; pk_ID : string }.

(** keys.go:12-14, 69-94 *)
Definition skset := smap seckey.
Definition AddSecretKey (s : skset) (k : seckey) : skset := sset s (sk_ID k) k.
Definition DelSecretKey (s : skset) (id : string) : skset := sdel s id.
Definition GetSecretKey (s : skset) (id : string) : res seckey :=
  match sget s id with Some k => Ok k | None => Panic (PMsg "cannot GetPublicKey: there is no public key with given id") end.
(** keys.go:28-30, 97-122 *)
Definition pkset := smap pubkey.
Definition AddPublicKey (s : pkset) (k : pubkey) : pkset := sset s (pk_ID k) k.
Definition DelPublicKey (s : pkset) (id : string) : pkset := sdel s id.
Definition GetPublicKey (s : pkset) (id : string) : res pubkey :=
  match sget s id with Some k => Ok k | None => Panic (PMsg "cannot GetPublicKey: there is no public key with given id") end.

(** keys.go:125-148; GetRotationKey is in KeySwitch.v.  RotIdx is a uint; the indices the
    generator stores are not negative. *)
Definition AddRotationKey (s : rotset) (rk : rotkey) : rotset :=
  let m := match sget s (rk_ID rk) with Some m => m | None => [] end in
  sset s (rk_ID rk) (zset m (rk_idx rk) rk).
(** deleting from a nil map does nothing *)
Definition DelRotationKey (s : rotset) (id : string) (rotidx : Z) : rotset :=
  match sget s id with Some m => sset s id (mdel Z.eqb m rotidx) | None => s end.

(** keys.go:53-57, 165-198: the keys and the two pools of hoisted polynomials *)
Record rlkpool := mkRlkSet { rs_keys : rlkset; rs_h0 : hoisted; rs_h1 : hoisted }.
Definition NewRelinearizationKeyKeySet : rlkpool := mkRlkSet [] [] [].
Definition AddRelinearizationKey (pp : params) (s : rlkpool) (k : rlkey) : rlkpool :=
  mkRlkSet (sset (rs_keys s) (rl_ID k) k)
    (sset (rs_h0 s) (rl_ID k) (NewSwitchingKey pp)) (sset (rs_h1 s) (rl_ID k) (NewSwitchingKey pp)).
Definition DelRelinearizationKey (s : rlkpool) (id : string) : rlkpool :=
  mkRlkSet (sdel (rs_keys s) id) (rs_h0 s) (rs_h1 s).
Definition GetRelinearizationKey (s : rlkpool) (id : string) : res rlkey :=
  match sget (rs_keys s) id with Some k => Ok k | None => Panic (PMsg "cannot GetRelinearizationKey: there is no relinearization key with given id") end.

(** keys.go:201-215; GetConjugationKey is in KeySwitch.v *)
Definition AddConjugationKey (s : conjset) (k : conjkey) : conjset := sset s (cj_ID k) k.
Definition DelConjugationKey (s : conjset) (id : string) : conjset := sdel s id.
