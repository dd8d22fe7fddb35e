(** The condition-controlled loops of the code, run as loops: each integer operation is on int64 and wraps.  The rest of the model writes these loops as
    remainders, recursions on binary digits and lists of powers of two; LoopThms.v compares the two. *)
From Coq Require Import ZArith List String Bool.
From Verif Require Import Go Lattigo Arith F64 BasisExt NTT RingOps Maps Params Elements KeySwitch KeySets KeyGen EncDec Utils Evaluator LR.
Import ListNotations.
Local Open Scope Z_scope.
Open Scope go_scope.

(** [for c { body }]: [loop c body s n r] says that the loop, entered in state s, is left after n rounds with outcome r.  A loop that is never left has no outcome. *)
Inductive loop {S : Type} (c : S -> bool) (body : S -> res S) : S -> nat -> res S -> Prop :=
| loop_exit s : c s = false -> loop c body s O (Ok s)
| loop_round s s1 n r : c s = true -> body s = Ok s1 -> loop c body s1 n r -> loop c body s (Datatypes.S n) r
| loop_panic s e : c s = true -> body s = Panic e -> loop c body s 1%nat (Panic e).

(** int64 arithmetic *)
Definition iadd (a b : Z) : Z := i64 (a + b).
Definition isub (a b : Z) : Z := i64 (a - b).
Definition imul (a b : Z) : Z := i64 (a * b).

(** evaluator.go:495-497, 595-597: for rotidx >= N/2 { rotidx -= N/2 } *)
Definition downLoop (half k : Z) (n : nat) (r : res Z) : Prop := loop (fun k => half <=? k) (fun k => Ok (isub k half)) k n r.
(** evaluator.go:499-501, 599-601, keyswitch.go:246-249, keyswitch_hoisted.go:195-198, keygen.go:207-210: for rotidx < 0 { rotidx += N/2 } *)
Definition upLoop (half k : Z) (n : nat) (r : res Z) : Prop := loop (fun k => k <? 0) (fun k => Ok (iadd k half)) k n r.
(** evaluator.go:494-501, 594-601: one after the other *)
Definition normLoops (half k : Z) (n1 n2 : nat) (r : Z) : Prop := exists k1, downLoop half k n1 (Ok k1) /\ upLoop half k1 n2 (Ok r).

Section Ev.
Context (ce : ckenv).
Notation env := (ce_env ce).
Notation pp := (e_pp env).
Definition halfN : Z := Z.quot (Z.of_nat (pa_N pp)) 2.

(** evaluator.go:517-523: for k := 1; rotidx > 0; k *= 2 { if rotidx%2 != 0 { ksw.Rotate(ctTmp, k, rkSet, ctOut); ctTmp.Copy(ctOut) }; rotidx /= 2 };
    the state is rotidx, k, ctTmp, ctOut and the key switcher's pools *)
Definition bitState : Type := Z * Z * ciphertext * ciphertext * kpool.
Definition bitBody (o : order) (rks : rotset) (s : bitState) : res bitState :=
  let '(rotidx, k, tmp, out, kp) := s in
  let* (tmp, out, kp) :=
    (if negb (Z.rem rotidx 2 =? 0) then
       let* (out, kp) := Rotate env o tmp k rks out kp in
       let* tmp := ctCopy o tmp out in Ok (tmp, out, kp)
     else Ok (tmp, out, kp)) in
  Ok (Z.quot rotidx 2, imul k 2, tmp, out, kp).
Definition bitCond (s : bitState) : bool := let '(rotidx, _, _, _, _) := s in 0 <? rotidx.

(** evaluator.go:485-525 RotateNew and rotate, as a relation between the arguments and the outcome *)
Definition RotateNewL (o : order) (ct0 : ckct) (rotidx : Z) (rks : rotset) (st : evst) (r : res (ckct * evst)) : Prop :=
  match (let* ids := ctIDSet o (c_ct ct0) in let* l := ctLevel (c_ct ct0) in Ok (NewCiphertext o pp ids l)) with
  | Panic e => r = Panic e
  | Ok ctOut => exists n1 n2 k, normLoops halfN rotidx n1 n2 k /\
      if k =? 0 then r = (let* c := ctCopy o ctOut (c_ct ct0) in Ok (mkCk c (c_scale ct0), st))
      else if mhas Z.eqb (pa_CRS pp) k then
        r = (let* (c, kp) := Rotate env o (c_ct ct0) k rks ctOut (ev_k st) in Ok (mkCk c (c_scale ct0), set_k kp st))
      else match ckCopyNew ct0 with
        | Panic e => r = Panic e
        | Ok tmp => exists n r', loop bitCond (bitBody o rks) (k, 1, c_ct tmp, ctOut, ev_k st) n r' /\
            r = (let* s := r' in let '(_, _, _, out, kp) := s in Ok (mkCk out (c_scale ct0), set_k kp st))
        end
  end.
(** evaluator.go:585-617 RotateHoistedNew and rotateHoisted *)
Definition RotateHoistedNewL (o : order) (ct0 : ckct) (rotidx : Z) (h : hoisted) (rks : rotset) (st : evst) (r : res (ckct * evst)) : Prop :=
  match (let* ids := ctIDSet o (c_ct ct0) in let* l := ctLevel (c_ct ct0) in Ok (NewCiphertext o pp ids l)) with
  | Panic e => r = Panic e
  | Ok ctOut => exists n1 n2 k, normLoops halfN rotidx n1 n2 k /\
      if k =? 0 then r = (let* c := ctCopy o ctOut (c_ct ct0) in Ok (mkCk c (c_scale ct0), st))
      else if mhas Z.eqb (pa_CRS pp) k then
        r = (let* (c, kp) := RotateHoisted env o (c_ct ct0) k h rks ctOut (ev_k st) in Ok (mkCk c (c_scale ct0), set_k kp st))
      else r = Panic (PMsg "Hoisted rotation only works for precomputed rotation keys")
  end.
End Ev.

(** keygen.go:232-237: for rotidx := 1; rotidx < N/2; rotidx *= 2 { rtkSet.AddRotationKey(GenRotationKey(rotidx, sk)) } *)
Definition genBody (pp : params) (sk : seckey) (es : Z -> nat -> small) (s : Z * (rotset * poly)) : res (Z * (rotset * poly)) :=
  let '(i, (rks, poolQ)) := s in
  let* (rk, poolQ) := GenRotationKey pp i sk (es i) poolQ in
  Ok (imul i 2, (AddRotationKey rks rk, poolQ)).
Definition GenDefaultL (pp : params) (sk : seckey) (es : Z -> nat -> small) (rks : rotset) (poolQ : poly) (n : nat) (r : res (Z * (rotset * poly))) : Prop :=
  loop (fun s => fst s <? Z.quot (Z.of_nat (pa_N pp)) 2) (genBody pp sk es) (1, (rks, poolQ)) n r.

(** lr/lr.go:285-288, 389-392, 430-433, 439-442, 445-448: for i := 1; i < bound; i *= 2 { r := RotateNew(ct, amount); ct = AddNew(ct, r) }, where amount is
    i, -i or numCol*i in int64 *)
Definition sumBody {S ct pt : Type} (E : heops S ct pt) (amount : Z -> Z) (s : Z * (ct * S)) : res (Z * (ct * S)) :=
  let '(i, (c, st)) := s in
  let* (r, st) := o_rot E c (amount i) st in
  let* (c, st) := o_add E c r st in
  Ok (imul i 2, (c, st)).
Definition sumL {S ct pt : Type} (E : heops S ct pt) (bound : Z) (amount : Z -> Z) (c : ct) (st : S) (n : nat) (r : res (Z * (ct * S))) : Prop :=
  loop (fun s => fst s <? bound) (sumBody E amount) (1, (c, st)) n r.
