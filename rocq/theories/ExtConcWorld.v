(** A concrete pair of calls for C75. *)
From Coq Require Import String ZArith List Arith.
From Verif Require Import Go Lattigo Arith BasisExt NTT RingOps Params Words SpecWords DownNTT ExtConc SpecExt.
Import ListNotations.
Local Open Scope Z_scope.

Definition tinyExt : extender := NewFastBasisExtender [97] [17].
Definition tinyCall (i : nat) : xcall := CDownQ 0 0 [repeat 40 8] [repeat (if Nat.eqb i 0 then 3 else 8) 8].
Definition tinyWorld (x : nat -> xobj) (sched : list nat) : wworld xres := wrun sched (mkWW (fun _ => 0) (xgoroutines 2 x tinyCall)).
(** goroutine 0 stores its eight words, then goroutine 1, then goroutine 0 loads *)
Definition tinySched : list nat := repeat 0%nat 8 ++ repeat 1%nat 8 ++ repeat 0%nat 8.
Lemma tiny_wrong : exists r, ww_t (tinyWorld (fun _ => mkXo tinyExt 0) tinySched) 0%nat = WDone (Ok r) /\ callVal tinyExt (tinyCall 0) <> Ok r.
Proof. eexists. split; [vm_compute; reflexivity|]. vm_compute. discriminate. Qed.
Lemma tiny_right : exists r, ww_t (tinyWorld (mkXo tinyExt) tinySched) 0%nat = WDone (Ok r) /\ callVal tinyExt (tinyCall 0) = Ok r.
Proof. eexists. split; [vm_compute; reflexivity|]. vm_compute. reflexivity. Qed.
Lemma tiny_extended : forall i, exists v r up, extended tinyExt (tinyCall i) = Ok ((v :: r) :: up).
Proof. intros [|i]; eexists _, _, _; vm_compute; reflexivity. Qed.
Lemma wrong_thm : exists b c sched r, let x := fun _ : nat => mkXo b 0 in
  ww_t (wrun sched (mkWW (fun _ => 0) (xgoroutines 2 x c))) 0%nat = WDone (Ok [r]) /\ exists r', ModDownQPtoQ b 0 0 [repeat 40 8] [repeat 3 8] = Ok r' /\ c 0%nat = CDownQ 0 0 [repeat 40 8] [repeat 3 8] /\ r' <> r.
Proof.
  exists tinyExt, tinyCall, tinySched. eexists. cbv zeta. split; [vm_compute; reflexivity|]. eexists. split; [vm_compute; reflexivity|]. split; [reflexivity|]. discriminate.
Qed.
Lemma runs_copy : exists n, runX [XNew [97] [17]; XCopy 0; XNil; XCopy 2; XCopy 1] = Ok ([Some (mkXo tinyExt 0); Some (mkXo tinyExt 1); None; None; Some (mkXo tinyExt 2)], n).
Proof. eexists. reflexivity. Qed.
