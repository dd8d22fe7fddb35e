(** C03: ciphertexts as objects in memory. *)
From Coq Require Import String ZArith List Bool.
From Verif Require Import Go Lattigo NTT RingOps Maps Params Elements KeySwitch KeySets EncDec Heap SpecHeap HeapProofs.
Import ListNotations.
Local Open Scope list_scope.

(** C03: on every heap, even one where components of c share limbs with each other: CopyNew yields an object that reads as c does and has no
    memory in common with c; whatever is then done without writing through c (creating, copying, overwriting, deleting, through the copy
    or copies of it), c still reads the same, and with the roles exchanged the copy still reads the same. *)
Theorem C03_copy_new : forall o h c v, order_ok o -> rep h c v -> sget v "0"%string <> None ->
  exists c2 h2, heapCopyNew o c h = Ok (c2, h2) /\ rep h2 c v /\ rep h2 c2 v /\ apart h2 c c2 /\
    forall P vs' h', orders_ok P -> foldM (fun s i => stepH i s) P ([c; c2], h2) = Ok (vs', h') ->
      (avoids 0 P -> rep h' c v) /\ (avoids 1 P -> rep h' c2 v).
Proof. intros o h c v. exact (copy_frame o c h v). Qed.
Print Assumptions C03_copy_new.

(** C03: every program that creates, copies, overwrites in place, pads and deletes behaves on the heap exactly as on ciphertext values that
    share nothing: it panics with the same panic, or every variable reads as its value. *)
Theorem C03_programs : forall P, orders_ok P ->
  match runV P with Panic e => runH P = Panic e | Ok vals => exists vs h, runH P = Ok (vs, h) /\ Forall2 (rep h) vs vals end.
Proof. exact programs. Qed.
Print Assumptions C03_programs.

(** C03: on every heap reached by such a program, Decrypt of mkrlwe and of mkckks write the plaintext that the decryption of the value
    yields, and leave every other ciphertext as it was, the decrypted one among them. *)
Theorem C03_decrypt : forall pp P vs h vals kc kd c d v p o sks, orders_ok P -> runH P = Ok (vs, h) -> runV P = Ok vals -> order_ok o ->
  nth_error vs kc = Some c -> nth_error vals kc = Some v -> nth_error vs kd = Some d -> nth_error vals kd = Some [("0"%string, p)] -> kc <> kd ->
  match Decrypt pp o v sks p with
  | Ok p' => (exists h', heapDecrypt pp o c sks d h = Ok h' /\ Forall2 (rep h') vs (lset vals kd [("0"%string, p')])) /\
             (exists h', heapCkDecrypt pp o c sks d h = Ok h' /\ Forall2 (rep h') vs (lset vals kd [("0"%string, p')]))
  | Panic e => heapDecrypt pp o c sks d h = Panic e /\ heapCkDecrypt pp o c sks d h = Panic e
  end.
Proof. exact decrypt_reached. Qed.
Print Assumptions C03_decrypt.

(** a program: a ciphertext of one party and a plaintext are created, the ciphertext is filled and copied, the copy is overwritten *)
Definition fill (x : Z) : list poly -> poly -> res poly := fun _ p => Ok (mkPoly (p_ntt p) (map (map (fun _ => x)) (p_co p))).
Definition exP : list instr :=
  [INew ["a"%string] 4 2 false; INew [] 4 2 false; IUpd 0 "a"%string [] (fill 7); ICopy 0 (fun _ l => l); IUpd 2 "a"%string [(0%nat, "0"%string)] (fill 9); IDel 2 "0"%string].
Example C03_case : orders_ok exP /\ avoids 0 (skipn 4 exP) /\
  exists vs h vals v p, runH exP = Ok (vs, h) /\ runV exP = Ok vals /\ nth_error vals 0 = Some v /\ nth_error vals 1 = Some [("0"%string, p)] /\
    sget v "a"%string = Some (mkPoly false [[7; 7; 7; 7]; [7; 7; 7; 7]]%Z) /\
    (exists c2, nth_error vs 2 = Some c2 /\ loadComp h c2 "a"%string = Ok (mkPoly false [[9; 9; 9; 9]; [9; 9; 9; 9]]%Z)) /\
    (exists c, nth_error vs 0 = Some c /\ loadComp h c "a"%string = Ok (mkPoly false [[7; 7; 7; 7]; [7; 7; 7; 7]]%Z)).
Proof.
  split. { intros k o H. repeat (destruct H as [H|H]; [try discriminate; injection H as <- <-; intros n l; apply Permutation.Permutation_refl|]). destruct H. }
  split. { intros i H. cbn in H. repeat (destruct H as [<-|H]; [try exact I; discriminate|]). destruct H. }
  do 5 eexists. split; [lazy; reflexivity|]. split; [lazy; reflexivity|]. split; [reflexivity|]. split; [reflexivity|]. split; [reflexivity|]. split; eexists; (split; [reflexivity|]); reflexivity.
Qed.
