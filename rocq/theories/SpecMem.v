(** Vocabulary for arrays of 64-bit words in one memory. *)
From Coq Require Import ZArith List String.
From Verif Require Import RingOps Maps Params Elements KeySwitch.
Import ListNotations.
Local Open Scope Z_scope.

(** the word at every address *)
Definition memory := Z -> Z.
(** a []uint64: the address of its first word and its length *)
Record warray := mkArr { a_base : Z; a_len : nat }.
(** address a belongs to the array *)
Definition within (s : warray) (a : Z) : Prop := a_base s <= a < a_base s + Z.of_nat (a_len s).
(** two arrays without a common word *)
Definition apart (s t : warray) : Prop := a_base s + Z.of_nat (a_len s) <= a_base t \/ a_base t + Z.of_nat (a_len t) <= a_base s.
(** the array holds the words of l *)
Definition holds (m : memory) (s : warray) (l : list Z) : Prop :=
  a_len s = List.length l /\ forall i, (i < List.length l)%nat -> m (a_base s + Z.of_nat i) = nth i l 0.
(** the limbs of a polynomial hold the words of p *)
Definition holds_limbs (m : memory) (ss : list warray) (p : list (list Z)) : Prop := Forall2 (holds m) ss p.
(** the arrays of a list are pairwise apart *)
Definition all_apart (ss : list warray) : Prop := ForallOrdPairs apart ss.
(** every array of ss is apart from every array of ts *)
Definition lists_apart (ss ts : list warray) : Prop := forall s t, In s ss -> In t ts -> apart s t.
(** m' and m agree outside the arrays *)
Definition same_outside (ss : list warray) (m m' : memory) : Prop := forall a, (forall s, In s ss -> ~ within s a) -> m' a = m a.
(** the arrays of all components of a ciphertext *)
Definition ct_arrays {K} (L : list (K * list warray)) : list warray := List.concat (map snd L).
(** the arrays L hold the components of ct *)
Definition holds_ct (m : memory) (L : smap (list warray)) (ct : ciphertext) : Prop :=
  mkeys L = mkeys ct /\ forall u ss p, sget L u = Some ss -> sget ct u = Some p -> holds_limbs m ss (p_co p).
(** all arrays have N words *)
Definition sized (N : nat) (ss : list warray) : Prop := Forall (fun s => a_len s = N) ss.
(** an array of ss and one of ts are the same limb of both or apart *)
Definition in_place_or_apart (ss ts : list warray) : Prop := forall i j s t, nth_error ss i = Some s -> nth_error ts j = Some t -> (i = j /\ s = t) \/ apart s t.
