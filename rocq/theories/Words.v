(** The goroutines of Conc.v with steps of one word: each step of a goroutine loads or stores one uint64 of the hoisting pools that the calls of MulRelinNew
    share through their RelinearizationKeySet.  What a goroutine computes between two accesses is its own business (its Evaluator is not shared). *)
From Coq Require Import String ZArith List Bool Arith.
From Verif Require Import Go RingOps Maps Params Elements KeySwitch KeySets F64 EncDec Evaluator Conc.
Import ListNotations.
Local Open Scope nat_scope.
Open Scope go_scope.

(** keys.go:53-57: a word of a pool: HoistPool[1] or [0], the id, Value[i], its P or Q part, the limb and the coefficient.  The key set's maps and the slice
    headers are not written by the calls: only the words are shared memory. *)
Definition cell : Type := bool * string * nat * bool * nat * nat.
Definition cell_pool (c : cell) : bool := let '(b, _, _, _, _, _) := c in b.
Definition cell_id (c : cell) : string := let '(_, id, _, _, _, _) := c in id.
Definition cell_dec (c d : cell) : {c = d} + {c <> d}.
Proof. repeat decide equality. Defined.
Definition memory := cell -> Z.
Definition poke (m : memory) (c : cell) (v : Z) : memory := fun d => if cell_dec c d then v else m d.

(** a program over the shared words *)
Inductive wprog (A : Type) := WDone (a : A) | WLoad (c : cell) (k : Z -> wprog A) | WStore (c : cell) (v : Z) (k : wprog A).
Arguments WDone {A}. Arguments WLoad {A}. Arguments WStore {A}.
(** one access *)
Definition access {A} (s : memory * wprog A) : memory * wprog A :=
  match snd s with
  | WDone _ => s
  | WLoad c k => (fst s, k (fst s c))
  | WStore c v k => (poke (fst s) c v, k)
  end.
(** n accesses without interruption *)
Definition alone {A} (n : nat) (s : memory * wprog A) : memory * wprog A := Nat.iter n access s.
(** memory and goroutines *)
Record wworld (A : Type) := mkWW { ww_mem : memory; ww_t : nat -> wprog A }.
Arguments mkWW {A}. Arguments ww_mem {A}. Arguments ww_t {A}.
(** goroutine i makes an access *)
Definition wstep {A} (w : wworld A) (i : nat) : wworld A :=
  let s := access (ww_mem w, ww_t w i) in mkWW (fst s) (fun j => if Nat.eqb j i then snd s else ww_t w j).
Definition wrun {A} (sched : list nat) (w : wworld A) : wworld A := fold_left wstep sched w.

(** ** MulRelinNew as such a program *)
Fixpoint mapi {A B} (f : nat -> A -> B) (i : nat) (l : list A) : list B :=
  match l with [] => [] | a :: l => f i a :: mapi f (S i) l end.
(** the words of a polynomial, of a switching key *)
Definition polyCells (b : bool) (id : string) (i : nat) (P : bool) (p : poly) : list (cell * Z) :=
  List.concat (mapi (fun j row => mapi (fun k x => ((b, id, i, P, j, k), x)) 0 row) 0 (p_co p)).
Definition swkCells (b : bool) (id : string) (s : swk) : list (cell * Z) :=
  List.concat (mapi (fun i x => polyCells b id i false (qQ x) ++ polyCells b id i true (qP x)) 0 s).
(** a switching key of the form of t whose words are those of the memory *)
Definition viewPoly (b : bool) (id : string) (i : nat) (P : bool) (p : poly) (m : memory) : poly :=
  mkPoly (p_ntt p) (mapi (fun j row => mapi (fun k _ => m (b, id, i, P, j, k)) 0 row) 0 (p_co p)).
Definition viewSwk (b : bool) (id : string) (t : swk) (m : memory) : swk :=
  mapi (fun i x => mkQP (viewPoly b id i false (qQ x) m) (viewPoly b id i true (qP x) m)) 0 t.

Section Prog.
Context {A : Type}.
Fixpoint storeAll (l : list (cell * Z)) (k : wprog A) : wprog A :=
  match l with [] => k | (c, v) :: l => WStore c v (storeAll l k) end.
(** loads the cells; [got] is what has been loaded, as a memory *)
Fixpoint loadAll (l : list cell) (got : memory) (k : memory -> wprog A) : wprog A :=
  match l with [] => k got | c :: l => WLoad c (fun v => loadAll l (poke got c v) k) end.
(** all words of the entry id of pool b, whose form is that of t *)
Definition loadEntry (b : bool) (id : string) (t : swk) (k : swk -> wprog A) : wprog A :=
  loadAll (map fst (swkCells b id t)) (fun _ => 0%Z) (fun m => k (viewSwk b id t m)).
Definition storeEntry (b : bool) (id : string) (s : swk) (k : wprog A) : wprog A := storeAll (swkCells b id s) k.
End Prog.

Section Mul.
Context (ce : ckenv).
Notation wres := (wprog (res (ckct * evst))).
(** evaluator.go:422-424, 432-438: decompose the components of op, one after the other, into pool b.  [pool] gives the forms of the entries.
    Simplification: all words of an entry are loaded before and stored after the decomposition of a component; Decompose itself (keyswitch.go:49-73)
    does not load them and stores the limbs up to the level. *)
Fixpoint decompAll (b : bool) (L : list string) (op : ckct) (pool : hoisted) (st : evst) (k : evst -> wres) : wres :=
  match L with
  | [] => k st
  | id :: L =>
      match (let* l := ctLevel (c_ct op) in let* a := sptr (c_ct op) id in let* t := sptr pool id in Ok (l, a, t)) with
      | Panic e => WDone (Panic e)
      | Ok (l, a, t) => loadEntry b id t (fun old =>
          match Decompose (ce_env ce) l a old (ev_k st) with
          | Panic e => WDone (Panic e)
          | Ok (new, kp) => storeEntry b id new (decompAll b L op pool (set_k kp st) k)
          end)
      end
  end.
(** the entries of L in pool b, as the hoisted multiplication reads them *)
Fixpoint loadPool (b : bool) (L : list string) (pool : hoisted) (k : hoisted -> wres) : wres :=
  match L with
  | [] => k []
  | id :: L =>
      match sptr pool id with
      | Panic e => WDone (Panic e)
      | Ok t => loadEntry b id t (fun s => loadPool b L pool (fun h => k ((id, s) :: h)))
      end
  end.
(** evaluator.go:416-443 MulRelinNew *)
Definition mulProg (c : ccall) (rs : rlkpool) (st : evst) : wres :=
  match (let* ids0 := ctIDSet (cc_o c) (c_ct (cc_op0 c)) in let* ids1 := ctIDSet (cc_o c) (c_ct (cc_op1 c)) in Ok (cc_o c 1%nat (mkeys ids0), cc_o c 2%nat (mkeys ids1))) with
  | Panic e => WDone (Panic e)
  | Ok (L0, L1) =>
      decompAll false L0 (cc_op0 c) (rs_h0 rs) st (fun st =>
        if cc_same c then
          loadPool false L0 (rs_h0 rs) (fun h0 => WDone (MulRelinHoistedNew ce (cc_o c) (cc_op0 c) (cc_op1 c) (Some h0) (Some h0) (rs_keys rs) st))
        else decompAll true L1 (cc_op1 c) (rs_h1 rs) st (fun st =>
          loadPool false L0 (rs_h0 rs) (fun h0 => loadPool true L1 (rs_h1 rs) (fun h1 =>
            WDone (MulRelinHoistedNew ce (cc_o c) (cc_op0 c) (cc_op1 c) (Some h0) (Some h1) (rs_keys rs) st)))))
  end.
(** T goroutines, each with a call; the others have nothing to do *)
Definition goroutines (T : nat) (calls : nat -> ccall) (rs : rlkpool) (evs : nat -> evst) (i : nat) : wres :=
  if i <? T then mulProg (calls i) rs (evs i) else WDone (Panic PNil).
End Mul.
