(** Variables of type Parameters: mkrlwe/params.go:8-12.  Assigning a Parameters value, or passing it to NewKeyGenerator, NewEvaluator, NewKeySwitcher, NewEncryptor,
    NewDecryptor or NewRelinearizationKeyKeySet, copies the struct; the field CRS is a Go map, so the copy refers to the same map.
    mkckks.Parameters (mkckks/params.go:8-25) embeds the struct and adds two numbers that nothing changes; they are not modelled. *)
From Coq Require Import ZArith List String Bool.
From Verif Require Import Go Lattigo F64 BasisExt NTT RingOps Maps Params.
Import ListNotations.
Local Open Scope Z_scope.
Open Scope go_scope.

(** the struct: its immutable fields (here with an empty CRS) and the address of its map, [None] for a nil map *)
Record pvar := mkPV { pv_fixed : params; pv_map : option nat }.
(** the variables and the maps allocated so far *)
Record pstate := mkPS { ps_vars : smap pvar; ps_maps : list (gmap Z swk) }.
Definition ps0 : pstate := mkPS [] [].
Inductive pop :=
| PNew (x : string) (logN : nat) (Q P psiQ psiP : list Z) (gamma : nat) (smp : sampler)  (* x = NewParameters(...) *)
| PAssign (x y : string)                                                                  (* x = y; also the params field x of an object made from y *)
| PZero (x : string)                                                                      (* var x Parameters *)
| PAdd (x : string) (ix : Z) (smp : sampler).                                             (* x.AddCRS(ix) *)
Definition withCRS (pp : params) (crs : gmap Z swk) : params := mkParams (pa_logN pp) (pa_Q pp) (pa_P pp) (pa_psiQ pp) (pa_psiP pp) (pa_gamma pp) crs.
Fixpoint setNth {A} (n : nat) (a : A) (l : list A) : list A :=
  match l, n with [], _ => [] | _ :: l, O => a :: l | b :: l, S n => b :: setNth n a l end.
(** what reading the fields of x gives; reading a nil map finds nothing *)
Definition view (st : pstate) (x : string) : res params :=
  let* v := sptr (ps_vars st) x in
  match pv_map v with
  | None => Ok (withCRS (pv_fixed v) [])
  | Some a => let* m := idx (ps_maps st) a in Ok (withCRS (pv_fixed v) m)
  end.
Definition pstep (st : pstate) (op : pop) : res pstate :=
  match op with
  | PNew x logN Q P psiQ psiP gamma smp =>
      let* pp := NewParameters logN Q P psiQ psiP gamma smp in
      Ok (mkPS (sset (ps_vars st) x (mkPV (withCRS pp []) (Some (List.length (ps_maps st))))) (ps_maps st ++ [pa_CRS pp]))
  | PAssign x y => let* v := sptr (ps_vars st) y in Ok (mkPS (sset (ps_vars st) x v) (ps_maps st))
  | PZero x => Ok (mkPS (sset (ps_vars st) x (mkPV (mkParams 0 [] [] [] [] 0 []) None)) (ps_maps st))
  | PAdd x ix smp =>
      let* v := sptr (ps_vars st) x in
      match pv_map v with
      | None => Panic PNil   (* a zero Parameters: nil rings, and params.go:90 would write to a nil map *)
      | Some a =>
          (* params.go:88-98: the entry is set to a new key, whose rows are then filled *)
          let* rows := genCRS (pv_fixed v) (Beta (pv_fixed v) (maxLevel (pv_fixed v))) (smp ix) in
          let* m := idx (ps_maps st) a in
          Ok (mkPS (ps_vars st) (setNth a (zset m ix rows) (ps_maps st)))
      end
  end.
Fixpoint prun (ops : list pop) (st : pstate) : res pstate := match ops with [] => Ok st | op :: ops => let* st := pstep st op in prun ops st end.
(** lr/lr.go:455-463, 467, 495-497 (the same lines in the other three programs): what genTestParams does with its argument d and with the parameters of the objects it makes;
    [smp k] is the source of uniform polynomials of the k-th AddCRS *)
Definition setupOps (d tc kgen rlkSet encryptor decryptor evaluator : string) (rots : list Z) (smp : nat -> sampler) : list pop :=
  PAssign tc d :: map (fun '(k, rot) => PAdd tc rot (smp k)) (combine (seq 0 (List.length rots)) rots) ++
  [PAssign kgen tc; PAssign rlkSet d; PAssign encryptor tc; PAssign decryptor tc; PAssign evaluator tc].
