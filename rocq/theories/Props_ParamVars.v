(** C68: every copy of a Parameters value sees the common reference strings that any copy adds (mkrlwe/params.go:8-12, 77-99). *)
From Coq Require Import ZArith List String.
From Verif Require Import Go Lattigo RingOps Maps Params ParamVars SpecVars LRSetup KeyWitness Shipped ParamVarsProofs ParamVarsThms.
Import ListNotations.
Local Open Scope Z_scope.
Local Open Scope string_scope.
Local Open Scope list_scope.

(** reading through a variable gives the parameters of its family: those NewParameters made, with all AddCRS calls on members of the family applied in order *)
Theorem C68_shared : forall ops st, prun ops ps0 = Ok st -> forall x n, origin (rev ops) x = Some n -> view st x = family (rev ops) n /\ exists pp, family (rev ops) n = Ok pp.
Proof. exact shared. Qed.
Print Assumptions C68_shared.
(** one AddCRS: all members of the family hold the new value, no other variable changes *)
Theorem C68_add : forall ops st y ix smp st', prun ops ps0 = Ok st -> prun (ops ++ [PAdd y ix smp]) ps0 = Ok st' ->
  exists n pp pp', origin (rev ops) y = Some n /\ view st y = Ok pp /\ AddCRS pp ix smp = Ok pp' /\
    (forall x, origin (rev ops) x = Some n -> view st' x = Ok pp') /\
    (forall x, origin (rev ops) x <> Some n -> view st' x = view st x).
Proof. exact add_seen. Qed.
Print Assumptions C68_add.
(** AddCRS on a zero value panics; otherwise it succeeds when it succeeds on the value that is held *)
Theorem C68_add_total : forall ops st y ix smp, prun ops ps0 = Ok st ->
  match origin (rev ops) y with
  | None => exists p, prun (ops ++ [PAdd y ix smp]) ps0 = Panic p
  | Some n => exists pp, view st y = Ok pp /\ ((exists pp', AddCRS pp ix smp = Ok pp') <-> exists st', prun (ops ++ [PAdd y ix smp]) ps0 = Ok st')
  end.
Proof. exact add_total. Qed.
Print Assumptions C68_add_total.
(** genTestParams: the caller's variable and the parameters in all objects hold the value that LRSetup.genTestParams uses; a second call of genTestParams on the
    same variable replaces the common reference strings in the first context too *)
Theorem C68_genTestParams : forall logN Q P psiQ psiP gamma smp0 rots smp smp2 pp0 pp, NewParameters logN Q P psiQ psiP gamma smp0 = Ok pp0 -> addCRSs smp 0 rots pp0 = Ok pp ->
  let once := PNew "params" logN Q P psiQ psiP gamma smp0 :: setupOps "params" "testContext.params" "kgen" "rlkSet" "encryptor" "decryptor" "evaluator" rots smp in
  let again := setupOps "params" "testContext2.params" "kgen2" "rlkSet2" "encryptor2" "decryptor2" "evaluator2" rots smp2 in
  (exists st, prun once ps0 = Ok st /\ forall x, In x first_ctx -> view st x = Ok pp) /\
  (forall pp2, addCRSs smp2 0 rots pp = Ok pp2 -> exists st, prun (once ++ again) ps0 = Ok st /\ forall x, In x (first_ctx ++ second_ctx) -> view st x = Ok pp2).
Proof. exact setup_views. Qed.
Print Assumptions C68_genTestParams.

(** ** case: two set-ups on one variable; the evaluator of the first reads the string of the second, a variable of another family does not *)
Definition zerosQP : sampler := fun _ _ => newQP (toy 2).
Definition case_ops : list pop :=
  [PNew "params" 3 toyQ toyP [8; 40; 64; 111] [249; 191] 2 zerosQP; PNew "other" 3 toyQ toyP [8; 40; 64; 111] [249; 191] 2 zerosQP] ++
  setupOps "params" "testContext.params" "kgen" "rlkSet" "encryptor" "decryptor" "evaluator" [3] (fun _ => zerosQP) ++ [PAdd "other" 3 zerosQP].
Definition crsOf (r : res pstate) (x : string) : res swk := let* st := r in let* pp := view st x in getCRS pp 3.
Definition firstWord (r : res swk) : option Z := match r with Ok (q :: _) => match p_co (qQ q) with (w :: _) :: _ => Some w | _ => None end | _ => None end.
Example C68_case : let r1 := prun case_ops ps0 in let r2 := prun (case_ops ++ setupOps "params" "testContext2.params" "kgen2" "rlkSet2" "encryptor2" "decryptor2" "evaluator2" [3] (fun _ _ _ => onesQP (toy 2))) ps0 in
  firstWord (crsOf r1 "evaluator") = Some 0 /\ firstWord (crsOf r2 "evaluator") = Some (2 ^ 64 mod 97) /\ firstWord (crsOf r2 "kgen2") = Some (2 ^ 64 mod 97) /\ firstWord (crsOf r2 "other") = Some 0.
Proof. vm_compute. repeat split. Qed.
