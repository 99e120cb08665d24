(** Systems for the examples about the solvers. *)
From Coq Require Import List ZArith NArith Arith Bool QArith Qcanon.
From Verif Require Import Py Slater Alg WfnCI ParamSel EqnBase EqnObj EqnEx EqnEx3 Solver HamRes HamRot HamRotHist HamRotEx SolverHam.
Import ListNotations.
Local Open Scope nat_scope.
Definition zc (z : Z) : Qc := Q2Qc (inject_Z z).
(** two determinants, with the integrals 16, -12, 9: the eigenvalues are 0 and 25 *)
Definition ci2 : ciwfn Qc_field := @mkci Qc_field 2%Z 4%Z None None [3%N; 12%N] [1%Qc; 0%Qc].
Definition ham2 : bham Qc_field := @mkbham Qc_field 4%Z
  (fun a b => Ok (if N.eqb a b then (if N.eqb a 3 then zc 16 else zc 9) else zc (-12))) [].
(** scipy.linalg.eigh for the matrix of this Hamiltonian *)
Definition qeq (a b : Qc) : bool := if Qc_eq_dec a b then true else false.
Definition eigh2 (n : nat) (m : nat -> nat -> Qc_field) : res (list Qc_field * list (list Qc_field)) :=
  if (Nat.eqb n 2 && qeq (m 0 0) (zc 16) && qeq (m 0 1) (zc (-12)) && qeq (m 1 1) (zc 9))%bool
  then Ok ([0%Qc; zc 25], [[Q2Qc (3 # 5); Q2Qc (4 # 5)]; [Q2Qc ((-4) # 5); Q2Qc (3 # 5)]]) else Err ValueError.
(** an objective with that wavefunction: component 0 *)
Definition sys2 : sys Qc_field := mksys 0 1 None
  (fun w sd => ci_overlap (mkci 2%Z 4%Z None None [3%N; 12%N] (w 0)) sd) (fun _ _ _ _ => Ok [])
  (fun w sd => do hs <- mapM (bh_ss ham2 sd) [3%N; 12%N]; do os <- mapM (ci_overlap (mkci 2%Z 4%Z None None [3%N; 12%N] (w 0))) [3%N; 12%N];
     Ok (sumf (fun xy => rmul (fst xy) (snd xy)) (combine hs os))) (fun _ _ _ _ => Ok []) (fun _ _ _ => Ok [])
  (fun _ => bh_ss ham2) (fun _ _ _ _ => Ok []).
(** a Hamiltonian whose integral of the second determinant with itself raises *)
Definition ham_bad : bham Qc_field := @mkbham Qc_field 4%Z (fun a b => if (N.eqb a 12 && N.eqb b 12)%bool then Err TypeError else Ok (zc 1)) [].

Section Ex.
Context {K : CField}.
Local Open Scope cr_scope.
(** two parameters; the optimizer evaluates at the first point, then at the second, and returns the first *)
Definition rejecting (a b : list K) {V J} : strat K V J (sres K V) := SCall a (fun v => SJac a (fun _ => SCall b (fun _ => SDone (mksres true a v)))).
Definition accepting (a b : list K) {V J} : strat K V J (sres K V) := SCall a (fun _ => SJac a (fun _ => SCall b (fun v => SDone (mksres true b v)))).
(** the equations of the example of the projected equations, for the two parameters of the wavefunction *)
Definition sol_obj : obj K := mkobj ex_sys ex_sel0 keep (fun _ => true) (fun _ => done).
Definition sol_eqns : eqns K := mkeqns sol_obj (RefSds [sd1]) [sd1; sd2] Compute 2%nat [] [1; 1].
(** with the constraint, three equations *)
Definition sol_three : eqns K := ex_eqns Compute sol_obj.
(** a constraint of two equations *)
Definition two_cons : cons K := mkcons (fun _ => 2%nat) (fun p => reading (fun _ => Ok [0; 0])) (fun p => reading (fun _ => Ok [[0; 0]; [0; 0]])).
Definition sol_multi : eqns K := mkeqns sol_obj (RefSds [sd1]) [sd1; sd2] Compute 2%nat [two_cons] [1; 1; 1; 1].
(** two constraints and one active parameter *)
Definition one_cons : cons K := mkcons (fun _ => 1%nat) (fun p => reading (fun _ => Ok [0])) (fun p => reading (fun _ => Ok [[0]])).
Definition sol_neg : eqns K := mkeqns (mkobj ex_sys [(0%nat, [0%nat])] keep (fun _ => true) (fun _ => done)) (RefSds [sd1]) [sd1; sd2] Compute 2%nat [one_cons; one_cons] [1; 1; 1; 1].
(** the energy and the coefficients, as an objective with one equation *)
Definition sol_single : single K := mksingle 1%nat ex_sel0 (assign_step sol_obj) (one_objective sol_obj (RefSds [sd1]) true false) (one_gradient sol_obj (RefSds [sd1]) true true) FromValue.
End Ex.
(** the integrals after an optimization step, the clean-up at its end, and another step *)
Definition after_ops (l : list Qc_field -> list (hop Qc_field)) :=
  let o := hrun ex_big ex_huge ex_expm (init (ex_ints 2) false) (begin_ops ++ [HAssign (Some [qf 1 2])]) in
  ex_val (hrun ex_big ex_huge ex_expm o (l (o_params o) ++ [HAssign (Some [qz 1])])).
