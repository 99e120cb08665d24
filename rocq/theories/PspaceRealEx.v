(** A system over the real numbers for the example about the lower bound. *)
From Coq Require Import List ZArith NArith Arith Bool Reals.
From Verif Require Import Py Slater Alg WfnCI ParamSel EqnBase EqnReal Solver.
Import ListNotations.
Local Open Scope R_scope.
(** scipy.linalg.eigh for diagonal matrices of two rows *)
Definition eigh_diag (n : nat) (m : nat -> nat -> R_field) : res (list R_field * list (list R_field)) :=
  if Nat.eqb n 2 then (if Req_EM_T (m 0%nat 1%nat) 0 then Ok ([m 0%nat 0%nat; m 1%nat 1%nat] : list R_field, [[1; 0]; [0; 1]] : list (list R_field)) else Err ValueError) else Err ValueError.
Definition ham_diag : bham R_field := @mkbham R_field 4%Z (fun a b => Ok (if N.eqb a b then (if N.eqb a 3 then 1 else 3) else 0)) [].
Definition ci_diag : ciwfn R_field := @mkci R_field 2%Z 4%Z None None [3%N; 12%N] [1; 0].
(** overlaps 1 with the first and 2 with every other determinant *)
Definition sys_diag : sys R_field := @mksys R_field 0%nat 1%nat None (fun _ sd => Ok (if N.eqb sd 3 then 1 else 2)) (fun _ _ _ _ => Ok []) (fun _ _ => Err TypeError)
  (fun _ _ _ _ => Ok []) (fun _ _ _ => Ok []) (fun _ => bh_ss ham_diag) (fun _ _ _ _ => Ok []).
