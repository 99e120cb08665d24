(** Systems for the examples about projection spaces. *)
From Coq Require Import List ZArith NArith Arith Bool QArith Qcanon.
From Verif Require Import Py Slater Alg WfnCI ParamSel EqnBase Solver SolverEx Pspace.
Import ListNotations.
(** two electrons in four spin orbitals; the same with the spin and the seniority of pairs *)
Definition win : winfo := mkwinfo 2 4 None None.
Definition win_pairs : winfo := mkwinfo 2 4 (Some 0%Z) (Some 0%Z).
(** the coefficients 1 and 2 *)
Definition wld : world Qc_field := fun _ => [zc 1; zc 2].
Definition ov2 (m : N) : Qc_field := if N.eqb m 3 then zc 1 else if N.eqb m 12 then zc 2 else zc 0.
Definition el2 (a b : N) : Qc_field := if N.eqb a b then (if N.eqb a 3 then zc 16 else zc 9) else zc (-12).
