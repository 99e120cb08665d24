(** A system for the examples about the projected equations of the interface to PyCI. *)
From Coq Require Import List ZArith NArith Arith Bool QArith Qcanon.
From Verif Require Import Py Slater Alg Fanci SolverEx FanptEx.
Import ListNotations.
Local Open Scope nat_scope.
Definition ex_fanci : fobj Qc_field := mkfobj (K := Qc_field) 2 2 (mat2 2 3 1 4) (fo_ovlp ex_quad) (fo_dovlp ex_quad) (fo_ddovlp ex_quad) [true; true]
  (all_cons (K := Qc_field) (Some [(NNorm, CNorm)]) (Some [(0, zc 1)]) (Some [(0, zc 2)])).
Definition ex_fx : list Qc_field := [zc 2; zc 5].
