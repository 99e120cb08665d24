(** Concrete AP1roG wavefunctions used in the examples *)
From Coq Require Import List ZArith NArith Arith Bool QArith Qcanon.
From Verif Require Import Py Slater Alg Graphs MathTools WfnCI Geminal AP1roG CreSpec GemSpec Ap1Spec GemEx.
Import ListNotations.
Local Open Scope nat_scope.
(** four electrons in four spatial orbitals, reference 0 and 2 doubly occupied, pairs in another order *)
Definition ex_ap1 : res (ap1 Qc_field) :=
  new_ap1 4 8 None (Some [(3, 7); (2, 6); (5, 1); (0, 4)]%Z) (Some 85%N) (PArray (map qz [2; 3; 5; 7]%Z)).
(** the APIG wavefunction with the identity in the columns of the reference pairs (2,6) and (0,4) *)
Definition ex_ap1_apig : res (gem Qc_field) :=
  new_gem GAPIG 4 8 None (Some [(3, 7); (2, 6); (5, 1); (0, 4)]%Z) (PArray (map qz [2; 1; 3; 0; 5; 0; 7; 1]%Z)).
Definition ex_ap1_value (sd : N) : res (Z * positive) := do w <- ex_ap1; qv (ap1_overlap w sd).
Definition ex_ap1_deriv (sd : N) (ds : list Z) : res (list Z) :=
  do w <- ex_ap1; do l <- ap1_overlap_deriv w sd ds; Ok (map (fun x : Qc_field => Qnum (this x)) l).
