(** Histories for the examples of C48 *)
From Coq Require Import List ZArith NArith Arith Bool QArith Qcanon.
From Verif Require Import Py Slater Alg WfnCI Geminal AP1roG GemEx Ap1Ex Cache WfnCached.
Import ListNotations.
Definition other_params : gparams Qc_field := PArray (map (fun i => qz (Z.of_nat (i * 3 mod 7) - 2)) (seq 0 45)).
Definition shown (a : answer (ovalue (fring Qc_field))) : option (Z * positive) :=
  match a with AGet (Ok (Scalar x)) => Some (Qnum (this x), Qden (this x)) | _ => None end.
Definition ex_history (memory : option Z) : res (list (option (Z * positive))) :=
  do w <- ex_apg;
  Ok (map shown (gem_run (K := Qc_field) (constructed gem_nparams w memory true)
    [EGet (27%N, None); EGet (27%N, None); EAssign other_params; EGet (27%N, None); EClear (Some FDeriv); EGet (27%N, None)])).
Definition ex_twice : res ((Z * positive) * (Z * positive)) :=
  do w <- ex_apg; do w' <- gem_assign_params w other_params; do v <- qv (gem_overlap w 27); do v' <- qv (gem_overlap w' 27); Ok (v, v').
(** the reference is changed from the spatial orbitals 0 and 2 to 0 and 1: the overlaps with 1 and 3 before
    and after, without caches *)
Definition ex_reference : res ((Z * positive) * (Z * positive) * list (option (Z * positive))) :=
  do w <- ex_ap1; do w' <- ap1_set_ref (Some 51%N) w; do v <- qv (ap1_overlap w 170); do v' <- qv (ap1_overlap w' 170);
  Ok (v, v', map shown (ap1_run (K := Qc_field) (constructed (fun w => gem_nparams (a1_gem w)) w None true)
    [EGet (170%N, None); ESet (ap1_set_ref (Some 51%N)); EGet (170%N, None)])).
