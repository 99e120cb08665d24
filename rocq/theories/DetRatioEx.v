(** Concrete wavefunctions for the examples of C67, with rational parameters: two electrons in four spin orbitals *)
From Coq Require Import List ZArith NArith QArith Qcanon.
From Verif Require Import Py Alg OrbSpec Cache WfnCached DetRatio DetRatioSpec Rank2Ex.
Import ListNotations.
(** the random columns *)
Definition dr_rnd (r c : nat) : Qc_field := zq (Z.of_nat (1 + 2 * r + c * c)).
Definition dr_new (mask : option (list bool)) (l : list Z) : res (dratio Qc_field) := new_dratio dr_rnd 2 4 mask (DRArray (map zq l)).
Definition dr_value (mask : option (list bool)) (l : list Z) (sd : N) : res (Z * positive) := do w <- dr_new mask l; show_res (dr_overlap w sd).
Definition dr_grad (mask : option (list bool)) (l : list Z) (sd : N) (ds : list Z) : res (list (Z * positive)) :=
  do w <- dr_new mask l; do v <- dr_overlap_deriv w sd ds; match v with Array g => Ok (map shown g) | Scalar x => Ok [shown x] end.
(** the overlap of one determinant *)
Definition dr_one (l : list Z) (i : nat) (sd : N) : Z * positive := shown (slater_overlap (K := Qc_field) 2 4 (entry_at (K := Qc_field) 2 4 (map zq l) i) sd).
Definition dr_first (mask : option (list bool)) (sd : N) : res (Z * positive) := do w <- new_dratio dr_rnd 2 4 mask DRDefault; show_res (dr_overlap w sd).
Definition dr_entries (mask : option (list bool)) (l : list Z) (i : Z) : res (list (Z * positive)) :=
  do w <- dr_new mask l; do m <- dr_matrix w i; Ok (map (fun rc => shown (Nonorth.m_at m (fst rc) (snd rc))) (list_prod (seq 0 2) (seq 0 4))).
Definition dr_calls (l : list Z) (h : list (event arg (drparams Qc_field) (dratio Qc_field -> res (dratio Qc_field)))) : res (list (res (list (Z * positive)))) :=
  do w <- dr_new None l; Ok (map show_answer (dr_run dr_rnd (constructed dr_nparams w None true) h)).
Definition dr16 : list Z := [1; 2; 0; 3; 4; 1; 2; 5; 2; 1; 1; 0; 3; 4; 5; 1]%Z.
Definition dr16' : list Z := [2; 2; 0; 3; 4; 1; 2; 5; 2; 1; 1; 0; 3; 4; 5; 1]%Z.
Definition dr24 : list Z := (dr16 ++ [1; 1; 1; 2; 0; 1; 3; 1])%Z.
