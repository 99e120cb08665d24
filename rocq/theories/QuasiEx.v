(** Concrete wavefunctions for the examples of C68, with rational parameters *)
From Coq Require Import List ZArith NArith QArith Qcanon.
From Verif Require Import Py Slater Alg CreSpec Cache WfnCached Geminal Quasi QuasiSpec Rank2Ex.
Import ListNotations.
(** the coefficients c_ri = (1 + r + i * i) mod 7 *)
Definition tt_params (rows cols : nat) : list Z := flat_map (fun r => map (fun i => Z.of_nat ((1 + r + i * i) mod 7)) (seq 0 cols)) (seq 0 rows).
Definition tt_new (nelec nspin : Z) : res (quasi Qc_field) :=
  new_tetret nelec nspin None None (QArray (map zq (tt_params (Z.to_nat (nelec / 4)) (length (quadruples (Z.to_nat nspin)))))).
Definition tt_val (nelec nspin : Z) (sd : N) : res (Z * positive) := do w <- tt_new nelec nspin; show_res (q_overlap t_partitions w sd).
Definition tt_grad (nelec nspin : Z) (sd : N) (ds : list Z) : res (list (Z * positive)) := do w <- tt_new nelec nspin; show_list (q_overlap_deriv t_partitions w sd ds).
(** the coefficient in the product of the first [h] quasiparticles *)
Definition tt_spec (nelec nspin : Z) (h : nat) (sd : N) : res (Z * positive) :=
  do w <- tt_new nelec nspin;
  Ok (shown (quasi_product (K := Qc_field) (qp_subsets w)
        (map (fun r s => match subset_index s (qp_subsets w) with Some i => nth (r * length (qp_subsets w) + i)%nat (qp_params w) (zq 0) | None => zq 0 end) (seq 0 h)) sd)).
Definition tt_first (nelec nspin : Z) (sd : N) : res (Z * positive) := do w <- new_tetret (K := Qc_field) nelec nspin None None QDefault; show_res (q_overlap t_partitions w sd).
(** three quasiparticles made of one pair and two single orbitals *)
Definition mixed_subsets : list (list Z) := [[0; 1]; [2]; [3]]%Z.
Definition mixed_gen (occ : list Z) : res (list (list (list Z))) := Ok [mixed_subsets].
Definition mixed (l : list Z) : quasi Qc_field := mkqp (K := Qc_field) 4 4 3 mixed_subsets (map zq l).
(** two quasiparticles made of two single orbitals *)
Definition single_subsets : list (list Z) := [[0]; [1]]%Z.
Definition singles (l : list Z) : quasi Qc_field := mkqp (K := Qc_field) 2 2 2 single_subsets (map zq l).
Definition tt_calls (h : list (event arg (qparams Qc_field) (quasi Qc_field -> res (quasi Qc_field)))) : res (list (res (list (Z * positive)))) :=
  do w <- tt_new 4 6; Ok (map show_answer (q_run t_partitions (constructed q_nparams w None true) h)).
(** the coefficients of the three, and the coefficient in their product *)
Definition mixed_coef (l : list Z) (r : nat) (s : list Z) : Qc_field :=
  match subset_index s mixed_subsets with Some i => nth (r * 3 + i)%nat (map zq l) (zq 0) | None => zq 0 end.
Definition mixed_spec (l : list Z) (sd : N) : Z * positive := shown (quasi_product (K := Qc_field) mixed_subsets (map (mixed_coef l) (seq 0 3)) sd).
