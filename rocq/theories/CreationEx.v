(** Concrete wavefunctions for the examples of C66, with rational parameters *)
From Coq Require Import List ZArith NArith QArith Qcanon.
From Verif Require Import Py Alg Creation CreationSpec Rank2Ex.
Import ListNotations.
Definition cr_new (nelec nspin : Z) (o : option (list (Z * Z))) (l : list Z) : res (creation Qc_field) := new_creation nelec nspin o (Some (map zq l)).
Definition cr_val (nelec nspin : Z) (o : option (list (Z * Z))) (l : list Z) (sd : N) : res (Z * positive) :=
  do w <- cr_new nelec nspin o l; show_res (cr_overlap w sd).
Definition cr_grad (nelec nspin : Z) (o : option (list (Z * Z))) (l : list Z) (sd : N) (ds : list Z) : res (list (Z * positive)) :=
  do w <- cr_new nelec nspin o l; show_list (cr_overlap_deriv w sd ds).
(** the amplitudes c_ij = 10 i + j of two electron pairs, and the two entries of the reference *)
Definition cr_amps (nspin : nat) : list Z := flat_map (fun i => map (fun j => Z.of_nat (10 * i + j)) (seq (S i) (nspin - S i))) (seq 0 nspin).
