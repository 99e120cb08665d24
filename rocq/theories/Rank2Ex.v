(** Concrete wavefunctions for the examples of C65, with rational parameters *)
From Coq Require Import List ZArith NArith QArith Qcanon.
From Verif Require Import Py Alg WfnCI Geminal GemSpec Cache WfnCached Rank2 Rank2Spec.
Import ListNotations.
Definition q_ (n : Z) (d : positive) : Qc_field := Q2Qc (n # d).
Definition zq (z : Z) : Qc_field := q_ z 1.
(** |x| < 10^-9 *)
Definition r2_small (x : Qc_field) : bool := (1000000000 * Z.abs (Qnum (this x)) <? Zpos (Qden (this x)))%Z.
Definition no_lstsq (A : list (list Qc_field)) (b : list Qc_field) : list Qc_field := [].
Definition never (x : Qc_field) (n : nat) : bool := false.
Definition shown (x : Qc_field) : Z * positive := (Qnum (this x), Qden (this x)).
Definition show_res (r : res Qc_field) : res (Z * positive) := do x <- r; Ok (shown x).
Definition show_list (r : res (list Qc_field)) : res (list (Z * positive)) := do x <- r; Ok (map shown x).
Definition r2_new (nelec nspin : Z) (ngem : option Z) (l : list Z) : res (gem Qc_field) :=
  new_r2 r2_small no_lstsq never nelec nspin ngem None (RArray (map zq l)).
Definition r2_olp (nelec nspin : Z) (ngem : option Z) (l : list Z) (sd : N) : res (Z * positive) :=
  do w <- r2_new nelec nspin ngem l; show_res (r2_overlap w sd).
Definition r2_grad (nelec nspin : Z) (ngem : option Z) (l : list Z) (sd : N) (ds : list Z) : res (list (Z * positive)) :=
  do w <- r2_new nelec nspin ngem l; show_list (r2_overlap_deriv w sd ds).
(** the overlap of the APIG wavefunction with the full matrix *)
Definition r2_apig (nelec nspin : Z) (ngem : option Z) (l : list Z) (sd : N) : res (Z * positive) :=
  do w <- r2_new nelec nspin ngem l; do m <- r2_fullrank w;
  do g <- new_gem GAPIG nelec nspin ngem None (PArray (concat m)); show_res (gem_overlap g sd).
Definition r2_mat (nelec nspin : Z) (ngem : option Z) (l : list Z) : res (list (list (Z * positive))) :=
  do w <- r2_new nelec nspin ngem l; do m <- r2_fullrank w; Ok (map (map shown) m).
Definition show_answer (a : answer (ovalue Qc_field)) : res (list (Z * positive)) :=
  match a with AGet (Ok (Scalar x)) => Ok [shown x] | AGet (Ok (Array l)) => Ok (map shown l) | AGet (Err e) => Err e | ADone => Ok [] | ARaise e => Err e end.
Definition r2_calls (nelec nspin : Z) (ngem : option Z) (l : list Z) (h : list r2_event) : res (list (res (list (Z * positive)))) :=
  do w <- r2_new nelec nspin ngem l;
  Ok (map show_answer (r2_run r2_small no_lstsq never (constructed gem_nparams w None true) h)).
Definition ex2 : list Z := [2; 5; -1; -3; 1; 1; 2; 3]%Z.      (* two geminals, three pairs *)
Definition ex3 : list Z := [1; 2; 4; 0; -1; 1; 1]%Z.         (* three geminals, two pairs *)
(** the wavefunction with three geminals *)
Definition w3 : gem Qc_field := mkgem GAPIG 4 4 3 [(0, 2); (1, 3)]%Z (map zq ex3).
