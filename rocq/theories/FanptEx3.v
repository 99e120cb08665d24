(** Systems for the examples about the energy-free equations, the resummation and the driver of the perturbation theory. *)
From Coq Require Import List ZArith NArith Arith Bool QArith Qcanon.
From Verif Require Import Py Slater Alg Fanci Fanpt SolverEx FanptEx.
Import ListNotations.
Local Open Scope nat_scope.

(** a matrix of one-electron integrals and a coupling by a two-electron integral that the ideal Hamiltonian drops *)
Definition ex_sop2 (h : pham Qc_field) (n j : nat) : Qc_field := if Nat.eqb n j then h_one h n j else h_two h 0 0 1 2.
Definition ex_full : pham Qc_field := mkpham (F := Qc_field) 0%Qc (mat2 0 0 0 1) (fun _ _ _ _ => 1%Qc).
(** overlaps 1 and p; [np] projections *)
Definition ex_obj (np : nat) (ci : nat -> nat -> Qc_field) (mask : list bool) : fobj Qc_field := mkfobj (K := Qc_field) np 2 ci
  (fun ps j => let p := nth 0 ps 0%Qc in match j with 0 => 1%Qc | 1 => p | _ => 0%Qc end)
  (fun ps j k => match j with 1 => 1%Qc | _ => 0%Qc end)
  (Some (fun ps j k l => 0%Qc)) mask [].
Definition ex_mk (h : pham Qc_field) (mask : list bool) : fobj Qc_field := ex_obj 2 (ex_sop2 h) mask.
(** an optimizer that returns where it starts *)
Definition ex_opt (o : fobj Qc_field) (x : list Qc_field) : list Qc_field := get_mask (fo_mask o) x.
Definition ex_half : Qc_field := (1 / (1 + 1))%Qc.
(** Hamiltonians with a coupling at the start *)
Definition ex_g0 : pham Qc_field := ex_ham 0 1 1 0.
Definition ex_g1 : pham Qc_field := ex_ham 0 1 1 1.
Definition ex_g2 : pham Qc_field := ex_ham 1 2 2 0.
(** numpy.linalg.lstsq with one column of which the first row is zero *)
Definition ex_lstsq1 (nr nc : nat) (m : nat -> nat -> Qc_field) (b : nat -> Qc_field) (p : nat) : Qc_field := (b 1%nat / m 1%nat 0%nat)%Qc.
(** numpy.linalg.lstsq of one equation *)
Definition ex_lstsq0 (nr nc : nat) (m : nat -> nat -> Qc_field) (b : nat -> Qc_field) (p : nat) : Qc_field := (b 0%nat / m 0%nat 0%nat)%Qc.
Definition ex_x1 : list Qc_field := [1%Qc; 1%Qc].
(** two determinants with overlaps 1 and p; at lambda 0 the parameter 1 and the energy 1 are a solution *)
Definition ex_fq : res (cont Qc_field) := new_cont ex_sop true (ex_obj 2 (ex_sop ex_g0) [true; false]) 1 ex_x1 ex_g0 ex_g1 0%Qc 0 false false.
