(** A system with the constraint on the norm for the examples about the perturbation theory. *)
From Coq Require Import List ZArith NArith Arith Bool QArith Qcanon.
From Verif Require Import Py Slater Alg Fanci Fanpt SolverEx FanptEx.
Import ListNotations.
Local Open Scope nat_scope.
(** overlaps 1 + p and s, two parameters; the first is fixed by the norm at s = 0 *)
Definition ex_norm (cons : list (cname * ccon Qc_field)) : fobj Qc_field := mkfobj (K := Qc_field) 2 2 (mat2 0 0 0 1)
  (fun ps j => match j with 0 => (1 + nth 0 ps 0)%Qc | 1 => nth 1 ps 0%Qc | _ => 0%Qc end)
  (fun ps j k => match j, k with 0, 0 => 1%Qc | 1, 1 => 1%Qc | _, _ => 0%Qc end) None [true; true; true] cons.
Definition ex_x3 : list Qc_field := [0%Qc; 0%Qc; 0%Qc].
(** numpy.linalg.lstsq of the equations of this system: rows (0, 0, -1), (0, 1, 0) and (2 or 1, 0, 0) *)
Definition ex_lstsq3 (nr nc : nat) (m : nat -> nat -> Qc_field) (b : nat -> Qc_field) (p : nat) : Qc_field :=
  match p with 0 => (b 2%nat / m 2%nat 0%nat)%Qc | 1 => (b 1%nat / m 1%nat 1%nat)%Qc | 2 => (b 0%nat / m 0%nat 2%nat)%Qc | _ => 0%Qc end.
