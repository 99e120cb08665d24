(** The example system with real and with rational parameters. *)
From Coq Require Import List ZArith NArith Arith Bool QArith Qcanon Reals.
From Verif Require Import Py Slater Alg ParamSel EqnBase EqnObj EqnEx EqnReal EqnNorm.
From Coq Require Import List.
Import ListNotations.
Definition rworld := ex_world (K := R_field).
(** with the normalization of a geminal wavefunction with one electron pair *)
Definition gem_obj : obj R_field := mkobj ex_sys ex_sel keep (fun _ => true) (gem_normalize ex_sys 1).
Definition qf (n : Z) (d : positive) : Qc_field := Q2Qc (n # d).
Definition qw := ex_world (K := Qc_field) (qf 2 1) (qf 1 1) (qf 5 1) (qf 0 1).
(** the values as pairs of integers *)
Definition ql (a : res (list Qc_field)) : list (Z * positive) :=
  match a with Ok l => map (fun x => (Qnum (this x), Qden (this x))) l | Err _ => [] end.
Definition qm (a : res (list (list Qc_field))) : list (list (Z * positive)) :=
  match a with Ok l => map (fun r => ql (Ok r)) l | Err _ => [] end.
