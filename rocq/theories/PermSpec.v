(** Specification of the permanent of a rectangular matrix. *)
From Coq Require Import List Arith QArith Qcanon.
From Verif Require Import Py Alg.
Import ListNotations.
Local Open Scope nat_scope.

(** an injection of {0..r-1} into {0..c-1}, as the list of its values *)
Definition injection (r c : nat) (p : list nat) : Prop :=
  length p = r /\ NoDup p /\ forall j, In j p -> j < c.

(** the permanent: the sum over the injections of the shorter side into the longer side *)
Definition is_permanent {K : CRing} (nrow ncol : nat) (m : nat -> nat -> K) (v : K) : Prop :=
  (nrow <= ncol /\
     sum_over (injection nrow ncol) (fun p => prodf (fun i => m i (nth i p 0)) (seq 0 nrow)) v) \/
  (ncol < nrow /\
     sum_over (injection ncol nrow) (fun p => prodf (fun j => m (nth j p 0) j) (seq 0 ncol)) v).

(** equality of rational results (the canonicity proofs inside Qc are not compared) *)
Definition same_q (a b : res Qc_field) : bool :=
  match a, b with Ok x, Ok y => Qeq_bool (this x) (this y) | _, _ => false end.
