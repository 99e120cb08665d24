(** Specification for C67: matrices kept one after the other in an array, products over the matrices of a mask, and
    the overlap of a determinant of orbitals.  Independent of the model. *)
From Coq Require Import List ZArith NArith Arith Bool.
From Verif Require Import Py BitSpec Fock Alg OrbSpec.
Import ListNotations.
Section Spec.
Context {K : CRing}.
Local Open Scope cr_scope.
(** entry (r, c) of the i-th of the matrices with [n] rows and [m] columns *)
Definition entry_at (n m : nat) (l : list K) (i r c : nat) : K := nth (i * (n * m) + r * m + c)%nat l 0.
(** the overlap of [sd] with the determinant of the orbitals in the [n] rows of [C], given in [m] spin orbitals *)
Definition slater_overlap (n m : nat) (C : nat -> nat -> K) (sd : N) : K :=
  through (fun x => if N.eqb x sd then 1 else 0) (det_of C (seq 0 m) (seq 0 n)).
(** the product over the matrices whose entry in the mask is [b] *)
Definition product_over (mask : list bool) (b : bool) (f : nat -> K) : K :=
  prodf f (filter (fun i => Bool.eqb (nth i mask false) b) (seq 0 (length mask))).
End Spec.
