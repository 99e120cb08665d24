(** Specification for C79 *)
From Coq Require Import List ZArith NArith Arith Bool.
From Verif Require Import Py Slater Alg MathTools.
Section S.
Context {K : CField}.
Local Open Scope cr_scope.
(** the matrix without row [i] and column [j] *)
Definition skip (i r : nat) : nat := if Nat.ltb r i then r else S r.
Definition minor (m : nat -> nat -> K) (i j : nat) : nat -> nat -> K := fun r c => m (skip i r) (skip j c).
(** (-1)^(i+j) times the determinant of that matrix *)
Definition cofactor (n : nat) (m : nat -> nat -> K) (i j : nat) : K := m1pow (i + j) * det (n - 1) (minor m i j).
Definition mat_mul (n : nat) (a b : nat -> nat -> K) (i j : nat) : K := sumf (fun k => a i k * b k j) (seq 0 n).
Definition unit_mat (i j : nat) : K := if Nat.eqb i j then 1 else 0.
(** what is assumed of numpy.linalg.inv *)
Definition good_inv (inv : nat -> (nat -> nat -> K) -> res (nat -> nat -> K)) : Prop :=
  forall n m, det n m <> 0 -> exists x, inv n m = Ok x /\ forall i j, (i < n)%nat -> (j < n)%nat -> mat_mul n m x i j = unit_mat i j.
End S.
