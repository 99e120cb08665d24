(** Specification: matrix elements of a second-quantised Hamiltonian between determinants. *)
From Coq Require Import List ZArith NArith Arith.
From Verif Require Import Py Alg BitSpec Fock.
Import ListNotations.

Section HamSpec.
Context {K : CRing}.
Local Open Scope cr_scope.
(** <m| sum_ij h_ij a+_i a_j |n> over [k] orbitals *)
Definition one_body (k : nat) (one : nat -> nat -> K) (m n : N) : K :=
  sumf (fun i => sumf (fun j => one i j * sgnr (melem m [Ann j; Cre i] n)) (seq 0 k)) (seq 0 k).
(** <m| sum_ijkl g_ijkl a+_i a+_j a_l a_k |n>, without the factor 1/2 *)
Definition two_body (k : nat) (two : nat -> nat -> nat -> nat -> K) (m n : N) : K :=
  sumf (fun i => sumf (fun j => sumf (fun p => sumf (fun q =>
    two i j p q * sgnr (melem m [Ann p; Ann q; Cre j; Cre i] n))
    (seq 0 k)) (seq 0 k)) (seq 0 k)) (seq 0 k).
(** exchanging the two electrons *)
Definition two_sym (two : nat -> nat -> nat -> nat -> K) : Prop :=
  forall i j k l, two i j k l = two j i l k.
End HamSpec.

(** <m| sum_ij h_ij a+_i a_j + 1/2 sum_ijkl g_ijkl a+_i a+_j a_l a_k |n> *)
Definition ham_elem {K : CField} (k : nat) (one : nat -> nat -> K) (two : nat -> nat -> nat -> nat -> K)
  (m n : N) : K :=
  radd (one_body k one m n) (rmul (finv (radd rI rI)) (two_body k two m n)).

Section Components.
Context {K : CRing}.
Definition comp1 (t : K * K * K) : K := fst (fst t).
Definition comp2 (t : K * K * K) : K := snd (fst t).
Definition comp3 (t : K * K * K) : K := snd t.
(** value of a result, 0 for an exception *)
Definition value3 (r : Py.res (K * K * K)) : K * K * K :=
  match r with Py.Ok t => t | Py.Err _ => (rO, rO, rO) end.
End Components.
