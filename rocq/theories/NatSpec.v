(** Specification for C77 *)
From Coq Require Import List ZArith NArith Arith Bool Permutation.
From Verif Require Import Py Slater Alg SolverSpec.
Import ListNotations.
Section S.
Context {K : CField}.
Local Open Scope cr_scope.
(** what is assumed of scipy.linalg.eigh *)
Definition eigh_sym (eigh : nat -> (nat -> nat -> K) -> res (list K * list (list K))) : Prop :=
  forall n m vals vecs, (forall i j, (i < n)%nat -> (j < n)%nat -> m i j = m j i) -> eigh n m = Ok (vals, vecs) -> eigen_system n m vals vecs.
(** what is assumed of numpy.argsort, [le] is the order *)
Definition good_argsort (le : K -> K -> Prop) (argsort : list K -> list nat) : Prop :=
  forall l, Permutation (argsort l) (seq 0 (length l)) /\
    forall i j, (i < j < length l)%nat -> le (nth (nth i (argsort l) 0%nat) l 0) (nth (nth j (argsort l) 0%nat) l 0).
(** orthonormal orbitals that diagonalize the density matrix [g], with occupations that do not increase *)
Record natural_of (le : K -> K -> Prop) (k : nat) (g : nat -> nat -> K) (occ : list K) (orbs : list (list K)) : Prop := {
  no_occ : length occ = k;
  no_orbs : length orbs = k;
  no_len : Forall (fun v => length v = k) orbs;
  no_orth : forall i j, (i < k)%nat -> (j < k)%nat ->
    sumf (fun p => nth p (nth i orbs []) 0 * nth p (nth j orbs []) 0) (seq 0 k) = if Nat.eqb i j then 1 else 0;
  no_diag : forall i j, (i < k)%nat -> (j < k)%nat ->
    sumf (fun p => nth p (nth i orbs []) 0 * sumf (fun q => g p q * nth q (nth j orbs []) 0) (seq 0 k)) (seq 0 k) = if Nat.eqb i j then nth i occ 0 else 0;
  no_sum : forall p q, (p < k)%nat -> (q < k)%nat ->
    g p q = sumf (fun i => nth i occ 0 * (nth p (nth i orbs []) 0 * nth q (nth i orbs []) 0)) (seq 0 k);
  no_sorted : forall i j, (i < j < k)%nat -> le (nth j occ 0) (nth i occ 0) }.
End S.
