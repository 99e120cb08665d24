(** Specification: spin orbital integrals of a Hamiltonian given by spatial integrals.

    Spin orbital i of 2k is the alpha orbital i if i < k and the beta orbital i - k otherwise.  A term
    of the Hamiltonian moves an electron from orbital p to orbital i of the same spin. *)
From Coq Require Import List NArith Bool Arith.
From Verif Require Import Alg.

Section SpinSpec.
Context {K : CRing}.
Local Open Scope cr_scope.
Variable k : nat.
Definition up (i : nat) : bool := Nat.ltb i k.
Definition place (i : nat) : nat := if up i then i else (i - k)%nat.
Definition same_spin (i j : nat) : bool := Bool.eqb (up i) (up j).

(** the same spatial integrals for both spins *)
Definition expand1 (one : nat -> nat -> K) (i j : nat) : K :=
  if same_spin i j then one (place i) (place j) else 0.
Definition expand2 (two : nat -> nat -> nat -> nat -> K) (i j p q : nat) : K :=
  if (same_spin i p && same_spin j q)%bool then two (place i) (place j) (place p) (place q) else 0.

(** separate integrals: [a], [b] one-electron; [aa], [bb] between electrons of the same spin; [ab] of the
    first electron alpha, the second beta *)
Definition uexpand1 (a b : nat -> nat -> K) (i j : nat) : K :=
  if same_spin i j then (if up i then a (place i) (place j) else b (place i) (place j)) else 0.
Definition uexpand2 (aa ab bb : nat -> nat -> nat -> nat -> K) (i j p q : nat) : K :=
  if (same_spin i p && same_spin j q)%bool then
    match up i, up j with
    | true, true => aa (place i) (place j) (place p) (place q)
    | true, false => ab (place i) (place j) (place p) (place q)
    | false, true => ab (place j) (place i) (place q) (place p)
    | false, false => bb (place i) (place j) (place p) (place q)
    end
  else 0.
End SpinSpec.

From Verif Require Import BitSpec.
(** every orbital is doubly occupied or empty, and nothing lies outside of 2k orbitals *)
Definition paired (k : nat) (m : N) : Prop := forall i, (Nat.ltb i k && bit m i)%bool = bit m (i + k).
