(** Specification: the first order change of the integrals when the orbitals x and y are rotated into each other,
    |x> -> |x> - e |y>, |y> -> |y> + e |x>. *)
From Coq Require Import List ZArith NArith Arith Bool.
From Verif Require Import Py Alg.
Import ListNotations.

Section DerivSpec.
Context {K : CRing}.
Local Open Scope cr_scope.
(** one index of an array *)
Definition dl (x y : nat) (f : nat -> K) (p : nat) : K :=
  (if Nat.eqb p y then f x else 0) - (if Nat.eqb p x then f y else 0).
Definition d1 (x y : nat) (h : nat -> nat -> K) (p q : nat) : K :=
  dl x y (fun i => h i q) p + dl x y (fun i => h p i) q.
(** only the indices of the first electron / of the second electron *)
Definition d2a (x y : nat) (g : nat -> nat -> nat -> nat -> K) (p q r s : nat) : K :=
  dl x y (fun i => g i q r s) p + dl x y (fun i => g p q i s) r.
Definition d2b (x y : nat) (g : nat -> nat -> nat -> nat -> K) (p q r s : nat) : K :=
  dl x y (fun i => g p i r s) q + dl x y (fun i => g p q r i) s.
Definition d2 (x y : nat) (g : nat -> nat -> nat -> nat -> K) (p q r s : nat) : K :=
  d2a x y g p q r s + d2b x y g p q r s.
(** real symmetric integrals *)
Definition herm1 (h : nat -> nat -> K) : Prop := forall i j, h i j = h j i.
Definition herm2 (g : nat -> nat -> nat -> nat -> K) : Prop := forall i j k l, g i j k l = g k l i j.
(** the antisymmetric matrix with 1 at (x, y), -1 at (y, x) *)
Definition gen_xy (x y : nat) (i j : nat) : K :=
  (if (Nat.eqb i x && Nat.eqb j y)%bool then 1 else 0) - (if (Nat.eqb i y && Nat.eqb j x)%bool then 1 else 0).
End DerivSpec.

(** F is a polynomial, of value a and derivative v at 0 *)
Section Tangent.
Context {K : CRing}.
Local Open Scope cr_scope.
Fixpoint horner (cs : list K) (e : K) : K := match cs with [] => 0 | c :: cs => c + e * horner cs e end.
Definition tangent (F : K -> K) (a v : K) : Prop := exists cs, forall e, F e = a + e * (v + e * horner cs e).
(** a path of n by n matrices that starts at the identity in the direction of the generator *)
Definition rotates (n x y : nat) (U : K -> nat -> nat -> K) : Prop :=
  forall i j, (i < n)%nat -> (j < n)%nat -> tangent (fun e => U e i j) (if Nat.eqb i j then 1 else 0) (gen_xy x y i j).
Definition stays (n : nat) (U : K -> nat -> nat -> K) : Prop := forall e i j, (i < n)%nat -> (j < n)%nat -> U e i j = (if Nat.eqb i j then 1 else 0).
End Tangent.
