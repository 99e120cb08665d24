(** Specification of matrix product states: a tensor for every spatial orbital, the parameters as the list of all
    their entries, the overlap as a sum over all bond indices. *)
From Coq Require Import List ZArith NArith Arith Bool.
From Verif Require Import Alg.
Import ListNotations.

(** the tensor of orbital [i] has entries (n, r, c) with n < 4, r < nrows, c < ncols *)
Definition nrows (D i : nat) : nat := if Nat.eqb i 0 then 1 else D.
Definition ncols (K D i : nat) : nat := if Nat.eqb (S i) K then 1 else D.
Definition valid_entry (K D i n r c : nat) : Prop := i < K /\ n < 4 /\ r < nrows D i /\ c < ncols K D i.
(** the number of parameters *)
Definition nparams (K D : nat) : nat := 4 * D + (K - 2) * (4 * (D * D)) + 4 * D.
(** the occupation number of an orbital: 0 empty, 1 alpha, 2 beta, 3 both *)
Definition occupation (K : nat) (sd : N) (i : nat) : nat :=
  (if N.testbit sd (N.of_nat i) then 1 else 0) + (if N.testbit sd (N.of_nat (K + i)) then 2 else 0).

Section Spec.
Context {R : CRing}.
Local Open Scope cr_scope.
(** all entries of all tensors, in row-major order *)
Definition flatten (K D : nat) (T : nat -> nat -> nat -> nat -> R) : list R :=
  flat_map (fun i => flat_map (fun n => flat_map (fun r => map (fun c => T i n r c) (seq 0%nat (ncols K D i)))
    (seq 0%nat (nrows D i))) (seq 0%nat 4)) (seq 0%nat K).
(** all lists of [m] bond indices *)
Fixpoint bonds (D m : nat) : list (list nat) :=
  match m with
  | O => [[]]
  | S m => flat_map (fun b => map (cons b) (bonds D m)) (seq 0%nat D)
  end.
(** the product of the entries picked by the occupations and the bonds; the outermost bonds are 0 *)
Definition amplitude (K : nat) (T : nat -> nat -> nat -> nat -> R) (sd : N) (bs : list nat) : R :=
  prodf (fun i => T i (occupation K sd i) (nth i (0%nat :: bs ++ [0%nat]) 0%nat) (nth (S i) (0%nat :: bs ++ [0%nat]) 0%nat))
        (seq 0%nat K).
Definition contraction (K D : nat) (T : nat -> nat -> nat -> nat -> R) (sd : N) : R :=
  sumf (amplitude K T sd) (bonds D (K - 1)).
(** x to the power of k *)
Fixpoint rpow (x : R) (k : nat) : R := match k with O => 1 | S k => x * rpow x k end.
End Spec.
