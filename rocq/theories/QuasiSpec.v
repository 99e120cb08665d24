(** Specification for C68: operators that are linear combinations of strings of creation operators, and their products
    acting on the vacuum.  Independent of the model. *)
From Coq Require Import List ZArith NArith Arith Bool Permutation.
From Verif Require Import Py BitSpec Fock Alg CreSpec SignSpec MatchSpec.
Import ListNotations.
Section Spec.
Context {K : CRing}.
Local Open Scope cr_scope.
(** sum over the subsets s of c(s) times the product of the creation operators of the orbitals of s *)
Definition quasi_op (subsets : list (list Z)) (c : list Z -> K) (psi : state K) : state K :=
  fun m => sumf (fun s => c s * fold_right cre psi s m) subsets.
Definition quasi_product (subsets : list (list Z)) (cs : list (list Z -> K)) : state K :=
  fold_right (quasi_op subsets) vacuum cs.
(** the coefficient of subset [s] in quasiparticle [r], for a matrix with a column for each subset kept by rows *)
Definition holds_coefficients (num : nat) (subsets : list (list Z)) (params : list K) (C : nat -> list Z -> K) : Prop :=
  forall r i s, (r < num)%nat -> nth_error subsets i = Some s -> C r s = nth (r * length subsets + i)%nat params 0.
End Spec.
(** [L] lists once each way of making the set [occ] up from [h] of the subsets *)
Definition lists_partitions (subsets : list (list Z)) (occ : list Z) (h : nat) (L : list (list (list Z))) : Prop :=
  (forall P, In P L -> incl P subsets /\ Permutation (concat P) occ /\ length P = h) /\
  (forall Q, incl Q subsets -> Permutation (concat Q) occ -> length Q = h -> exists P, In P L /\ Permutation Q P) /\
  pairwise_distinct (@Permutation (list Z)) L.
