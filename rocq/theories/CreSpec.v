(** Specification: wavefunctions as functions from occupation-number states to numbers, creation
    operators acting on them, and products of geminals.  Independent of the model. *)
From Coq Require Import List ZArith NArith Arith Bool.
From Verif Require Import Py BitSpec Fock Alg.
Import ListNotations.

Section Cre.
Context {K : CRing}.
Local Open Scope cr_scope.

(** coefficients of the occupation-number states *)
Definition state := N -> K.
Definition vacuum : state := fun m => if N.eqb m 0 then 1 else 0.
(** creation operator of orbital [i]: the coefficient of m comes from the state without orbital i;
    labels that are not natural numbers create nothing *)
Definition cre (i : Z) (psi : state) : state :=
  fun m => if ((0 <=? i)%Z && bit m (Z.to_nat i))%bool
           then (if par m (Z.to_nat i) then - psi (flip m (Z.to_nat i)) else psi (flip m (Z.to_nat i)))
           else 0.
(** geminal creation operator: sum of c(i,j) a+_i a+_j over the given pairs *)
Definition geminal (pairs : list (Z * Z)) (c : Z * Z -> K) (psi : state) : state :=
  fun m => sumf (fun p => c p * cre (fst p) (cre (snd p) psi) m) pairs.
(** product of geminal creation operators acting on the vacuum *)
Definition gem_product (pairs : list (Z * Z)) (cs : list (Z * Z -> K)) : state :=
  fold_right (geminal pairs) vacuum cs.
End Cre.
Arguments state : clear implicits.
