(** Specification for C74: an excitation operator guarded by the occupation of the partners (the spin
    orbitals of opposite spin) of the orbitals it empties and fills.  Independent of the model. *)
From Coq Require Import List ZArith NArith Arith Bool.
From Verif Require Import Py Fock Alg CCSpec.
Import ListNotations.

(** the same spatial orbital with the opposite spin, among [ns] spatial orbitals *)
Definition partner (ns z : Z) : Z := if (z <? ns)%Z then (z + ns)%Z else (z - ns)%Z.
(** the occupation number of orbital p: empty it, fill it; and one minus it: fill it, empty it *)
Definition occupied (p : Z) : list op := [Ann (Z.to_nat p); Cre (Z.to_nat p)].
Definition unoccupied (p : Z) : list op := [Cre (Z.to_nat p); Ann (Z.to_nat p)].
Definition guarded (ns : Z) (e : list Z) : list op :=
  flat_map (fun z => occupied (partner ns z)) (firstn (length e / 2) e) ++
  flat_map (fun z => unoccupied (partner ns z)) (skipn (length e / 2) e) ++ excitation e.
(** the determinant has no electron outside the first n spin orbitals *)
Definition within (n : Z) (sd : N) : Prop := forall i, N.testbit sd (N.of_nat i) = true -> (Z.of_nat i < n)%Z.
