(** Specification for C63 and C64: states as lists of weighted determinants, linear combinations of products of
    creation and annihilation operators acting on them, the rotation of two orbitals as an operator, and the
    determinant made of given orbitals.  Independent of the model. *)
From Coq Require Import List ZArith NArith Arith Bool.
From Verif Require Import Py BitSpec Fock Alg.
Import ListNotations.
Section Orb.
Context {K : CRing}.
Local Open Scope cr_scope.
Definition state := list (K * N).
(** the overlap of a state with a wavefunction that has the overlaps [f] with the determinants *)
Definition through (f : N -> K) (v : state) : K := sumf (fun p => fst p * f (snd p)) v.
(** a product of creation and annihilation operators, the head acting first *)
Definition act (os : list op) (v : state) : state :=
  flat_map (fun p => match applys os (Some (false, snd p)) with
                     | None => []
                     | Some (b, m) => [(sgnr (sgn b) * fst p, m)]
                     end) v.
Definition scaled (c : K) (v : state) : state := map (fun p => (c * fst p, snd p)) v.
(** a linear combination of such products *)
Definition comb (T : list (K * list op)) (v : state) : state := flat_map (fun t => scaled (fst t) (act (snd t) v)) T.

(** E = a+_q a_p - a+_p a_q, and exp(theta E) = 1 + sin(theta) E + (1 - cos(theta)) E^2 *)
Definition rotor (p q : nat) : list (K * list op) := [(1, [Ann p; Cre q]); (- (1), [Ann q; Cre p])].
Definition rotated (p q : nat) (c s : K) (v : state) : state :=
  v ++ scaled s (comb (rotor p q) v) ++ scaled (1 - c) (comb (rotor p q) (comb (rotor p q) v)).

(** the determinant of the orbitals [sum_j C k j phi_j], [k] in [rows], [j] in [cols] *)
Definition det_of (C : nat -> nat -> K) (cols rows : list nat) : state :=
  fold_right (fun k v => comb (map (fun j => (C k j, [Cre j])) cols) v) [(1, 0%N)] rows.
(** the occupied orbitals in increasing order *)
Definition occupies (sd : N) (rows : list nat) : Prop :=
  (forall i, In i rows <-> bit sd i = true) /\ (forall a b, (a < b < length rows)%nat -> (nth a rows 0 < nth b rows 0)%nat).
(** the matrix over the spin orbitals: alpha orbitals (below [ns]) transformed by [a], beta orbitals by [b],
    from [nc] spatial orbitals *)
Definition blocks (ns nc : nat) (a b : nat -> nat -> K) (i j : nat) : K :=
  if Nat.ltb i ns then (if Nat.ltb j nc then a i j else 0)
  else (if Nat.ltb j nc then 0 else b (i - ns)%nat (j - nc)%nat).
End Orb.
Arguments state : clear implicits.
