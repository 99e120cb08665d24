(** Specification for C63 *)
From Coq Require Import List ZArith NArith Arith Bool.
From Verif Require Import Py BitSpec Fock Alg Composite OrbSpec Jacobi.
Import ListNotations.
(** the pairs of orbitals that can be rotated *)
Definition rotatable (nspin : Z) (t : orbtype) (i j : Z) : Prop :=
  (0 <= i)%Z /\ (0 <= j)%Z /\ i <> j /\
  match t with
  | Generalized => (i < nspin)%Z /\ (j < nspin)%Z
  | Restricted => (i < nspin / 2)%Z /\ (j < nspin / 2)%Z
  | Unrestricted => ((i < nspin / 2)%Z /\ (j < nspin / 2)%Z) \/ ((nspin / 2 <= i)%Z /\ (nspin / 2 <= j)%Z)
  end.
(** determinants over the first [m] orbitals *)
Definition within (m : nat) (sd : N) : Prop := forall i, bit sd i = true -> i < m.
(** numbers of alpha and of beta electrons among [m] orbitals, [k] of them alpha *)
Definition alphas (k : nat) (sd : N) : nat := nbelow sd k.
Definition betas (k m : nat) (sd : N) : nat := nbelow sd m - nbelow sd k.
(** the number of spatial orbitals with one electron *)
Definition unpaired (k : nat) (sd : N) : nat := length (filter (fun i => xorb (bit sd i) (bit sd (i + k))) (seq 0 k)).
Section S.
Context {K : CRing}.
Local Open Scope cr_scope.
(** the determinant with rotated orbitals, both spins if the orbitals are restricted *)
Definition rotated_sd (t : orbtype) (ns p q : nat) (c s : K) (sd : N) : state K :=
  match t with
  | Restricted => rotated (p + ns) (q + ns) c s (rotated p q c s [(1, sd)])
  | _ => rotated p q c s [(1, sd)]
  end.
(** the transformation of the spin orbitals that a tuple of matrices stands for *)
Definition spin_matrix (t : orbtype) (ns nc : nat) (ms : list (nat -> nat -> K)) : nat -> nat -> K :=
  match t, ms with
  | Generalized, [m] => m
  | Restricted, [m] => blocks ns nc m m
  | Unrestricted, [a; b] => blocks ns nc a b
  | _, _ => fun _ _ => 0
  end.
(** the overlap that the documentation of the class gives *)
Definition documented (p q : nat) (c s : K) (f : N -> K) (sd : N) : K :=
  match bit sd p, bit sd q with
  | true, false => f sd * (c + s)
  | false, true => f sd * (c - s)
  | _, _ => f sd
  end.
(** the wavefunction as a component of another one *)
Definition as_comp (cos sin : K -> K) (i : nat) (memory : Z) (w : jac K) : comp K :=
  mkcomp i (j_nelec w) (j_nspin w) memory [j_angle w]
    (fun ps sd => j_overlap cos sin (mkjac (j_nelec w) (j_nspin w) (j_wfn w) (hd 0 ps) (j_orb w) (j_p w) (j_q w)) sd)
    (fun ps sd d => j_overlap_deriv cos sin (mkjac (j_nelec w) (j_nspin w) (j_wfn w) (hd 0 ps) (j_orb w) (j_p w) (j_q w)) sd TSelf d)
    None.
End S.
