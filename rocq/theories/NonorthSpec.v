(** Specification for C64 *)
From Coq Require Import List ZArith NArith Arith Bool.
From Verif Require Import Py BitSpec Alg Composite OrbSpec Jacobi JacobiSpec Nonorth.
Import ListNotations.
Section S.
Context {K : CRing}.
Local Open Scope cr_scope.
Definition shaped (r c : Z) (m : matrix K) : Prop := m_rows m = Z.to_nat r /\ m_cols m = Z.to_nat c.
(** matrices from the orbitals of a wavefunction with [ci] spin orbitals to those of one with [co] *)
Definition transforms (t : orbtype) (co ci : Z) (ms : list (matrix K)) : Prop :=
  match t, ms with
  | Generalized, [m] => shaped co ci m
  | Restricted, [m] => shaped (co / 2) (ci / 2) m
  | Unrestricted, [a; b] => shaped (co / 2) (ci / 2) a /\ shaped (co / 2) (ci / 2) b
  | _, _ => False
  end.
(** the wrapped wavefunction has the overlaps [f] with the determinants of [k] electrons in its orbitals *)
Definition overlaps_of (c : comp K) (k : nat) (f : N -> K) : Prop :=
  forall m, within (Z.to_nat (c_nspin c)) m -> has_electrons m k -> get_olp c m = Ok (f m).
(** all the entries of [ms] as functions *)
Definition entries (ms : list (matrix K)) : list (nat -> nat -> K) := map m_at ms.
(** one entry replaced *)
Definition put (m : matrix K) (r c : nat) (x : K) : matrix K :=
  mkmat (m_rows m) (m_cols m) (fun i j => if (Nat.eqb i r && Nat.eqb j c)%bool then x else m_at m i j).
Definition put_at (ms : list (matrix K)) (t r c : nat) (x : K) : list (matrix K) :=
  firstn t ms ++ match nth_error ms t with Some m => [put m r c x] | None => [] end ++ skipn (S t) ms.
(** the number of the parameter in row [r] and column [c] of matrix [t]; the matrices have the same shape *)
Definition number (ms : list (matrix K)) (t r c : nat) : nat :=
  match ms with m :: _ => (t * (m_rows m * m_cols m) + (r * m_cols m + c))%nat | [] => 0%nat end.
(** the cases in which the derivatives are right *)
Definition differentiable (o : orbtype) (ns : nat) (sd : N) (t r : nat) : Prop :=
  match o with
  | Generalized => True
  | Unrestricted => t = 0%nat \/ has_electrons (N.shiftr sd (N.of_nat ns)) 1 \/ bit sd (r + ns)%nat = false
  | Restricted => bit sd (r + ns)%nat = false \/ forall i, bit sd i = true -> i = r \/ i = (r + ns)%nat
  end.
(** the row is that of an orbital of the determinant *)
Definition occupied (o : orbtype) (ns : nat) (sd : N) (t r : nat) : Prop :=
  match o with
  | Generalized => bit sd r = true
  | Unrestricted => bit sd (r + t * ns)%nat = true
  | Restricted => bit sd r = true \/ bit sd (r + ns)%nat = true
  end.
(** matrix product *)
Definition times (a b : matrix K) : matrix K := mkmat (m_rows a) (m_cols b) (fun i j => sumf (fun k => m_at a i k * m_at b k j) (seq 0 (m_cols a))).
(** the wavefunction as a component of another one *)
Definition as_component (i : nat) (memory : Z) (ps : list K) (w : nonorth K) : comp K :=
  mkcomp i (n_nelec w) (n_nspin w) memory ps (fun _ sd => n_overlap w sd) (fun _ sd d => n_overlap_deriv w sd TSelf d) None.
End S.
