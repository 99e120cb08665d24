(** Specification for C76 *)
From Coq Require Import List ZArith NArith Arith.
From Verif Require Import Py Slater BitSpec SdSpec Alg ParamSel EqnBase HamGen HamSpec Pspace.
Import ListNotations.
(** a determinant with the electrons of the wavefunction in its spin orbitals *)
Definition valid_sd (w : winfo) (m : N) : Prop := has_electrons m (Z.to_nat (wi_nelec w)) /\ fits m (Z.to_nat (wi_nspin w)).
(** a possible number of electrons and orbitals; spin and seniority do not contradict each other *)
Definition proper (w : winfo) : Prop := (0 < wi_nelec w <= wi_nspin w)%Z /\ Z.Even (wi_nspin w) /\
  forall s v, wi_spin2 w = Some s -> wi_sen w = Some v -> (Z.abs s <= v)%Z.
(** a determinant of the kind that the wavefunction is said to consist of *)
Definition own_sd (w : winfo) (m : N) : Prop := valid_sd w m /\ wanted m (Z.to_nat (wi_nspin w) / 2) (wi_spin2 w) (wi_sen w).
Section S.
Context {K : CField}.
Local Open Scope cr_scope.
(** <f|H|f> / <f|f>, with sums over all determinants of [n] spin orbitals *)
Definition expectation (n : nat) (H : N -> N -> K) (f : N -> K) (E : K) : Prop := exists all, NoDup all /\ (forall m, In m all <-> fits m n) /\
  E = sumf (fun a => f a * sumf (fun b => H a b * f b) all) all * finv (sumf (fun a => f a * f a) all).
(** the methods of the wavefunction and of the Hamiltonian return the overlaps [f], the elements [H] and the projections of H|f> *)
Definition computes (y : sys K) (W : world K) (n : nat) (H : N -> N -> K) (f : N -> K) : Prop :=
  (forall m, fits m n -> y_ov y W m = Ok (f m)) /\
  (forall a b, fits a n -> fits b n -> a <> 0%N -> y_ss y W a b = Ok (H a b)) /\
  (forall a, fits a n -> a <> 0%N -> exists v, y_int y W a = Ok v /\ sum_over (fun b => fits b n) (fun b => H a b * f b) v).
(** as in generalized_chemical.py *)
Definition generalized (h : gham K) (y : sys K) (W : world K) (f : N -> K) : Prop :=
  (forall m, y_ov y W m = Ok (f m)) /\ (forall a b, y_ss y W a b = integrate_sd_sd h a b) /\ (forall a, y_int y W a = integrate_sd_wfn h a f).
End S.
