(** Specifications for the energy-free equations, the resummation and the driver of the perturbation theory. *)
From Coq Require Import List ZArith Arith Bool.
From Verif Require Import Py Slater Alg Fanci Fanpt.
Import ListNotations.
Local Open Scope nat_scope.

Section Spec.
Context {F : CField}.
Local Notation K := (fring F).
Local Open Scope cr_scope.
(** <n|H(lam)|Psi> *)
Definition braket (sop : pham F -> nat -> nat -> K) (o : fobj K) (h0 h1 : pham F) (lam : K) (ps : list K) (n : nat) : K :=
  sumf (fun j => sop (linear_comb_ham h1 h0 lam (1 - lam)) n j * fo_ovlp o ps j) (seq 0 (fo_ns o)).
(** the equation of projection [n] with the energy from the reference determinant; [inorm]: its overlap is taken as one *)
Definition free_equation (sop : pham F -> nat -> nat -> K) (o : fobj K) (h0 h1 : pham F) (ref : nat) (inorm : bool) (lam : K) (ps : list K) (n : nat) : K :=
  let e := if inorm then braket sop o h0 h1 lam ps ref else braket sop o h0 h1 lam ps ref * finv (fo_ovlp o ps ref) in
  braket sop o h0 h1 lam ps n - e * fo_ovlp o ps n.
(** [b] is a right inverse of the n by n matrix [a] *)
Definition right_inverse (n : nat) (a b : nat -> nat -> K) : Prop :=
  forall i j, (i < n)%nat -> (j < n)%nat -> sumf (fun k => a i k * b k j) (seq 0 n) = if Nat.eqb i j then 1 else 0.
(** an interface makes objectives with the operator of the given Hamiltonian *)
Definition makes (sop : pham F -> nat -> nat -> K) (mk : pham F -> list bool -> fobj K) : Prop :=
  forall h m n j, fo_ci (mk h m) n j = sop h n j.
(** two integral functions with the same values *)
Definition same_ham (a b : pham F) : Prop :=
  h_core a = h_core b /\ (forall i j, h_one a i j = h_one b i j) /\ (forall i j k l, h_two a i j k l = h_two b i j k l).
(** <ij|kl> = <ji|lk>, the symmetry of exchanging the electrons *)
Definition exchange_symmetric (two : nat -> nat -> nat -> nat -> K) : Prop := forall i j k l, two i j k l = two j i l k.
End Spec.
