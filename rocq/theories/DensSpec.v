(** Specification: reduced density matrices of a CI vector given as a list of coefficients and
    determinants. *)
From Coq Require Import List ZArith NArith Arith.
From Verif Require Import Py Alg BitSpec Fock.
Import ListNotations.

Section DensSpec.
Context {K : CRing}.
Local Open Scope cr_scope.
(** <Psi| O |Psi> = sum_ab c_a c_b <a| O |b>, operators in [os] acting from the head on *)
Definition expect (psi : list (K * N)) (os : list op) : K :=
  sumf (fun a => sumf (fun b => fst a * fst b * sgnr (melem (snd a) os (snd b))) psi) psi.
(** <Psi| a+_p a_q |Psi> *)
Definition rdm1 (psi : list (K * N)) (p q : nat) : K := expect psi [Ann q; Cre p].
(** <Psi| a+_p a+_q a_s a_r |Psi> *)
Definition rdm2 (psi : list (K * N)) (p q r s : nat) : K := expect psi [Ann r; Ann s; Cre q; Cre p].
End DensSpec.
