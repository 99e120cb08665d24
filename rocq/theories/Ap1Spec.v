(** Specification for AP1roG *)
From Coq Require Import List ZArith NArith Arith Bool.
From Verif Require Import Py Alg BitSpec WfnCI Geminal AP1roG CreSpec GemSpec.
Import ListNotations.

(** every spatial orbital is doubly occupied or empty *)
Definition closed_shell (k : nat) (m : N) : Prop := forall i, alpha_at m k i = beta_at m k i.
(** the spatial orbitals below k as pairs of an alpha and a beta orbital *)
Definition is_diag (k : nat) (p : Z * Z) : Prop := exists i, (i < k)%nat /\ p = (Z.of_nat i, Z.of_nat (i + k)).
Section Spec.
Context {K : CField}.
Local Open Scope cr_scope.
(** coefficient matrix with the identity in the columns of the reference pairs *)
Definition ap1_coefficients (w : ap1 K) (C : nat -> Z * Z -> K) : Prop :=
  forall r, (r < gm_ngem (a1_gem w))%nat ->
    (forall i p, nth_error (a1_refpairs w) i = Some p -> C r p = if Nat.eqb r i then 1 else 0) /\
    (forall i p, nth_error (gm_pairs (a1_gem w)) i = Some p ->
       C r p = nth (r * length (gm_pairs (a1_gem w)) + i)%nat (a1_params w) 0).
Definition a1_with_entry (w : ap1 K) (k : nat) (v : K) : ap1 K :=
  mkap1 (with_entry (a1_gem w) k v) (a1_ref w) (a1_refpairs w).
(** the sign of a+_1 a+_1bar ... a+_h a+_hbar relative to a+_1 ... a+_h a+_1bar ... a+_hbar *)
Definition interleave_sign (h : nat) : K := if Nat.odd (h * (h - 1) / 2) then ropp 1 else 1.
End Spec.
