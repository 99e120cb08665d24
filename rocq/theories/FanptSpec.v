(** Specifications for the perturbation theory of fanpy/fanpt: polynomials in the step of lambda, overlaps that are
    polynomials of the parameters, the Hamiltonian between the ideal and the real one. *)
From Coq Require Import List ZArith Arith Bool Lia.
From Verif Require Import Py Slater Alg Fanci Fanpt.
Import ListNotations.
Local Open Scope nat_scope.

Section Spec.
Context {F : CField}.
Local Notation K := (fring F).
Local Open Scope cr_scope.
(** value at [t] of the polynomial with the coefficients [p], lowest first *)
Definition peval (p : list K) (t : K) : K := fold_right (fun a s => a + t * s) 0 p.
(** [f t] is a multiple of [t^m], with a polynomial quotient *)
Definition vanishes (m : nat) (f : K -> K) : Prop := exists p, forall t, f t = fpow t m * peval p t.
(** [f t] is [a t^m] up to a multiple of [t^(m+1)] *)
Definition leads (m : nat) (a : K) (f : K -> K) : Prop := exists p, forall t, f t = fpow t m * (a + t * peval p t).

Definition half : K := finv (1 + 1).
(** the overlaps are polynomials of degree two of the wavefunction parameters around [ps], with the given first and
    second derivatives *)
Definition quadratic_overlaps (o : fobj K) (ps : list K) (dd : nat -> nat -> nat -> K) : Prop :=
  forall qs j, length qs = length ps -> (j < fo_ns o)%nat ->
  let df := fun k => nth k qs 0 - nth k ps 0 in
  fo_ovlp o qs j = fo_ovlp o ps j + sumf (fun k => fo_dovlp o ps j k * df k) (seq 0 (length ps))
    + half * sumf (fun k => sumf (fun l => dd j k l * df k * df l) (seq 0 (length ps))) (seq 0 (length ps)).
(** wavefunctions that are linear in their parameters, as the CI wavefunctions *)
Definition linear_overlaps (o : fobj K) (ps : list K) : Prop :=
  forall qs j, length qs = length ps -> (j < fo_ns o)%nat ->
  fo_ovlp o qs j = fo_ovlp o ps j + sumf (fun k => fo_dovlp o ps j k * (nth k qs 0 - nth k ps 0)) (seq 0 (length ps)).
(** pyci.sparse_op is linear in the Hamiltonian *)
Definition linear_op (sop : pham F -> nat -> nat -> K) : Prop :=
  forall h1 h0 a1 a0 n j, sop (linear_comb_ham h1 h0 a1 a0) n j = a1 * sop h1 n j + a0 * sop h0 n j.
(** the objective of the container has the Hamiltonian of the container, and its parameters solve the equations of the
    projections *)
Definition at_lambda (q : cont F) : Prop := forall n j, (n < q_nproj q)%nat -> (j < q_ns q)%nat -> fo_ci (q_o q) n j = q_ham q n j.
Definition solved (q : cont F) : Prop := forall n, (n < q_nproj q)%nat -> nth n (compute_objective (q_o q) (q_x q)) 0 = 0.
(** the linear equations of every order up to [m] are solved exactly *)
Definition exact_orders lstsq (q : cont F) (three : bool) (m : nat) : Prop :=
  forall o, (1 <= o <= m)%nat -> forall n, (n < q_nequation q)%nat ->
  sumf (fun p => q_cmat q n p * rsp (responses lstsq q three m) o p) (seq 0 (q_nactive q)) = gen_const q three o (responses lstsq q three (o - 1)) n.
(** the equation of projection [n] for the Hamiltonian at [fl], the parameters [ps] and the energy [e] *)
Definition equation (sop : pham F -> nat -> nat -> K) (q : cont F) (fl : K) (ps : list K) (e : K) (n : nat) : K :=
  sumf (fun j => sop (linear_comb_ham (q_h1 q) (q_h0 q) fl (1 - fl)) n j * fo_ovlp (q_o q) ps j) (seq 0 (q_ns q)) - e * fo_ovlp (q_o q) ps n.
Definition char0 : Prop := forall k, nat_r (K := K) (S k) <> 0.
(** the parameters and energies returned by the updater for any final lambda: the equation of projection [n] for the
    Hamiltonian of that lambda is the power [m] of the step times a polynomial of it (with the constant term [a]) *)
Definition residual_order sop lstsq inv lt le (q : cont F) (order : Z) (three : bool) (n m : nat) : Prop :=
  exists p, forall fl given resum u, new_updater sop lstsq inv lt le q order fl given resum three = Ok u ->
  exists e, u_fanpt_e u = Some e /\ equation sop q fl (u_params u) e n = fpow (fl - q_l q) m * peval p (fl - q_l q).
Definition residual_leads sop lstsq inv lt le (q : cont F) (order : Z) (three : bool) (n m : nat) (a : K) : Prop :=
  exists p, forall fl given resum u, new_updater sop lstsq inv lt le q order fl given resum three = Ok u ->
  exists e, u_fanpt_e u = Some e /\ equation sop q fl (u_params u) e n = fpow (fl - q_l q) m * (a + (fl - q_l q) * peval p (fl - q_l q)).
(** a container for the energy as a parameter, at a solution, with exactly solved linear equations *)
Definition settled lstsq (q : cont F) (three : bool) (m : nat) : Prop :=
  q_free q = false /\ q_eact q = true /\ length (q_x q) = fo_nparam (q_o q) /\ (q_nproj q <= q_ns q)%nat /\
  at_lambda q /\ solved q /\ exact_orders lstsq q three m.
(** second derivatives of the overlap with determinant [j] along two vectors of changes of the active parameters *)
Definition along (q : cont F) (dd : nat -> nat -> nat -> K) (j : nat) (u v : nat -> K) : K :=
  sumf (fun k => sumf (fun l => dd j (nth k (fo_act (q_o q)) 0%nat) (nth l (fo_act (q_o q)) 0%nat) * u k * v l) (seq 0 (length (fo_act (q_o q))))) (seq 0 (length (fo_act (q_o q)))).
(** the first and second responses, as solutions of the linear equations of the container *)
Definition first_response lstsq (q : cont F) (three : bool) : nat -> K := rsp (responses lstsq q three 1) 1.
Definition second_response lstsq (q : cont F) (three : bool) : nat -> K := rsp (responses lstsq q three 2) 2.
End Spec.
