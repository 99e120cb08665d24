(** Specification of the solvers. *)
From Coq Require Import List ZArith NArith Arith Bool.
From Verif Require Import Py Slater Alg WfnCI ParamSel EqnBase EqnSpec EqnObj ProjSpec Solver.
Import ListNotations.

Section CI.
Context {K : CField}.
Local Open Scope cr_scope.
Definition inner (a b : list K) : K := sumf (fun xy => fst xy * snd xy) (combine a b).
(** the symmetric matrix of which only the upper triangle is given *)
Definition sym_of (m : nat -> nat -> K) (i j : nat) : K := if Nat.leb i j then m i j else m j i.
(** eigenvalues and a complete set of orthonormal eigenvectors of a matrix *)
Record eigen_system (n : nat) (m : nat -> nat -> K) (vals : list K) (vecs : list (list K)) : Prop := {
  es_vals : length vals = n;
  es_vecs : length vecs = n;
  es_len : Forall (fun v => length v = n) vecs;
  es_eq : forall k i, (k < n)%nat -> (i < n)%nat ->
    sumf (fun j => m i j * nth j (nth k vecs []) 0) (seq 0 n) = nth k vals 0 * nth i (nth k vecs []) 0;
  es_orth : forall k l, (k < n)%nat -> (l < n)%nat -> inner (nth k vecs []) (nth l vecs []) = if Nat.eqb k l then 1 else 0;
  es_compl : forall i j, (i < n)%nat -> (j < n)%nat ->
    sumf (fun v => nth i v 0 * nth j v 0) vecs = if Nat.eqb i j then 1 else 0 }.
(** what is assumed of scipy.linalg.eigh with lower=False *)
Definition good_eigh (eigh : nat -> (nat -> nat -> K) -> res (list K * list (list K))) : Prop :=
  forall n m vals vecs, eigh n m = Ok (vals, vecs) -> eigen_system n (sym_of m) vals vecs.
(** the wavefunction with other coefficients *)
Definition ci_with (w : ciwfn K) (p : list K) : ciwfn K := mkci (ci_nelec w) (ci_nspin w) (ci_spin2 w) (ci_sen w) (ci_sds w) p.
(** the wavefunction with coefficients [v] is an eigenstate of the Hamiltonian within the space of its determinants *)
Definition eigenstate (h : bham K) (w : ciwfn K) (E : K) (v : list K) : Prop :=
  length v = length (ci_sds w) /\
  forall sd, In sd (ci_sds w) -> exists o os hs, ci_overlap (ci_with w v) sd = Ok o
    /\ mapM (ci_overlap (ci_with w v)) (ci_sds w) = Ok os /\ mapM (bh_ss h sd) (ci_sds w) = Ok hs /\ inner hs os = E * o.
(** a system of equations (EqnBase.v) whose wavefunction is the CI wavefunction with coefficients [v] *)
Definition shows (y : sys K) (W : world K) (h : bham K) (w : ciwfn K) (v : list K) : Prop :=
  (forall sd, In sd (ci_sds w) -> y_ov y W sd = ci_overlap (ci_with w v) sd) /\
  (forall a b, In a (ci_sds w) -> In b (ci_sds w) -> y_ss y W a b = bh_ss h a b) /\
  (forall a, In a (ci_sds w) -> y_int y W a = do hs <- mapM (bh_ss h a) (ci_sds w); do os <- mapM (ci_overlap (ci_with w v)) (ci_sds w); Ok (inner hs os)).
(** every evaluation of the objective raises *)
Definition never_evaluates (b : bool) (e : eqns K) : Prop := forall p w, exists w' x, eqn_objective b e true true p w = (w', Err x).

(** ** strategies *)
(** the result is a point at which the objective was evaluated, with the value that it had *)
Inductive truthful {V J} (seen : list K -> V -> Prop) : strat K V J (sres K V) -> Prop :=
| t_done : forall r, seen (r_x r) (r_fun r) -> truthful seen (SDone r)
| t_raise : forall x, truthful seen (SRaise x)
| t_call : forall p k, (forall v, truthful (fun q u => seen q u \/ (q = p /\ u = v)) (k v)) -> truthful seen (SCall p k)
| t_jac : forall p k, (forall v, truthful seen (k v)) -> truthful seen (SJac p k)
| t_back : forall k, truthful seen k -> truthful seen (SBack k).
(** the result is the point at which the objective was evaluated last, and the Jacobian is evaluated there, too *)
Inductive ends_at {V J} : option (list K) -> strat K V J (sres K V) -> Prop :=
| e_done : forall r, ends_at (Some (r_x r)) (SDone r)
| e_raise : forall o x, ends_at o (SRaise x)
| e_call : forall o p k, (forall v, ends_at (Some p) (k v)) -> ends_at o (SCall p k)
| e_jac : forall p k, (forall v, ends_at (Some p) (k v)) -> ends_at (Some p) (SJac p k)
| e_back : forall o k, ends_at o k -> ends_at o (SBack k).
(** the parameters [p] have been assigned to some world, the wavefunction has been normalized and the energy has been found (and
    stored, if it is computed) *)
Definition settled (e : eqns K) (p : list K) (E : K) (w : world K) : Prop := exists w0 w1 w2,
  assign_step (e_obj e) p w0 = (w1, Ok tt) /\ o_normalize (e_obj e) (e_ref e) w1 = (w2, Ok tt) /\ energy_of e w2 = Ok E
  /\ forall c, w c = with_energy e E w2 c.
(** the constraints leave the parameters as they are when they are called with the ones that have been assigned *)
Definition calm (e : eqns K) (c : cons K) : Prop := forall p E w, settled e p E w ->
  (forall d, fst (k_obj c p w) d = w d) /\ (forall d, fst (k_grad c p w) d = w d).
End CI.
