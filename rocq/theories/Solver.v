(** Model of fanpy/solver: ci.py (brute), system.py (least_squares, root), equation.py (cma, minimize), wrappers.py (wrap_scipy).

    The routines of SciPy are arguments: scipy.linalg.eigh a function, the optimizers strategies that call the objective and the
    Jacobian (and the callback) that they are given and may look at the answers.  isinstance checks, printing, the names of files
    and the numerical options that are passed through (xtol, ftol, ...) are left out. *)
From Coq Require Import List ZArith NArith Arith Bool.
From Verif Require Import Py Slater Alg WfnCI ParamSel EqnBase EqnObj.
Import ListNotations.

Section Brute.
Context {K : CField}.
Local Open Scope cr_scope.
(** what brute uses of the Hamiltonian: nspin, integrate_sd_sd and, for saving, params *)
Record bham := mkbham { bh_nspin : Z; bh_ss : N -> N -> res K; bh_params : list K }.
(** solver/ci.py:62-65: the entries of row [i] from the diagonal on, then all rows.  The rest of the array is zero. *)
Definition ci_row (h : bham) (sds : list N) (i : nat) : res (list K) := mapM (bh_ss h (nth i sds 0%N)) (skipn i sds).
Definition ci_matrix (h : bham) (sds : list N) : res (nat -> nat -> K) :=
  do rows <- mapM (ci_row h sds) (seq 0 (length sds));
  Ok (fun i j => if Nat.leb i j then nth (j - i) (nth i rows []) 0 else 0).
(** scipy.linalg.eigh(a, lower=False, type=1): the eigenvalues, and the columns of the array of eigenvectors *)
Variable eigh : nat -> (nat -> nat -> K) -> res (list K * list (list K)).
(** the dictionary that is returned; [b_saved]: what has been written to the files of the wavefunction and of the Hamiltonian *)
Record bout := mkbout { b_success : bool; b_params : list K; b_energy : K; b_eigval : list K; b_eigvec : list (list K);
  b_saved : option (list K * list K) }.
(** solver/ci.py:13-94 brute *)
Definition brute (w : ciwfn K) (h : bham) (save : bool) : res bout :=
  if negb (ci_nspin w =? bh_nspin h)%Z then Err ValueError
  else
    do m <- ci_matrix h (ci_sds w);
    do r <- eigh (length (ci_sds w)) m;
    match fst r, snd r with
    | e :: _, v :: _ => Ok (mkbout true v e (fst r) (snd r) (if save then Some (ci_params w, bh_params h) else None))
    | _, _ => Err IndexError
    end.
End Brute.
Arguments bham K : clear implicits.
Arguments bout K : clear implicits.

(** l[:z] *)
Definition py_upto {A} (l : list A) (z : Z) : list A :=
  if (z <? 0)%Z then firstn (length l - Z.to_nat (- z)) l else firstn (Z.to_nat z) l.
(** l[-k:] for positive k *)
Definition py_last {A} (l : list A) (k : nat) : list A := skipn (length l - k) l.

Section Solve.
Context {K : CField}.
Local Open Scope cr_scope.
Notation "'run' x <- m ; f" := (sbind m (fun x => f)) (at level 200, x pattern, m at level 100, f at level 200).
Definition with_space (e : eqns K) (ps : list N) (ws : list K) : eqns K :=
  mkeqns (e_obj e) (e_ref e) ps (e_type e) (e_comp e) (e_cons e) ws.
(** solver/system.py:120-138: the objective after the check of the number of equations; [size] is active_params.size *)
Definition root_truncate (b : bool) (e : eqns K) (size : nat) : res (eqns K) :=
  if Nat.ltb (num_eqns b e) size then Err ValueError
  else if Nat.ltb size (num_eqns b e) then
    let c := length (e_cons e) in
    let m := (Z.of_nat size - Z.of_nat c)%Z in
    Ok (with_space e (py_upto (e_pspace e) m)
          (if Nat.eqb c 0 then firstn size (e_weights e) else py_upto (e_weights e) m ++ py_last (e_weights e) c))
  else Ok e.

(** an optimizer: it returns, raises, or evaluates the objective or the Jacobian (gradient) or calls the callback *)
Inductive strat (V J R : Type) : Type :=
| SDone (r : R)
| SRaise (x : exn)
| SCall (p : list K) (k : V -> strat V J R)
| SJac (p : list K) (k : J -> strat V J R)
| SBack (k : strat V J R).
Arguments SDone {V J R}. Arguments SRaise {V J R}. Arguments SCall {V J R}. Arguments SJac {V J R}. Arguments SBack {V J R}.
(** an exception that is raised by the objective ends the run *)
Fixpoint run_strat {V J R} (f : list K -> step K V) (g : list K -> step K J) (back : step K unit) (s : strat V J R) : step K R :=
  match s with
  | SDone r => reading (fun _ => Ok r)
  | SRaise x => reading (fun _ => Err x)
  | SCall p k => run v <- f p; run_strat f g back (k v)
  | SJac p k => run v <- g p; run_strat f g back (k v)
  | SBack k => run _ <- back; run_strat f g back k
  end.
(** scipy.optimize.OptimizeResult *)
Record sres (V : Type) := mksres { r_success : bool; r_x : list K; r_fun : V }.
Arguments mksres {V}. Arguments r_success {V}. Arguments r_x {V}. Arguments r_fun {V}.
(** solver/wrappers.py:60-71 wrap_scipy: the initial guess is objective.active_params *)
Definition wrap_scipy {V J} (s : sel) (f : list K -> step K V) (g : list K -> step K J) (back : step K unit)
    (solver : list K -> strat V J (sres V)) : step K (sres V) :=
  run x0 <- reading (fun w => active_params w s);
  run_strat f g back (solver x0).

(** system.py:59-77, 148-166 hacked_jacobian, with the Jacobian of the objective (its defaults: nothing is assigned nor
    normalized).  [refresh] is ham.assign_params(ham.params) with update_prev_params, for active Hamiltonian parameters. *)
Definition ham_active (e : eqns K) : bool := match get_item (o_sel (e_obj e)) (KComp (y_ham (o_sys (e_obj e)))) with [] => false | _ => true end.
Definition hacked_jacobian (refresh : step K unit) (b : bool) (e : eqns K) (p : list K) : step K (list (list K)) :=
  run _ <- when (ham_active e) refresh;
  eqn_jacobian b e false false p.
(** what is returned: success, params, energy, residuals *)
Record sysout (E : Type) := mksysout { s_success : bool; s_params : list K; s_energy : E; s_residuals : list K }.
Arguments mksysout {E}. Arguments s_success {E}. Arguments s_params {E}. Arguments s_energy {E}. Arguments s_residuals {E}.
(** system.py:9-85 least_squares; [solver] is given max_nfev = 1000 * active_params.size and the initial guess *)
Definition least_squares (refresh : step K unit) (b : bool) (e : eqns K) (solver : nat -> list K -> strat (list K) (list (list K)) (sres (list K))) : step K (sysout K) :=
  run x0 <- reading (fun w => active_params w (o_sel (e_obj e)));
  run r <- wrap_scipy (o_sel (e_obj e)) (eqn_objective b e true true) (hacked_jacobian refresh b e) done (solver (1000 * length x0)%nat);
  reading (fun w => match w (e_comp e) with [] => Err IndexError | x :: _ => Ok (mksysout (r_success r) (r_x r) x (r_fun r)) end).
(** system.py:88-180 root: the truncated objective is used (and stays truncated); energy is the array of one energy *)
Definition root (refresh : step K unit) (b : bool) (e : eqns K) (solver : list K -> strat (list K) (list (list K)) (sres (list K))) : step K (eqns K * sysout (list K)) :=
  run x0 <- reading (fun w => active_params w (o_sel (e_obj e)));
  run e' <- reading (fun _ => root_truncate b e (length x0));
  run r <- wrap_scipy (o_sel (e_obj e)) (eqn_objective b e' true true) (hacked_jacobian refresh b e') done solver;
  reading (fun w => Ok (e', mksysout (r_success r) (r_x r) (w (e_comp e')) (r_fun r))).

(** ** single equations.  An objective: the number of equations, the active parameters, objective, gradient, and where the
    returned energy comes from (equation.py:88-91, 190-194): the stored energy, the value of the objective, or nowhere *)
Inductive esource := FromStored (comp : nat) | FromValue | FromNone.
Record single := mksingle { g_num : nat; g_sel : sel; g_assign : list K -> step K unit; g_obj : list K -> step K K; g_grad : list K -> step K (list K); g_energy : esource }.
Definition energy_out (src : esource) (v : K) (w : world K) : option (list K) :=
  match src with FromStored c => Some (w c) | FromValue => Some [v] | FromNone => None end.
(** equation.py:108-196 minimize; [back] is the callback *)
Definition minimize (back : step K unit) (o : single) (solver : list K -> strat K (list K) (sres K)) : step K (sres K * option (list K)) :=
  if negb (Nat.eqb (g_num o) 1) then reading (fun _ => Err ValueError)
  else
    run r <- wrap_scipy (g_sel o) (g_obj o) (g_grad o) back solver;
    reading (fun w => Ok (r, energy_out (g_energy o) (r_fun r) w)).
(** equation.py:13-105 cma; the termination conditions that cma.fmin returns are a boolean *)
Definition cma (o : single) (solver : list K -> strat K (list K) (sres K)) : step K (sres K * option (list K)) :=
  if negb (Nat.eqb (g_num o) 1) then reading (fun _ => Err ValueError)
  else
    run x0 <- reading (fun w => active_params w (g_sel o));
    if Nat.eqb (length x0) 1 then reading (fun _ => Err ValueError)
    else
      run r <- run_strat (g_obj o) (fun _ => reading (fun _ => Err TypeError)) done (solver x0);
      run out <- reading (fun w => Ok (r, energy_out (g_energy o) (r_fun r) w));
      run _ <- g_assign o (r_x r);
      reading (fun _ => Ok out).
End Solve.
Arguments strat : clear implicits.
Arguments sres : clear implicits.
Arguments sysout : clear implicits.
Arguments single : clear implicits.
Arguments SDone {K V J R}. Arguments SRaise {K V J R}. Arguments SCall {K V J R}. Arguments SJac {K V J R}. Arguments SBack {K V J R}.
Arguments mksres {K V}. Arguments r_success {K V}. Arguments r_x {K V}. Arguments r_fun {K V}.
Arguments mksysout {K E}. Arguments s_success {K E}. Arguments s_params {K E}. Arguments s_energy {K E}. Arguments s_residuals {K E}.
