(** Model of the objectives: fanpy/eqn/energy_oneside.py:258-329, energy_twoside.py:258-316, local_energy.py:177-246,
    constraints/norm.py:111-208, projected.py:270-292 and 409-633, least_squares.py:142-252.

    The parameters of the components are a state ([world]) that assigning parameters and normalizing change.  Saving
    parameters to files (SaveNames.v) and printing are left out.  In the Jacobian a vector of another length than the
    number of active parameters raises (numpy would broadcast one active parameter).  Empty projection spaces and
    references are treated like the others in the Jacobian (numpy raises on some of the empty arrays). *)
From Coq Require Import List ZArith NArith Arith Bool.
From Verif Require Import Py Slater Alg ParamSel EqnBase.
Import ListNotations.

Section Obj.
Context {K : CField}.
Local Open Scope cr_scope.
(** a piece of code that reads and writes the parameters of the components and may raise *)
Definition step (A : Type) := world K -> world K * res A.
Definition sbind {A B} (m : step A) (f : A -> step B) : step B :=
  fun w => match m w with (w', Ok a) => f a w' | (w', Err e) => (w', Err e) end.
Definition reading {A} (f : world K -> res A) : step A := fun w => (w, f w).
Definition done : step unit := fun w => (w, Ok tt).
Notation "'run' x <- m ; f" := (sbind m (fun x => f)) (at level 200, x pattern, m at level 100, f at level 200).

(** what all objectives have: the wavefunction and the Hamiltonian, the selection of active parameters, what the
    components do with new parameters (see ParamSel.v), and self.wfn.normalize *)
Record obj := mkobj {
  o_sys : sys K; o_sel : sel; o_store : nat -> list K -> res (list K); o_view : nat -> bool; o_normalize : refwfn -> step unit }.
Definition assign_step (o : obj) (p : list K) : step unit := fun w => assign_params (o_store o) (o_view o) w (o_sel o) p.
Definition when (b : bool) (m : step unit) : step unit := if b then m else done.

(** energy_oneside.py:258-292 *)
Definition one_objective (o : obj) (r : refwfn) (assign normalize : bool) (p : list K) : step K :=
  run _ <- when assign (assign_step o p);
  run _ <- when normalize (o_normalize o r);
  reading (fun w => one_energy (o_sys o) w r).
(** energy_oneside.py:294-329 *)
Definition one_gradient (o : obj) (r : refwfn) (assign normalize : bool) (p : list K) : step (list K) :=
  run _ <- when assign (assign_step o p);
  run _ <- when normalize (o_normalize o r);
  reading (fun w => one_energy_deriv (o_sys o) (o_sel o) w r).
(** energy_twoside.py:258-316 *)
Definition two_objective (o : obj) (pl : list N) (pr pn : option (list N)) (p : list K) : step K :=
  run _ <- assign_step o p; reading (fun w => two_energy (o_sys o) w pl pr pn).
Definition two_gradient (o : obj) (pl : list N) (pr pn : option (list N)) (p : list K) : step (list K) :=
  run _ <- assign_step o p; reading (fun w => two_energy_deriv (o_sys o) (o_sel o) w pl pr pn).

(** constraints/norm.py:111-150 *)
Definition norm_value (y : sys K) (w : world K) (r : refwfn) : res K := do n <- one_norm y w r; Ok (n - 1).
Definition norm_objective (o : obj) (r : refwfn) (p : list K) : step K :=
  run _ <- assign_step o p; reading (fun w => norm_value (o_sys o) w r).
(** constraints/norm.py:152-208 *)
Definition norm_deriv (y : sys K) (s : sel) (w : world K) (r : refwfn) : res (list K) :=
  do cs <- ref_coeffs y w r;
  do os <- mapM (wrapped_ov y w) (ref_sds r);
  do dcs <- d_ref_coeffs y s w r;
  do d1 <- dot_rows (active_nparams s) os dcs;
  do dos <- mapM (wrapped_dov y s w) (ref_sds r);
  do d2 <- dot_rows (active_nparams s) cs dos;
  Ok (vadd d1 d2).
Definition norm_gradient (o : obj) (r : refwfn) (p : list K) : step (list K) :=
  run _ <- assign_step o p; reading (fun w => norm_deriv (o_sys o) (o_sel o) w r).

(** local_energy.py:177-209 *)
Definition local_value (y : sys K) (w : world K) (pspace : list N) : res K :=
  do os <- mapM (wrapped_ov y w) pspace;
  do is <- mapM (wrapped_int y w) pspace;
  Ok (psum (fun io => fst io * finv (snd io)) (combine is os)).
Definition local_objective (o : obj) (pspace : list N) (p : list K) : step K :=
  run _ <- assign_step o p; reading (fun w => local_value (o_sys o) w pspace).
(** local_energy.py:211-246; the derivative of the one-sided energy is computed first and thrown away *)
Definition local_deriv (y : sys K) (s : sel) (w : world K) (pspace : list N) : res (list K) :=
  do _ <- one_energy_deriv y s w (RefSds pspace);
  do os <- mapM (wrapped_ov y w) pspace;
  do is <- mapM (wrapped_int y w) pspace;
  do dos <- mapM (wrapped_dov y s w) pspace;
  do dis <- mapM (wrapped_dint y s w) pspace;
  Ok (vsum (active_nparams s)
        (map (fun q => vsub (vscale (finv (fst (fst q))) (snd (snd q)))
                            (vscale (snd (fst q) * finv (fst (fst q) * fst (fst q))) (fst (snd q))))
             (combine (combine os is) (combine dos dis)))).
Definition local_gradient (o : obj) (pspace : list N) (p : list K) : step (list K) :=
  run _ <- assign_step o p; reading (fun w => local_deriv (o_sys o) (o_sel o) w pspace).

(** a constraint: its number of equations (which may depend on the state of the class LeastSquaresEquations, see
    below), its objective and its gradient (rows) *)
Record cons := mkcons { k_num : bool -> nat; k_obj : list K -> step (list K); k_grad : list K -> step (list (list K)) }.
(** projected.py:389: NormConstraint as a constraint *)
Definition norm_cons (o : obj) (r : refwfn) : cons := mkcons (fun _ => 1%nat)
  (fun p => run v <- norm_objective o r p; reading (fun _ => Ok [v]))
  (fun p => run v <- norm_gradient o r p; reading (fun _ => Ok [v])).
Inductive etype := Fixed | Variable_ | Compute.
Record eqns := mkeqns {
  e_obj : obj; e_ref : refwfn; e_pspace : list N; e_type : etype; e_comp : nat; e_cons : list cons; e_weights : list K }.

(** projected.py:270-292; [b]: the property num_eqns of LeastSquaresEquations is replaced *)
Definition nproj (e : eqns) : nat := length (e_pspace e).
Definition cons_eqns (b : bool) (e : eqns) : nat := list_sum (map (fun c => k_num c b) (e_cons e)).
Definition num_eqns (b : bool) (e : eqns) : nat := nproj e + cons_eqns b e.
(** projected.py:427-439 assign_eqn_weights *)
Fixpoint natr (n : nat) : K := match n with O => 0 | S m => 1 + natr m end.
Definition default_weights (np nc : nat) : list K := repeat 1 np ++ repeat (natr np) nc.
Definition make_weights (np nc : nat) (given : option (list K)) : res (list K) :=
  match given with
  | None => Ok (default_weights np nc)
  | Some l => if Nat.eqb (length l) (np + nc) then Ok l else Err ValueError
  end.

(** obj[nproj:] = np.hstack(...) *)
Definition fill {A} (total : nat) (vals : list A) : res (list A) :=
  if Nat.eqb (length vals) total then Ok vals
  else match vals with [x] => Ok (repeat x total) | _ => Err ValueError end.
(** array *= weights *)
Definition weigh {A} (times : K -> A -> A) (ws : list K) (vals : list A) : res (list A) :=
  if Nat.eqb (length ws) (length vals) then Ok (map (fun wv => times (fst wv) (snd wv)) (combine ws vals))
  else match ws with [x] => Ok (map (times x) vals) | _ => Err ValueError end.
Fixpoint all_cons {A} (f : cons -> step (list A)) (l : list cons) : step (list A) :=
  match l with
  | [] => reading (fun _ => Ok [])
  | c :: t => run v <- f c; run r <- all_cons f t; reading (fun _ => Ok (v ++ r))
  end.
(** projected.py:470-486: the energy *)
Definition energy_of (e : eqns) (w : world K) : res K :=
  match e_type e with
  | Compute => one_energy (o_sys (e_obj e)) w (e_ref e)
  | _ => match w (e_comp e) with [x] => Ok x | _ => Err ValueError end
  end.
Definition store_energy (e : eqns) (x : K) : step unit :=
  match e_type e with Compute => fun w => (set_world w (e_comp e) [x], Ok tt) | _ => done end.
Definition residuals (y : sys K) (pspace : list N) (energy : K) (w : world K) : res (list K) :=
  do is <- mapM (wrapped_int y w) pspace;
  do os <- mapM (wrapped_ov y w) pspace;
  Ok (vsub is (vscale energy os)).
Definition constraints_part {A} (b : bool) (e : eqns) (f : cons -> step (list A)) : step (list A) :=
  if Nat.ltb (nproj e) (num_eqns b e)
  then run v <- all_cons f (e_cons e); reading (fun _ => fill (cons_eqns b e) v)
  else reading (fun _ => Ok []).
(** projected.py:441-516 *)
Definition eqn_objective (b : bool) (e : eqns) (assign normalize : bool) (p : list K) : step (list K) :=
  run _ <- when assign (assign_step (e_obj e) p);
  run _ <- when normalize (o_normalize (e_obj e) (e_ref e));
  run energy <- reading (energy_of e);
  run _ <- store_energy e energy;
  run rs <- reading (residuals (o_sys (e_obj e)) (e_pspace e) energy);
  run cs <- constraints_part b e (fun c => k_obj c p);
  reading (fun _ => weigh rmul (e_weights e) (rs ++ cs)).

(** projected.py:564-611: the derivative of the energy *)
Definition jac_energy (e : eqns) (w : world K) : res (K * list K) :=
  let y := o_sys (e_obj e) in let s := o_sel (e_obj e) in let n := active_nparams s in let r := e_ref e in
  do cs <- ref_coeffs y w r;
  do dcs <- d_ref_coeffs y s w r;
  do os <- mapM (wrapped_ov y w) (ref_sds r);
  do dos <- mapM (wrapped_dov y s w) (ref_sds r);
  do dn1 <- dot_rows n os dcs;
  do dn2 <- dot_rows n cs dos;
  let d_norm := vadd dn1 dn2 in
  match e_type e with
  | Compute =>
      do norm <- dot cs os;
      do is <- mapM (wrapped_int y w) (ref_sds r);
      do dis <- mapM (wrapped_dint y s w) (ref_sds r);
      do num <- dot cs is;
      do di1 <- dot_rows n is dcs;
      do di2 <- dot_rows n cs dis;
      let energy := num * finv norm in
      Ok (energy, vscale (finv norm) (vsub (vadd di1 di2) (vscale energy d_norm)))
  | _ =>
      match w (e_comp e) with
      | [x] =>
          match get_item s (KComp (e_comp e)) with
          | [] => Ok (x, zeros n)
          | _ => do v <- put_block (zeros n) (get_item (objective_inds s) (KComp (e_comp e))) [1]; Ok (x, v)
          end
      | _ => Err ValueError
      end
  end.
(** projected.py:613-620 *)
Definition jac_rows (y : sys K) (s : sel) (pspace : list N) (energy : K) (d_energy : list K) (w : world K) : res (list (list K)) :=
  do dis <- mapM (wrapped_dint y s w) pspace;
  do dos <- mapM (wrapped_dov y s w) pspace;
  do os <- mapM (wrapped_ov y w) pspace;
  Ok (map (fun q => vsub (vsub (fst (fst q)) (vscale energy (snd (fst q)))) (vscale (snd q) d_energy)) (combine (combine dis dos) os)).
(** projected.py:518-633 *)
Definition eqn_jacobian (b : bool) (e : eqns) (assign normalize : bool) (p : list K) : step (list (list K)) :=
  run _ <- when assign (assign_step (e_obj e) p);
  run _ <- when normalize (o_normalize (e_obj e) (e_ref e));
  run _ <- reading (fun _ => if Nat.eqb (length p) (active_nparams (o_sel (e_obj e))) then Ok tt else Err ValueError);
  run (energy, d_energy) <- reading (jac_energy e);
  run _ <- store_energy e energy;
  run rows <- reading (jac_rows (o_sys (e_obj e)) (o_sel (e_obj e)) (e_pspace e) energy d_energy);
  run cs <- constraints_part b e (fun c => k_grad c p);
  reading (fun _ => if forallb (fun r => Nat.eqb (length r) (length p)) cs then weigh vscale (e_weights e) (rows ++ cs) else Err ValueError).

(** least_squares.py:142-252.  [ls_own]: the property LeastSquaresEquations.num_eqns is the one of this class, not
    the one of ProjectedSchrodinger; it belongs to the class, i.e. to all instances.  [ls_print i]: step_print of
    instance i. *)
Record lstate := mkl { ls_world : world K; ls_own : bool; ls_print : nat -> bool }.
Definition set_print (f : nat -> bool) (i : nat) (b : bool) : nat -> bool := fun j => if Nat.eqb j i then b else f j.
Definition ls_num_eqns (st : lstate) (e : eqns) : nat := if ls_own st then 1 else num_eqns true e.
Definition ls_objective (i : nat) (e : eqns) (p : list K) (st : lstate) : lstate * res K :=
  match eqn_objective true e true true p (ls_world st) with
  | (w, Ok v) => (mkl w (ls_own st) (ls_print st), Ok (psum (fun x => x * x) v))
  | (w, Err x) => (mkl w false (ls_print st), Err x)
  end.
Definition ls_gradient (i : nat) (e : eqns) (p : list K) (st : lstate) : lstate * res (list K) :=
  match (run _ <- eqn_objective true e true true p; run v <- eqn_objective true e true true p;
         run m <- eqn_jacobian true e false false p; reading (fun _ => Ok (v, m))) (ls_world st) with
  | (w, Ok (v, m)) =>
      (mkl w (ls_own st) (ls_print st),
       do g <- dot_rows (length p) v m; Ok (vscale (1 + 1) g))
  | (w, Err x) => (mkl w false (set_print (ls_print st) i false), Err x)
  end.
End Obj.
Arguments obj : clear implicits. Arguments eqns : clear implicits. Arguments cons : clear implicits. Arguments lstate : clear implicits.
Arguments step : clear implicits.
