(** Model of fanpy/eqn/base.py:333-761: overlaps, integrals and energies and their derivatives with respect to the
    active parameters.

    The wavefunction and the Hamiltonian of an objective are given by what their methods return, as functions of the
    parameters of all components (type [world], see ParamSel.v).  Arrays are lists; the derivatives with respect to
    the active parameters are lists of length active_nparams.  Division is multiplication by the inverse, which is
    some number when the denominator is zero (numpy gives nan or inf without raising).  Arrays of different lengths
    are not broadcast when reference coefficients are multiplied by overlaps (a CI wavefunction has as many
    parameters as determinants).  The checks of types are left out. *)
From Coq Require Import List ZArith NArith Arith Bool.
From Verif Require Import Py Slater Alg ParamSel.
Import ListNotations.

Section Eqn.
Context {K : CField}.
Local Open Scope cr_scope.
Record sys := mksys {
  y_wfn : nat; y_ham : nat;
  (** None for a wavefunction that takes arrays of indices; for composite wavefunctions, the wavefunctions with
      respect to whose parameters the overlap is differentiated: [self.wfn; self.wfn.wfn], the factors of a product,
      or the linear combination followed by its terms (base.py:373-378) *)
  y_parts : option (list nat);
  (** self.wfn.get_overlap(sd) and self.wfn.get_overlap(sd, (wfn, indices)) *)
  y_ov : world K -> N -> res K;
  y_dov : world K -> N -> nat -> list nat -> res (list K);
  (** self.ham.integrate_sd_wfn(sd, self.wfn), with wfn_deriv=(wfn, indices) and with ham_deriv=indices *)
  y_int : world K -> N -> res K;
  y_dint : world K -> N -> nat -> list nat -> res (list K);
  y_hint : world K -> N -> list nat -> res (list K);
  (** self.ham.integrate_sd_sd(sd1, sd2), with deriv=indices *)
  y_ss : world K -> N -> N -> res K;
  y_dss : world K -> N -> N -> list nat -> res (list K) }.

(** output[indices] = values, with broadcasting of one value *)
Definition put_block (out : list K) (inds : list nat) (vals : list K) : res (list K) :=
  if Nat.eqb (length vals) (length inds) then scatter out inds vals
  else match vals with [x] => scatter out inds (repeat x (length inds)) | _ => Err ValueError end.
(** base.py:368-371, 427-430, 448-451, 491-494: the derivatives with respect to the parameters of one component *)
Definition put_one (s : sel) (c : nat) (get : list nat -> res (list K)) (out : list K) : res (list K) :=
  match get_item s (KComp c) with
  | [] => Ok out
  | l => do g <- get l; put_block out (get_item (objective_inds s) (KComp c)) g
  end.
(** base.py:379-385, 438-446 *)
Fixpoint put_parts (s : sel) (get : nat -> list nat -> res (list K)) (parts : list nat) (out : list K) : res (list K) :=
  match parts with
  | [] => Ok out
  | c :: t => if has_key s c then do out' <- put_one s c (get c) out; put_parts s get t out' else put_parts s get t out
  end.
Definition put_wfn (y : sys) (s : sel) (get : nat -> list nat -> res (list K)) (out : list K) : res (list K) :=
  match y_parts y with
  | None => put_one s (y_wfn y) (get (y_wfn y)) out
  | Some parts => put_parts s get parts out
  end.
Definition zeros (n : nat) : list K := repeat 0 n.

(** base.py:333-387 wrapped_get_overlap *)
Definition wrapped_ov (y : sys) (w : world K) (sd : N) : res K := y_ov y w sd.
Definition wrapped_dov (y : sys) (s : sel) (w : world K) (sd : N) : res (list K) :=
  put_wfn y s (y_dov y w sd) (zeros (active_nparams s)).
(** base.py:391-453 wrapped_integrate_sd_wfn *)
Definition wrapped_int (y : sys) (w : world K) (sd : N) : res K := y_int y w sd.
Definition wrapped_dint (y : sys) (s : sel) (w : world K) (sd : N) : res (list K) :=
  do out <- put_wfn y s (y_dint y w sd) (zeros (active_nparams s));
  put_one s (y_ham y) (y_hint y w sd) out.
(** base.py:457-496 wrapped_integrate_sd_sd *)
Definition wrapped_ss (y : sys) (w : world K) (a b : N) : res K := y_ss y w a b.
Definition wrapped_dss (y : sys) (s : sel) (w : world K) (a b : N) : res (list K) :=
  put_one s (y_ham y) (y_dss y w a b) (zeros (active_nparams s)).

(** vectors *)
Definition vadd (a b : list K) : list K := map (fun xy => fst xy + snd xy) (combine a b).
Definition vsub (a b : list K) : list K := map (fun xy => fst xy - snd xy) (combine a b).
Definition vscale (x : K) (v : list K) : list K := map (rmul x) v.
Definition vsum (n : nat) (ls : list (list K)) : list K := fold_left vadd ls (zeros n).
(** np.sum(a * b) *)
Definition dot (a b : list K) : res K :=
  if Nat.eqb (length a) (length b) then Ok (psum (fun xy => fst xy * snd xy) (combine a b)) else Err ValueError.
(** np.sum(a[:, None] * rows, axis=0) *)
Definition dot_rows (n : nat) (a : list K) (rows : list (list K)) : res (list K) :=
  if Nat.eqb (length a) (length rows) then Ok (vsum n (map (fun xr => vscale (fst xr) (snd xr)) (combine a rows))) else Err ValueError.

(** the reference of one-sided energies: a list of determinants, or a CI wavefunction (a component) with its
    determinants *)
Inductive refwfn := RefSds (l : list N) | RefCI (c : nat) (l : list N).
Definition ref_sds (r : refwfn) : list N := match r with RefSds l => l | RefCI _ l => l end.
Definition ref_coeffs (y : sys) (w : world K) (r : refwfn) : res (list K) :=
  match r with RefSds l => mapM (wrapped_ov y w) l | RefCI c _ => Ok (w c) end.
(** d_ref_coeffs[inds_component, inds_objective] = 1.0 on a matrix of zeros *)
Definition set_ones (rows : nat) (n : nat) (inds objs : list nat) : res (list (list K)) :=
  if forallb (fun i => Nat.ltb i rows) inds
  then Ok (fold_left (fun m io => upd m (fst io) (upd (nth (fst io) m []) (snd io) 1)) (combine inds objs) (repeat (zeros n) rows))
  else Err IndexError.
Definition d_ref_coeffs (y : sys) (s : sel) (w : world K) (r : refwfn) : res (list (list K)) :=
  match r with
  | RefSds l => mapM (wrapped_dov y s w) l
  | RefCI c _ =>
      match get_item s (KComp c) with
      | [] => Ok (repeat (zeros (active_nparams s)) (length (w c)))
      | l => set_ones (length (w c)) (active_nparams s) l (get_item (objective_inds s) (KComp c))
      end
  end.

(** base.py:498-612 get_energy_one_proj(refwfn) *)
Definition one_norm (y : sys) (w : world K) (r : refwfn) : res K :=
  do cs <- ref_coeffs y w r;
  do os <- mapM (wrapped_ov y w) (ref_sds r);
  dot cs os.
Definition one_energy (y : sys) (w : world K) (r : refwfn) : res K :=
  do cs <- ref_coeffs y w r;
  do os <- mapM (wrapped_ov y w) (ref_sds r);
  do is <- mapM (wrapped_int y w) (ref_sds r);
  do norm <- dot cs os;
  do num <- dot cs is;
  Ok (num * finv norm).
(** base.py:575-625 get_energy_one_proj(refwfn, deriv=True) *)
Definition one_energy_deriv (y : sys) (s : sel) (w : world K) (r : refwfn) : res (list K) :=
  let n := active_nparams s in
  do cs <- ref_coeffs y w r;
  do dcs <- d_ref_coeffs y s w r;
  do os <- mapM (wrapped_ov y w) (ref_sds r);
  do is <- mapM (wrapped_int y w) (ref_sds r);
  do norm <- dot cs os;
  do num <- dot cs is;
  let energy := num * finv norm in
  do dn1 <- dot_rows n os dcs;
  do dos <- mapM (wrapped_dov y s w) (ref_sds r);
  do dn2 <- dot_rows n cs dos;
  let d_norm := vadd dn1 dn2 in
  do de1 <- dot_rows n is dcs;
  do dis <- mapM (wrapped_dint y s w) (ref_sds r);
  do de2 <- dot_rows n cs dis;
  Ok (vsub (vadd (vscale (finv norm) de1) (vscale (finv norm) de2)) (vscale (finv norm) (vscale energy d_norm))).

(** rows and columns of a matrix, entry by entry *)
Definition grid {A B C} (ls : list A) (rs : list B) (m : list (list C)) : list (A * B * C) :=
  flat_map (fun im => map (fun jm => (fst im, fst jm, snd jm)) (combine rs (snd im))) (combine ls m).
Definition or_else {A} (o : option A) (d : A) : A := match o with Some a => a | None => d end.
(** base.py:691-734 get_energy_two_proj(pspace_l, pspace_r, pspace_norm) *)
Definition two_energy (y : sys) (w : world K) (pl : list N) (pr pn : option (list N)) : res K :=
  let pr := or_else pr pl in let pn := or_else pn pl in
  do ol <- mapM (wrapped_ov y w) pl;
  do or_ <- mapM (wrapped_ov y w) pr;
  do m <- mapM (fun i => mapM (fun j => wrapped_ss y w i j) pr) pl;
  do on <- mapM (wrapped_ov y w) pn;
  let norm := psum (fun o => o * o) on in
  Ok (psum (fun lrm => fst (fst lrm) * snd lrm * snd (fst lrm)) (grid ol or_ m) * finv norm).
(** base.py:736-761 get_energy_two_proj(..., deriv=True) *)
Definition two_energy_deriv (y : sys) (s : sel) (w : world K) (pl : list N) (pr pn : option (list N)) : res (list K) :=
  let n := active_nparams s in
  let pr := or_else pr pl in let pn := or_else pn pl in
  do ol <- mapM (wrapped_ov y w) pl;
  do or_ <- mapM (wrapped_ov y w) pr;
  do m <- mapM (fun i => mapM (fun j => wrapped_ss y w i j) pr) pl;
  do on <- mapM (wrapped_ov y w) pn;
  let norm := psum (fun o => o * o) on in
  do don <- mapM (wrapped_dov y s w) pn;
  do dn <- dot_rows n on don;
  let d_norm := vscale (1 + 1) dn in
  do dol <- mapM (wrapped_dov y s w) pl;
  let t1 := vsum n (map (fun lrm => vscale (snd lrm * snd (fst lrm)) (fst (fst lrm))) (grid dol or_ m)) in
  do dm <- mapM (fun i => mapM (fun j => wrapped_dss y s w i j) pr) pl;
  let t2 := vsum n (map (fun lrm => vscale (fst (fst lrm) * snd (fst lrm)) (snd lrm)) (grid ol or_ dm)) in
  do dor <- mapM (wrapped_dov y s w) pr;
  let t3 := vsum n (map (fun lrm => vscale (fst (fst lrm) * snd lrm) (snd (fst lrm))) (grid ol dor m)) in
  let total := psum (fun lrm => fst (fst lrm) * snd lrm * snd (fst lrm)) (grid ol or_ m) in
  Ok (vsub (vadd (vadd (vscale (finv norm) t1) (vscale (finv norm) t2)) (vscale (finv norm) t3))
           (vscale (finv (norm * norm)) (vscale total d_norm))).
End Eqn.
Arguments sys : clear implicits.
