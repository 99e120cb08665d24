(** Projection spaces and references of the objectives: fanpy/eqn/energy_oneside.py (assign_refwfn), energy_twoside.py
    (assign_pspaces), energy_variational.py (assign_pspace), local_energy.py (assign_pspace), projected.py (assign_pspace,
    assign_refwfn, and the default constraint of assign_constraints).  Assertions are on (__debug__).  Left out: booleans as
    determinants, negative integers. *)
From Coq Require Import List ZArith NArith Arith Bool.
From Verif Require Import Py Slater SdList.
Import ListNotations.

(** what the objectives use of the wavefunction: nelec, nspin, spin (twice) and seniority (wfn/base.py:113-151) *)
Record winfo := mkwinfo { wi_nelec : Z; wi_nspin : Z; wi_spin2 : option Z; wi_sen : option Z }.
(** an element of a space: an integer, a CI wavefunction (with its nelec and nspin), anything else *)
Inductive state := SInt (sd : N) | SCI (nelec nspin : Z) | SOther.
(** an argument: None, a list or tuple, a single object *)
Inductive sarg := ANone | AList (l : list state) | AOne (s : state).
(** a stored reference *)
Inductive refval := RvSds (l : list N) | RvCI (nelec nspin : Z).

(** energy_oneside.py:223-240, energy_twoside.py:238-252 *)
Definition check_state (w : winfo) (s : state) : res N :=
  match s with
  | SInt sd =>
      let occs := occ_indices (Some sd) in
      if negb (Z.of_nat (length occs) =? wi_nelec w)%Z then Err ValueError
      else if existsb (fun i => (wi_nspin w <=? Z.of_nat i)%Z) occs then Err ValueError
      else Ok sd
  | _ => Err TypeError
  end.
(** sd_list.sd_list(self.wfn.nelec, self.wfn.nspin, spin=self.wfn.spin, seniority=self.wfn.seniority, exc_orders=orders) *)
Definition default_space (w : winfo) (orders : option (list Z)) : res (list N) :=
  sd_list (wi_nelec w) (wi_nspin w) None orders (wi_spin2 w) (wi_sen w) false.
(** energy_oneside.py:181-256 assign_refwfn; also that of NormConstraint (constraints/norm.py:98) *)
Definition one_ref (w : winfo) (a : sarg) : res refval :=
  match a with
  | ANone => do l <- default_space w None; Ok (RvSds l)
  | AOne (SInt sd) => do l <- mapM (check_state w) [SInt sd]; Ok (RvSds l)
  | AList l => do l <- mapM (check_state w) l; Ok (RvSds l)
  | AOne (SCI ne ns) =>
      if negb (ne =? wi_nelec w)%Z then Err ValueError
      else if negb (ns =? wi_nspin w)%Z then Err ValueError
      else Ok (RvCI ne ns)
  | AOne SOther => Err TypeError
  end.
(** energy_twoside.py:234-252: one of the three spaces *)
Definition two_space (w : winfo) (a : sarg) : res (option (list N)) :=
  match a with
  | ANone => Ok None
  | AList l => do l <- mapM (check_state w) l; Ok (Some l)
  | AOne _ => Err TypeError
  end.
(** energy_twoside.py:201-256 assign_pspaces *)
Definition two_pspaces (w : winfo) (pl pr pn : sarg) : res (list N * option (list N) * option (list N)) :=
  do pl' <- match pl with ANone => do l <- default_space w None; Ok (AList (map SInt l)) | a => Ok a end;
  do l <- two_space w pl';
  do r <- two_space w pr;
  do n <- two_space w pn;
  match l with Some l => Ok (l, r, n) | None => Err TypeError end.
(** energy_variational.py:166-188 assign_pspace *)
Definition var_pspace (w : winfo) (p : sarg) : res (list N * option (list N) * option (list N)) :=
  do p' <- match p with ANone => do l <- default_space w None; Ok (AList (map SInt l)) | a => Ok a end;
  two_pspaces w p' p' p'.
Definition is_int (s : state) : bool := match s with SInt _ => true | _ => false end.
Definition is_ci (s : state) : bool := match s with SCI _ _ => true | _ => false end.
(** local_energy.py:150-175 assign_pspace *)
Definition local_pspace (w : winfo) (a : sarg) : res refval :=
  match a with
  | ANone => one_ref w ANone
  | AList l => if forallb is_int l then one_ref w (AList l) else Err TypeError
  | AOne _ => Err TypeError
  end.
(** projected.py:294-332 assign_pspace; [orders] is pspace_exc_orders *)
Definition proj_pspace (w : winfo) (orders : option (list Z)) (a : sarg) : res (list state) :=
  match a with
  | ANone => do l <- default_space w (Some (match orders with Some o => o | None => [1; 2]%Z end)); Ok (map SInt l)
  | AList l => if forallb (fun s => is_int s || is_ci s) l then Ok l else Err TypeError
  | AOne _ => Err TypeError
  end.
Fixpoint ints (l : list state) : res (list N) :=
  match l with
  | [] => Ok []
  | SInt sd :: t => do r <- ints t; Ok (sd :: r)
  | _ :: _ => Err TypeError
  end.
(** projected.py:334-368 assign_refwfn *)
Definition proj_ref (w : winfo) (a : sarg) : res refval :=
  match a with
  | ANone => do g <- ground (wi_nelec w) (wi_nspin w); Ok (RvSds [g])
  | AOne (SInt sd) => Ok (RvSds [sd])
  | AOne (SCI ne ns) => Ok (RvCI ne ns)
  | AOne SOther => Err TypeError
  | AList l => do l <- ints l; Ok (RvSds l)
  end.
(** projected.py:248-268, 390-391: the spaces of the constructor; without constraints the reference goes to NormConstraint *)
Definition as_arg (r : refval) : sarg := match r with RvSds l => AList (map SInt l) | RvCI ne ns => AOne (SCI ne ns) end.
Definition proj_spaces (w : winfo) (orders : option (list Z)) (p r : sarg) (constraints : bool) : res (list state * refval) :=
  do sp <- proj_pspace w orders p;
  do rv <- proj_ref w r;
  do _ <- if constraints then Ok rv else one_ref w (as_arg rv);
  Ok (sp, rv).
