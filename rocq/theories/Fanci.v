(** fanpy/interface/fanci/legacy.py: the system of projected equations with the energy as the last parameter, its
    constraints, frozen parameters and Jacobian.  Not modelled: printing, saving, the optimizers (arguments of the
    functions below), the filling of the spaces of determinants by PyCI.  The overlaps of the wavefunction with the
    determinants of the "S" space (the "P" space is its first [fo_nproj] determinants) and their derivatives are
    functions of the wavefunction parameters [x[:-1]]; the sparse operator of PyCI is a matrix. *)
From Coq Require Import List ZArith Arith Bool Lia.
From Verif Require Import Py Slater Alg.
Import ListNotations.
Local Open Scope nat_scope.

(** the name of a constraint, legacy.py:216, 219, 1060 *)
Inductive cname := NNorm | NDet (i : nat) | NParam (i : nat) | NUser (n : nat).
Definition cname_eqb (a b : cname) : bool :=
  match a, b with
  | NNorm, NNorm => true | NDet i, NDet j => Nat.eqb i j | NParam i, NParam j => Nat.eqb i j | NUser i, NUser j => Nat.eqb i j
  | _, _ => false
  end.
(** d[name] = v of an OrderedDict *)
Fixpoint od_set {A} (d : list (cname * A)) (n : cname) (v : A) : list (cname * A) :=
  match d with [] => [(n, v)] | (m, w) :: t => if cname_eqb m n then (n, v) :: t else (m, w) :: od_set t n v end.

(** legacy.py:1588-1601 calculate_overlap_deriv_chunks; [mem]: floor(avail_mem / tensor_mem) *)
Definition chunk_size (mem : Z) (size : nat) : nat := Nat.min (Z.to_nat (Z.max 1 mem)) size.
Definition chunks (c size : nat) : list (nat * nat) :=
  map (fun i => (i * c, Nat.min size (i * c + c)))%nat (seq 0 ((size + c - 1) / c)).

Section Fanci.
Context {K : CRing}.
Local Open Scope cr_scope.

(** pairs (f, dfdx): make_norm_constraint 276-308, make_det_constraint 695-732, make_param_constraint 655-693, or given *)
Inductive ccon := CNorm | CDet (i : nat) (v : K) | CParam (i : nat) (v : K) | CUser (f : list K -> K) (df : list K -> list K).
Record fobj := mkfobj {
  fo_nproj : nat; fo_ns : nat; fo_ci : nat -> nat -> K;
  fo_ovlp : list K -> nat -> K; fo_dovlp : list K -> nat -> nat -> K; fo_ddovlp : option (list K -> nat -> nat -> nat -> K);
  fo_mask : list bool; fo_cons : list (cname * ccon) }.

(** legacy.py:204-220 (base class) and 1059-1060: the constraints *)
Definition all_cons (constraints : option (list (cname * ccon))) (norm_param : option (list (nat * K))) (norm_det : option (list (nat * K))) : list (cname * ccon) :=
  let c0 := match constraints, norm_det with None, None => [(NNorm, CNorm)] | None, Some _ => [] | Some l, _ => l end in
  let c1 := fold_left (fun d p => od_set d (NParam (fst p)) (CParam (fst p) (snd p))) (match norm_param with None => [] | Some l => l end) c0 in
  fold_left (fun d p => od_set d (NDet (fst p)) (CDet (fst p) (snd p))) (match norm_det with None => [] | Some l => l end) c1.

(** nparam, nactive, nequation: legacy.py:1057, 238-239 *)
Definition fo_nparam (o : fobj) : nat := length (fo_mask o).
Definition ntrue (l : list bool) : nat := length (filter (fun b => b) l).
Definition fo_nactive (o : fobj) : nat := ntrue (fo_mask o).
Definition fo_nequation (o : fobj) : nat := (fo_nproj o + length (fo_cons o))%nat.
(** mask[-1] *)
Definition fo_eact (o : fobj) : bool := last (fo_mask o) false.
(** np.arange(nparam - 1)[mask[:-1]], legacy.py:1187 *)
Definition fo_act (o : fobj) : list nat := filter (fun k => nth k (fo_mask o) false) (seq 0 (fo_nparam o - 1)).
Definition set_mask (o : fobj) (m : list bool) : fobj :=
  mkfobj (fo_nproj o) (fo_ns o) (fo_ci o) (fo_ovlp o) (fo_dovlp o) (fo_ddovlp o) m (fo_cons o).
(** legacy.py:499-513, 515-529 freeze_parameter and unfreeze_parameter of parameter -1 *)
Definition freeze_energy (o : fobj) : fobj := set_mask o (upd (fo_mask o) (fo_nparam o - 1) false).
Definition unfreeze_energy (o : fobj) : fobj := set_mask o (upd (fo_mask o) (fo_nparam o - 1) true).
(** legacy.py:463-497 add_constraint, remove_constraint: self.constraints (69-74) is a tuple of names, which supports
    neither the assignment nor the deletion of items *)
Definition add_constraint (o : fobj) (n : cname) (c : ccon) : res fobj := Err TypeError.
Definition remove_constraint (o : fobj) (n : cname) : res fobj := Err TypeError.

Definition wpar (x : list K) : list K := removelast x.
Definition epar (x : list K) : K := last x 0.
(** the first element of a pair of constraint functions *)
Definition con_f (o : fobj) (x : list K) (c : ccon) : K :=
  match c with
  | CNorm => sumf (fun j => fo_ovlp o (wpar x) j * fo_ovlp o (wpar x) j) (seq 0 (fo_ns o)) - 1
  | CDet i v => fo_ovlp o (wpar x) i - v
  | CParam i v => if nth i (fo_mask o) false then nth i x 0 - v else 0
  | CUser f _ => f x
  end.
(** the second one; [c]: the size of the chunks of the norm constraint *)
Definition con_df (o : fobj) (c : nat) (x : list K) (cn : ccon) : list K :=
  let tail := if fo_eact o then [0] else [] in
  match cn with
  | CNorm => map (fun k => fold_left (fun y ch => y + sumf (fun j => (1 + 1) * fo_ovlp o (wpar x) j * fo_dovlp o (wpar x) j k) (seq (fst ch) (snd ch - fst ch)))
                             (chunks c (fo_ns o)) 0) (fo_act o) ++ tail
  | CDet i _ => map (fun k => fo_dovlp o (wpar x) i k) (fo_act o) ++ tail
  | CParam i _ => map (fun p => if (nth i (fo_mask o) false && Nat.eqb p (ntrue (firstn i (fo_mask o))))%bool then 1 else 0) (seq 0 (fo_nactive o))
  | CUser _ df => df x
  end.
(** legacy.py:531-580 compute_objective *)
Definition compute_objective (o : fobj) (x : list K) : list K :=
  map (fun n => sumf (fun j => fo_ci o n j * fo_ovlp o (wpar x) j) (seq 0 (fo_ns o)) - epar x * fo_ovlp o (wpar x) n) (seq 0 (fo_nproj o))
  ++ map (fun p => con_f o x (snd p)) (fo_cons o).
(** legacy.py:582-653 compute_jacobian *)
Definition compute_jacobian (o : fobj) (c : nat) (x : list K) : list (list K) :=
  map (fun n => map (fun k => sumf (fun j => fo_ci o n j * fo_dovlp o (wpar x) j k) (seq 0 (fo_ns o)) - epar x * fo_dovlp o (wpar x) n k) (fo_act o)
                ++ (if fo_eact o then [- fo_ovlp o (wpar x) n] else [])) (seq 0 (fo_nproj o))
  ++ map (fun p => con_df o c x (snd p)) (fo_cons o).
(** legacy.py:754-762 (mask_function) and fanpt.py:279, 330: y[mask] = x *)
Fixpoint put_mask (m : list bool) (y x : list K) : list K :=
  match m, y with
  | true :: m', _ :: y' => match x with v :: x' => v :: put_mask m' y' x' | [] => y end
  | false :: m', v :: y' => v :: put_mask m' y' x
  | _, _ => y
  end.
Definition get_mask (m : list bool) (y : list K) : list K := map snd (filter fst (combine m y)).
Definition masked_f (o : fobj) (x_ref x : list K) : list K :=
  if Nat.eqb (fo_nactive o) (fo_nparam o) then compute_objective o x else compute_objective o (put_mask (fo_mask o) x_ref x).

(** legacy.py:1108-1112: the parameters of a component (all of them in [ps]) with those selected at [inds] replaced
    by the entries of the vector [x] at the same places; legacy.py:1166-1169: by those at the places [0, 1, ...] *)
Definition feed_overlap (ps : list K) (inds : list nat) (x : list K) : list K :=
  fold_left (fun p i => upd p i (nth i x 0)) inds ps.
Definition feed_deriv (ps : list K) (inds : list nat) (x : list K) : list K :=
  fold_left (fun p ij => upd p (snd ij) (nth (fst ij) x 0)) (combine (seq 0 (length inds)) inds) ps.
End Fanci.
Arguments fobj : clear implicits. Arguments ccon : clear implicits.
