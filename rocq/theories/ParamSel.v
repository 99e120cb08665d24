(** Model of fanpy/eqn/utils.py (ComponentParameterIndices) and of the handling of parameters in
    fanpy/eqn/base.py (constructor, indices_objective_params, active_params, assign_params).

    A component (wavefunction, Hamiltonian or ParamContainer) is an object identified by a natural number.  The
    parameters of the components are a function from identities to (raveled) parameter vectors. *)
From Coq Require Import List ZArith Arith Bool.
From Verif Require Import Py Slater Alg.
Import ListNotations.

(** keys given to __setitem__: an object of one of the three classes, or anything else *)
Inductive ckey := KComp (c : nat) | KOther.
(** index arrays: one-dimensional of booleans, of integers, one-dimensional and empty of another type (such as the
    empty list), or anything else *)
Inductive indarg := IBool (l : list bool) | IInt (l : list Z) | IEmpty | IBad.
(** the ordered dictionary from components to arrays of indices *)
Definition sel := list (nat * list nat).

(** np.where(indices)[0] *)
Fixpoint where_from (i : nat) (l : list bool) : list nat :=
  match l with [] => [] | b :: t => if b then i :: where_from (S i) t else where_from (S i) t end.
(** np.unique(indices).size != indices.size *)
Fixpoint has_repeat (l : list Z) : bool :=
  match l with [] => false | x :: t => (existsb (Z.eqb x) t || has_repeat t)%bool end.
(** utils.py:144-181: the array of indices that is stored; [n] is component.nparams *)
Definition check_indices (n : nat) (a : indarg) : res (list nat) :=
  match a with
  | IBad => Err TypeError
  | IBool l => if negb (Nat.eqb (length l) n) then Err ValueError else Ok (where_from 0 l)
  | IInt l => if has_repeat l then Err ValueError
              else if existsb (fun i => Z.ltb i 0) l || existsb (fun i => Z.leb (Z.of_nat n) i) l then Err ValueError
              else Ok (map Z.to_nat (sorted_Z l))
  | IEmpty => Ok []
  end%bool.
(** OrderedDict.__setitem__: the position of an existing key is kept *)
Fixpoint put_sel (s : sel) (c : nat) (l : list nat) : sel :=
  match s with
  | [] => [(c, l)]
  | (d, m) :: t => if Nat.eqb d c then (d, l) :: t else (d, m) :: put_sel t c l
  end.
(** utils.py:117-183 __setitem__ *)
Definition set_item (np : nat -> nat) (s : sel) (k : ckey) (a : indarg) : res sel :=
  match k with
  | KOther => Err TypeError
  | KComp c => do l <- check_indices (np c) a; Ok (put_sel s c l)
  end.
Fixpoint find_sel (s : sel) (c : nat) : option (list nat) :=
  match s with [] => None | (d, l) :: t => if Nat.eqb d c then Some l else find_sel t c end.
(** utils.py:110-115 __getitem__ *)
Definition get_item (s : sel) (k : ckey) : list nat :=
  match k with KComp c => match find_sel s c with Some l => l | None => [] end | KOther => [] end.
Fixpoint eqb_list (a b : list nat) : bool :=
  match a, b with [] , [] => true | x :: s, y :: t => (Nat.eqb x y && eqb_list s t)%bool | _, _ => false end.
Definition has_key (s : sel) (c : nat) : bool := existsb (fun p => Nat.eqb (fst p) c) s.
(** utils.py:185-192 __eq__ between two objects of the class: the keys are compared as sets *)
Definition sel_eq (s t : sel) : bool :=
  (forallb (fun p => has_key t (fst p)) s && forallb (fun p => has_key s (fst p)) t
   && forallb (fun p => eqb_list (get_item s (KComp (fst p))) (get_item t (KComp (fst p)))) s)%bool.
(** a history of assignments; each comes with the numbers of parameters at that time, and an assignment that
    raises leaves the dictionary as it is *)
Definition assignment := ((nat -> nat) * ckey * indarg)%type.
Definition step_sel (s : sel) (x : assignment) : sel :=
  match x with (np, k, a) => match set_item np s k a with Ok s' => s' | Err _ => s end end.
Definition run_sel (h : list assignment) : sel := fold_left step_sel h [].

(** base.py:161-176: the selection that the constructor makes.  [given] is param_selection when it is not already
    a ComponentParameterIndices; an object of that class is used as it is (and is changed when the orbitals are
    added), see [add_orbitals]. *)
Definition all_ints (n : nat) : indarg := IInt (map Z.of_nat (seq 0 n)).
Fixpoint set_items (np : nat -> nat) (s : sel) (l : list (ckey * indarg)) : res sel :=
  match l with [] => Ok s | (k, a) :: t => do s' <- set_item np s k a; set_items np s' t end.
Definition add_orbitals (np : nat -> nat) (ham : nat) (optimize : bool) (s : sel) : res sel :=
  if (optimize && (negb (has_key s ham) || Nat.eqb (length (get_item s (KComp ham))) 0))%bool
  then set_item np s (KComp ham) (all_ints (np ham)) else Ok s.
Definition make_selection (np : nat -> nat) (wfn ham : nat) (given : option (list (ckey * indarg))) (optimize : bool) : res sel :=
  do s <- set_items np [] (match given with None => [(KComp wfn, all_ints (np wfn))] | Some l => l end);
  add_orbitals np ham optimize s.

(** base.py:200-215 indices_objective_params *)
Fixpoint slices_from (count : nat) (s : sel) : sel :=
  match s with [] => [] | (c, l) :: t => (c, seq count (length l)) :: slices_from (count + length l) t end.
Definition objective_inds (s : sel) : sel := slices_from 0 s.
(** base.py:264-274 active_nparams *)
Definition active_nparams (s : sel) : nat := list_sum (map (fun p => length (snd p)) s).

Section Params.
Context {K : Type}.
Definition world := nat -> list K.
Definition set_world (w : world) (c : nat) (v : list K) : world := fun d => if Nat.eqb d c then v else w d.
(** array[indices] *)
Definition take (v : list K) (inds : list nat) : res (list K) :=
  mapM (fun i => match nth_error v i with Some x => Ok x | None => Err IndexError end) inds.
(** array[indices] = values, for values of the length of the indices; an index that is out of range raises before
    anything is written *)
Definition scatter (v : list K) (inds : list nat) (vals : list K) : res (list K) :=
  if forallb (fun i => Nat.ltb i (length v)) inds then Ok (fold_left (fun u ix => upd u (fst ix) (snd ix)) (combine inds vals) v)
  else Err IndexError.
(** base.py:217-239 all_params; np.hstack of nothing raises *)
Definition all_params (w : world) (s : sel) : res (list K) :=
  match s with [] => Err ValueError | _ => Ok (flat_map (fun p => w (fst p)) s) end.
(** base.py:241-262 active_params *)
Definition active_params (w : world) (s : sel) : res (list K) :=
  match s with
  | [] => Err ValueError
  | _ => do ls <- mapM (fun p => take (w (fst p)) (snd p)) s; Ok (concat ls)
  end.
(** base.py:302-331 assign_params.  [store c v] is what component [c] keeps when its assign_params is given the
    vector [v], or the exception that it raises.  [view c]: raveling the parameters of [c] gives a view of its array
    (contiguous array), so that they are already overwritten when its assign_params is called; otherwise a copy. *)
Section Assign.
Variable store : nat -> list K -> res (list K).
Variable view : nat -> bool.
Fixpoint assign_loop (w : world) (s : sel) (slices : sel) (p : list K) : world * res unit :=
  match s with
  | [] => (w, Ok tt)
  | (c, inds) :: t =>
      match (do vals <- take p (get_item slices (KComp c)); scatter (w c) inds vals) with
      | Err e => (w, Err e)
      | Ok v =>
          let w1 := if view c then set_world w c v else w in
          match store c v with
          | Err e => (w1, Err e)
          | Ok v' => assign_loop (set_world w1 c v') t slices p
          end
      end
  end.
Definition assign_params (w : world) (s : sel) (p : list K) : world * res unit :=
  if negb (Nat.eqb (active_nparams (objective_inds s)) (length p)) then (w, Err ValueError)
  else assign_loop w s (objective_inds s) p.
End Assign.
End Params.
Arguments world : clear implicits.
