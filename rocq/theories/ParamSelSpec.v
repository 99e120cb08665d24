(** Specification of selections of parameters and of vectors of active parameters. *)
From Coq Require Import List ZArith Arith Bool.
From Verif Require Import Py BitSpec ParamSel.
Import ListNotations.

(** an index array is acceptable for a component with [n] parameters *)
Definition acceptable (n : nat) (a : indarg) : Prop :=
  match a with
  | IBool l => length l = n
  | IInt l => NoDup l /\ Forall (fun i => 0 <= i < Z.of_nat n)%Z l
  | IEmpty => True
  | IBad => False
  end.
(** the index array picks parameter [i] *)
Definition picks (a : indarg) (i : nat) : Prop :=
  match a with
  | IBool l => nth_error l i = Some true
  | IInt l => In (Z.of_nat i) l
  | _ => False
  end.
Definition valid (x : assignment) : Prop :=
  match x with (np, KComp c, a) => acceptable (np c) a | _ => False end.
Definition target (x : assignment) : ckey := snd (fst x).
(** the list of the different elements, in the order of their first occurrences *)
Inductive firsts : list nat -> list nat -> Prop :=
  | firsts_nil : firsts [] []
  | firsts_new : forall l r x, firsts l r -> ~ In x l -> firsts (l ++ [x]) (r ++ [x])
  | firsts_old : forall l r x, firsts l r -> In x l -> firsts (l ++ [x]) r.
(** a selection that fits the parameters of the components *)
Definition fits_sel (np : nat -> nat) (s : sel) : Prop :=
  NoDup (map fst s) /\ forall c l, In (c, l) s -> increasing l /\ Forall (fun i => i < np c) l.
(** the parameter at place [k] of the vector of active parameters is parameter [i] of component [c] *)
Inductive place : sel -> nat -> nat -> nat -> Prop :=
  | place_here : forall c l t k i, nth_error l k = Some i -> place ((c, l) :: t) k c i
  | place_next : forall c l t k d i, place t k d i -> place ((c, l) :: t) (length l + k) d i.
Definition selected (s : sel) (c i : nat) : Prop := exists l, In (c, l) s /\ In i l.
