(** Specification of the names of the files of parameters. *)
From Coq Require Import Ascii String Arith Bool List.
From Verif Require Import Py SaveNames.
Import ListNotations.
Local Open Scope char_scope.

Definition digit (c : ascii) : Prop := (48 <= nat_of_ascii c <= 57)%nat.
(** names of classes without dots, slashes and underscores, none of which is another one followed by digits *)
Definition tame (n : str) : Prop := ~ In "." n /\ ~ In "/" n /\ ~ In "_" n.
Definition siblings (l : list str) : Prop :=
  Forall tame l /\ forall a b q, In a l -> In b l -> q <> [] -> Forall digit q -> a <> b ++ q.
(** the same at every level of a component *)
Inductive tame_tree : ptree -> Prop :=
  | tame_plain : forall n, tame_tree (Plain n)
  | tame_rot : forall n, tame_tree (Rot n)
  | tame_one : forall n t, tame (tname t) -> tame_tree t -> tame_tree (One n t)
  | tame_comb : forall n l, siblings (map tname l) -> Forall tame_tree l -> tame_tree (Comb n l).
(** the arrays of parameters and unitary matrices of a component *)
Inductive arrays : ptree -> nat -> Prop :=
  | arrays_plain : forall n, arrays (Plain n) 1
  | arrays_rot : forall n, arrays (Rot n) 2
  | arrays_one : forall n t k, arrays t k -> arrays (One n t) (S k)
  | arrays_comb : forall n l ks, Forall2 arrays l ks -> arrays (Comb n l) (S (list_sum ks)).
