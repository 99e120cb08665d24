(** Specification for C75: where the orbitals of a subsystem sit in the system.  Independent of the model. *)
From Coq Require Import List ZArith.
Import ListNotations.
(** z is the orbital number j of the subsystem made of the orbitals l: there are j orbitals of l below z *)
Definition sits (l : list Z) (j z : Z) : Prop := In z l /\ j = Z.of_nat (length (filter (fun y => (y <? z)%Z) l)).
(** the operator e of the subsystem is the operator e' of the system *)
Definition same_operator (l : list Z) (e e' : list Z) : Prop := Forall2 (sits l) e e'.
