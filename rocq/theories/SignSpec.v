(** Specification: sorting by adjacent transpositions. *)
From Coq Require Import List ZArith Sorted.
Import ListNotations.

(** [swaps k l l']: the list [l] becomes [l'] after [k] exchanges of neighbours *)
Inductive swaps {A} : nat -> list A -> list A -> Prop :=
| swaps_0 : forall l, swaps 0 l l
| swaps_S : forall k l1 a b l2 l',
    swaps k (l1 ++ b :: a :: l2) l' -> swaps (S k) (l1 ++ a :: b :: l2) l'.

Definition pow_m1 (k : nat) : Z := if Nat.odd k then (-1)%Z else 1%Z.

(** [s] is the signature of [l] with respect to increasing order *)
Definition signature (l : list Z) (s : Z) : Prop :=
  exists k l', swaps k l l' /\ StronglySorted Z.lt l' /\ s = pow_m1 k.
