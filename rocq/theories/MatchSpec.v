(** Specification: perfect matchings of a vertex list. *)
From Coq Require Import List ZArith Permutation.
From Verif Require Import SignSpec.
Import ListNotations.

(** the vertices of a list of pairs, in order *)
Fixpoint flat (ps : list (Z * Z)) : list Z :=
  match ps with [] => [] | (x, y) :: t => x :: y :: flat t end.

(** every vertex of [L] is in exactly one pair *)
Definition perfect (L : list Z) (ps : list (Z * Z)) : Prop := Permutation (flat ps) L.

(** matchings are sets of unordered pairs *)
Definition edge (ps : list (Z * Z)) (x y : Z) : Prop := In (x, y) ps \/ In (y, x) ps.
Definition same_matching (ps qs : list (Z * Z)) : Prop := forall x y, edge ps x y <-> edge qs x y.

(** no two entries at different positions are related *)
Definition pairwise_distinct {A} (R : A -> A -> Prop) (l : list A) : Prop :=
  ForallOrdPairs (fun x y => ~ R x y) l.

(** (2h-1)!! *)
Fixpoint double_fact (h : nat) : nat :=
  match h with O => 1 | S k => (2 * k + 1) * double_fact k end.

(** [s] is the sign of putting the vertices of [ps] back into the order of [L] *)
Definition sign_to (L : list Z) (ps : list (Z * Z)) (s : Z) : Prop :=
  (exists k, swaps k (flat ps) L) /\ forall k, swaps k (flat ps) L -> s = pow_m1 k.
