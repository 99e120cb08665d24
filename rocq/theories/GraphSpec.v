(** Specifications for tools/graphs.py besides plain perfect matchings (MatchSpec). *)
From Coq Require Import List ZArith Permutation Sorted.
From Verif Require Import SignSpec MatchSpec.
Import ListNotations.

(** a perfect matching of the complete bipartite graph between [one] and [two] *)
Definition bipartite (one two : list Z) (ps : list (Z * Z)) : Prop :=
  Permutation (map fst ps) one /\ Permutation (map snd ps) two.

(** [s] is the sign of sorting [l] (into increasing, or with [d] into decreasing order) *)
Definition sign_sorting (d : bool) (l : list Z) (s : Z) : Prop :=
  forall k l', swaps k l l' -> StronglySorted Z.lt (if d then rev l' else l') -> s = pow_m1 k.

Definition Zsum (l : list Z) : Z := fold_right Z.add 0%Z l.

(** [p] is a way of paying [total] with the given coins *)
Definition payment (coins : list Z) (total : Z) (p : list Z) : Prop :=
  incl p coins /\ Zsum p = total.

(** adjacency of two vertices in a graph on the positions of [L] *)
Definition adj (L : list Z) (conn : nat -> nat -> bool) (x y : Z) : Prop :=
  exists i j, nth_error L i = Some x /\ nth_error L j = Some y /\ conn i j = true.

(** the pairs are listed in the order of their first vertices, and the first vertex of a pair comes
    before the second one in [L] *)
Inductive listed : list Z -> list (Z * Z) -> Prop :=
| listed_nil : listed [] []
| listed_cons : forall v l1 w l2 ps, listed (l1 ++ l2) ps -> listed (v :: l1 ++ w :: l2) ((v, w) :: ps).

(** partitions of a collection into bins.  [caps] lists the capacity of each bin. *)
Definition capacities (bsn : list (nat * nat)) : list nat :=
  flat_map (fun sn => repeat (fst sn) (snd sn)) bsn.

(** every element is in exactly one bin and no bin holds more than its capacity *)
Definition distribution (bsn : list (nat * nat)) (C : list Z) (P : list (list Z)) : Prop :=
  Permutation (concat P) C /\ Forall2 (fun b s => length b <= s) P (capacities bsn).

(** two bins are the same set *)
Definition same_bins (P Q : list (list Z)) : Prop :=
  exists Q', Permutation Q Q' /\ Forall2 (@Permutation Z) P Q'.

(** the same up to exchanging bins of one (size, number) group *)
Inductive same_dist : list (nat * nat) -> list (list Z) -> list (list Z) -> Prop :=
| sd_nil : same_dist [] [] []
| sd_cons : forall s n bsn P1 P2 Q1 Q2, length P1 = n -> length Q1 = n ->
    same_bins P1 Q1 -> same_dist bsn P2 Q2 -> same_dist ((s, n) :: bsn) (P1 ++ P2) (Q1 ++ Q2).
