(** Specification of determinant lists: which determinants are wanted. *)
From Coq Require Import List ZArith NArith Bool Sorted.
From Verif Require Import BitSpec.
Import ListNotations.

(** [n] has 2*spin = [s] and seniority [v], for [k] spatial orbitals *)
Definition has_spin2 (n : N) (k : nat) (s : Z) : Prop :=
  exists na nb, counts (alpha_at n k) na /\ counts (beta_at n k) nb /\ s = (Z.of_nat na - Z.of_nat nb)%Z.
Definition has_seniority (n : N) (k : nat) (v : nat) : Prop := counts (single_at n k) v.

Definition spin_is (n : N) (k : nat) (spin2 : option Z) : Prop :=
  forall s, spin2 = Some s -> has_spin2 n k s.
Definition seniority_at_most (n : N) (k : nat) (sen : option Z) : Prop :=
  forall y, sen = Some y -> exists v, has_seniority n k v /\ (Z.of_nat v <= y)%Z.

(** the requested determinants (without hierarchy) *)
Definition wanted (n : N) (k : nat) (spin2 sen : option Z) : Prop :=
  spin_is n k spin2 /\ seniority_at_most n k sen.
(** the requested determinants with hierarchy: seniority exactly as requested; spin 1 means any *)
Definition wanted_h (n : N) (k : nat) (spin2 sen : option Z) : Prop :=
  (spin2 = Some 2%Z \/ spin_is n k spin2) /\
  exists v, sen = Some (Z.of_nat v) /\ has_seniority n k v.
Definition wanted_sd (h : bool) := if h then wanted_h else wanted.

(** [m] is obtained from [g] by moving exactly [k] electrons *)
Definition excitation (g m : N) (k : nat) : Prop := counts (lost g m) k /\ counts (lost m g) k.

(** the aufbau determinant of [ne] electrons in [2*k] spin orbitals *)
Definition is_aufbau (g : N) (ne k : nat) : Prop :=
  forall i, bit g i = ground_bits (Nat.div (ne + 1) 2) (Nat.div ne 2) k i.

(** *** Order of the list: electrons are taken from the highest orbitals first and put into the
    lowest orbitals first; in one spatial orbital the alpha spin orbital comes first. *)
Definition spatial_of (k x : nat) : nat := if Nat.leb k x then x - k else x.
Definition fills_before (k x y : nat) : Prop :=
  spatial_of k x < spatial_of k y \/ spatial_of k x = spatial_of k y /\ x < y.
Definition empties_before (k x y : nat) : Prop :=
  spatial_of k y < spatial_of k x \/ spatial_of k x = spatial_of k y /\ x < y.

(** lexicographic comparison by the first difference *)
Inductive lex_before {A} (R : A -> A -> Prop) : list A -> list A -> Prop :=
| lex_here : forall x y s t, R x y -> lex_before R (x :: s) (y :: t)
| lex_next : forall x s t, lex_before R s t -> lex_before R (x :: s) (x :: t).

(** [a] lists the orbitals of [P] in the order [R] *)
Definition listed_by (R : nat -> nat -> Prop) (P : nat -> bool) (a : list nat) : Prop :=
  StronglySorted R a /\ forall i, In i a <-> P i = true.

(** [m] comes before [m'] among the excitations of [g]: first compare the emptied orbitals, then
    the filled ones *)
Definition det_before (k : nat) (g m m' : N) : Prop :=
  exists a c a' c',
    listed_by (empties_before k) (lost g m) a /\ listed_by (fills_before k) (lost m g) c /\
    listed_by (empties_before k) (lost g m') a' /\ listed_by (fills_before k) (lost m' g) c' /\
    (lex_before (empties_before k) a a' \/ a = a' /\ lex_before (fills_before k) c c').
