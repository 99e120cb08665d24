(** Specification vocabulary for Slater determinants: a determinant is the set of its bits.
    Nothing here refers to the model. *)
From Coq Require Import List ZArith NArith Bool Sorted.
Import ListNotations.

(** orbital [i] is occupied in determinant [n] *)
Definition bit (n : N) (i : nat) : bool := N.testbit n (N.of_nat i).
Arguments bit : simpl never.

(** all occupied orbitals are below [k] *)
Definition fits (n : N) (k : nat) : Prop := forall i, k <= i -> bit n i = false.

(** number of occupied orbitals below [k] *)
Definition nbelow (n : N) (k : nat) : nat := length (filter (bit n) (seq 0 k)).

(** [n] has exactly [k] electrons *)
Definition has_electrons (n : N) (k : nat) : Prop :=
  exists l, NoDup l /\ (forall i, In i l <-> bit n i = true) /\ length l = k.

(** strictly increasing list *)
Notation increasing := (StronglySorted lt).

(** the set of indices satisfying [P] has exactly [c] elements *)
Definition counts (P : nat -> bool) (c : nat) : Prop :=
  exists l, NoDup l /\ (forall i, In i l <-> P i = true) /\ length l = c.

(** occupations of the aufbau determinant: [na] lowest alpha, [nb] lowest beta orbitals *)
Definition ground_bits (na nb k : nat) (i : nat) : bool :=
  Nat.ltb i na || (Nat.leb k i && Nat.ltb i (k + nb)).

(** spatial orbital [i] holds an alpha / a beta / exactly one electron, block ordering with [k]
    spatial orbitals *)
Definition alpha_at (n : N) (k : nat) (i : nat) : bool := Nat.ltb i k && bit n i.
Definition beta_at (n : N) (k : nat) (i : nat) : bool := bit n (i + k).
Definition single_at (n : N) (k : nat) (i : nat) : bool := xorb (alpha_at n k i) (beta_at n k i).

(** electrons, other than the moved one, on the way from [c] to [f] (both ends included) *)
Definition jumped (n : N) (c f : nat) : nat :=
  length (filter (fun j => bit n j && negb (Nat.eqb j c))
                 (seq (Nat.min c f) (S (Nat.max c f - Nat.min c f)))).


(** orbital [i] is occupied in [n] and not in [m] *)
Definition lost (n m : N) (i : nat) : bool := bit n i && negb (bit m i).
