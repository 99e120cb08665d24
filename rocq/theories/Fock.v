(** Specification: fermionic creation/annihilation operators on occupation-number states
    (Jordan-Wigner convention: the phase of an operator on orbital i is the parity of the number of
    electrons in lower orbitals).  Independent of the model. *)
From Coq Require Import List ZArith NArith Bool.
From Verif Require Import BitSpec.
Import ListNotations.

(** [(true, i)] is the creation operator of orbital i, [(false, i)] the annihilation operator *)
Definition op := (bool * nat)%type.
Definition Ann (i : nat) : op := (false, i).
Definition Cre (i : nat) : op := (true, i).

(** signed basis state; the boolean says whether the sign is negative; None is the zero vector *)
Definition ket := option (bool * N).

Definition flip (n : N) (i : nat) : N := N.lxor n (N.shiftl 1 (N.of_nat i)).
Definition par (n : N) (i : nat) : bool := Nat.odd (nbelow n i).

Definition apply1 (o : op) (k : ket) : ket :=
  match k with
  | None => None
  | Some (s, n) =>
      if Bool.eqb (bit n (snd o)) (fst o) then None
      else Some (xorb s (par n (snd o)), flip n (snd o))
  end.

(** operators are applied in the order of the list: the head acts first *)
Definition applys (os : list op) (k : ket) : ket := fold_left (fun k o => apply1 o k) os k.

(** [<m| ... |n>] as an integer in {-1, 0, 1} *)
Definition braket (m : N) (k : ket) : Z :=
  match k with
  | None => 0%Z
  | Some (s, n) => if N.eqb m n then (if s then (-1)%Z else 1%Z) else 0%Z
  end.
Definition melem (m : N) (os : list op) (n : N) : Z := braket m (applys os (Some (false, n))).
