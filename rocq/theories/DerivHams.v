(** The pair of orbitals of each parameter; Hamiltonians whose integrals are the first order changes. *)
From Coq Require Import List ZArith NArith Arith Bool.
From Verif Require Import Py Alg HamGen HamRes HamRot DerivSpec.
Import ListNotations.

(** the pair of a parameter *)
Definition pair_at (n i : nat) : nat * nat := nth i (triu_indices n) (0, 0)%nat.
(** the spin and the pair of a parameter of the unrestricted Hamiltonian *)
Definition u_pair_at (n i : nat) : bool * (nat * nat) :=
  if Nat.ltb i (n * (n - 1) / 2) then (true, pair_at n i) else (false, pair_at n (i - n * (n - 1) / 2)).

Section DerivHams.
Context {K : CRing}.
Local Open Scope cr_scope.
Definition der_g (h : gham K) (x y : nat) : gham K :=
  cache_two_ints (mkgham (gh_n h) (d1 x y (gh_one h)) (d2 x y (gh_two h)) (fun _ _ => 0) (fun _ _ => 0)).
Definition der_r (h : rham K) (x y : nat) : rham K :=
  r_cache_two_ints (mkrham (rh_n h) (d1 x y (rh_one h)) (d2 x y (rh_two h)) (fun _ _ => 0) (fun _ _ => 0)).
(** rotation of the alpha orbitals (t) or of the beta orbitals *)
Definition der_u (h : uham K) (t : bool) (x y : nat) : uham K :=
  let z1 := fun _ _ : nat => (0 : K) in
  let z2 := fun _ _ _ _ : nat => (0 : K) in
  u_cache_two_ints (mkuham (uh_n h)
    (if t then d1 x y (uh_one0 h) else z1) (if t then z1 else d1 x y (uh_one1 h))
    (if t then d2 x y (uh_two0 h) else z2) (if t then d2a x y (uh_two1 h) else d2b x y (uh_two1 h)) (if t then z2 else d2 x y (uh_two2 h))
    z1 z1 z1 z1 z1).
End DerivHams.
