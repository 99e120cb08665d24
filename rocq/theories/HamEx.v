(** Small integrals for the examples. *)
From Coq Require Import List ZArith NArith Arith.
From Verif Require Import Py Alg HamGen.
Import ListNotations.
Local Open Scope Z_scope.

Definition ex_a (i j : nat) : Z := let i := Z.of_nat i in let j := Z.of_nat j in (i * i + j * j + i * j + 1) mod 7.
Definition ex_b (i j : nat) : Z := let i := Z.of_nat i in let j := Z.of_nat j in (i + j + 2 * i * j + 3) mod 5.
Definition ex_one (i j : nat) : Z := 10 * ex_a i j + ex_b i j.
Definition ex_two (i j k l : nat) : Z := ex_a i k * ex_a j l + 3 * (ex_b i k * ex_b j l).
Definition ex_h (n : nat) : gham Z_ring :=
  cache_two_ints (mkgham (K := Z_ring) n ex_one ex_two (fun _ _ => 0) (fun _ _ => 0)).
(** not Hermitian, but symmetric under the exchange of electrons *)
Definition ex_h2 (n : nat) : gham Z_ring :=
  cache_two_ints (mkgham (K := Z_ring) n (fun i j => ex_one i j + Z.of_nat i)
    (fun i j k l => ex_two i j k l + Z.of_nat i * Z.of_nat j) (fun _ _ => 0) (fun _ _ => 0)).
(** a coefficient vector *)
Definition ex_f (n : N) : Z := (Z.of_N n * Z.of_N n + 3) mod 11 - 5.

(** spin-adapted Hamiltonians *)
From Verif Require Import HamRes.
Definition ex_r (n : nat) : rham Z_ring :=
  r_cache_two_ints (mkrham (K := Z_ring) n ex_one ex_two (fun _ _ => 0) (fun _ _ => 0)).
(** three different sets of integrals, the alpha-beta one without any symmetry *)
Definition ex_u (n : nat) : uham Z_ring :=
  u_cache_two_ints (mkuham (K := Z_ring) n ex_one (fun i j => ex_one i j + Z.of_nat i)
    ex_two (fun i j k l => ex_two i j k l + 2 * Z.of_nat i - Z.of_nat l)
    (fun i j k l => ex_two i j k l + Z.of_nat i * Z.of_nat j)
    (fun _ _ => 0) (fun _ _ => 0) (fun _ _ => 0) (fun _ _ => 0) (fun _ _ => 0)).
