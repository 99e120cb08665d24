(** Concrete derivatives for the examples. *)
From Coq Require Import List ZArith NArith Arith Bool.
From Verif Require Import Py Slater Alg HamGen HamRes HamEx HamDeriv DerivSpec DerivHams.
Import ListNotations.
Local Open Scope nat_scope.

(** symmetric, different for each spin; the alpha-beta integrals are not symmetric under the exchange *)
Definition ex_us (n : nat) : uham Z_ring :=
  u_cache_two_ints (mkuham (K := Z_ring) n ex_one (fun i j => ex_one i j + Z.of_nat (i * j))%Z
    ex_two (fun i j k l => ex_two i j k l + 2 * Z.of_nat (i * k) - Z.of_nat (j + l))%Z
    (fun i j k l => ex_two i j k l + Z.of_nat (i * j * k * l))%Z
    (fun _ _ => 0%Z) (fun _ _ => 0%Z) (fun _ _ => 0%Z) (fun _ _ => 0%Z) (fun _ _ => 0%Z)).
Definition all_params (l : nat) : list Z := map Z.of_nat (seq 0 l).
Definition teqb (a b : Z * Z * Z) : bool :=
  (Z.eqb (fst (fst a)) (fst (fst b)) && Z.eqb (snd (fst a)) (snd (fst b)) && Z.eqb (snd a) (snd b))%bool.
Definition all2 (l k : list (Z * Z * Z)) : bool := Nat.eqb (length l) (length k) && forallb (fun p => teqb (fst p) (snd p)) (combine l k).
Definition same3 (r s : res (list (Z * Z * Z))) : bool :=
  match r, s with Ok l, Ok k => all2 l k | _, _ => false end.
(** all determinants over k orbitals but the vacuum *)
Definition dets (k : nat) : list N := map N.of_nat (seq 1 (2 ^ k - 1)).
Definition g_agrees (n : nat) (m1 m2 : N) : bool :=
  let h := ex_h n in let np := n * (n - 1) / 2 in
  same3 (deriv_decomposed h m1 m2 (all_params np))
        (mapM (fun i => integrate_sd_sd_decomposed (der_g h (fst (pair_at n i)) (snd (pair_at n i))) m1 m2) (seq 0 np)).
Definition r_agrees (n : nat) (m1 m2 : N) : bool :=
  let h := ex_r n in let np := n * (n - 1) / 2 in
  same3 (r_deriv_decomposed h m1 m2 (all_params np))
        (mapM (fun i => r_decomposed (der_r h (fst (pair_at n i)) (snd (pair_at n i))) m1 m2) (seq 0 np)).
Definition u_agrees (n : nat) (m1 m2 : N) : bool :=
  let h := ex_us n in let np := n * (n - 1) in
  same3 (u_deriv_decomposed h m1 m2 (all_params np))
        (mapM (fun i => let p := u_pair_at n i in u_decomposed (der_u h (fst p) (fst (snd p)) (snd (snd p))) m1 m2) (seq 0 np)).
Definition all_pairs (k : nat) (f : N -> N -> bool) : bool := forallb (fun p => f (fst p) (snd p)) (list_prod (dets k) (dets k)).
