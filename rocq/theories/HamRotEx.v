(** Concrete integrals, norms and histories for the examples on orbital rotations. *)
From Coq Require Import List ZArith NArith Arith Bool QArith Qcanon.
From Verif Require Import Py Alg HamGen HamRes HamRot HamEx.
Import ListNotations.
Local Open Scope nat_scope.

Definition qz (z : Z) : Qc_field := Q2Qc (inject_Z z).
Definition qf (a : Z) (b : positive) : Qc_field := Q2Qc (a # b).
Definition qlt (a b : Qc_field) : bool := match (this a ?= this b)%Q with Lt => true | _ => false end.
(** the squared Frobenius norm exceeds a bound *)
Definition norm2 (n : nat) (m : nat -> nat -> Qc_field) : Qc_field :=
  sumf (K := Qc_field) (fun p => rmul (m (fst p) (snd p)) (m (fst p) (snd p))) (list_prod (seq 0 n) (seq 0 n)).
Definition ex_big (n : nat) (m : nat -> nat -> Qc_field) : bool := qlt (qf 1 1000) (norm2 n m).
Definition ex_huge (n : nat) (m : nat -> nat -> Qc_field) : bool := qlt (qz 100) (norm2 n m).
Definition ex_expm (n : nat) (m : nat -> nat -> Qc_field) : nat -> nat -> Qc_field := fun i j => qz 7.
Definition ex_ints (n : nat) : ints Qc_field :=
  mkints (K := Qc_field) n (fun i j => qz (ex_one i j)) (fun i j k l => qz (ex_two i j k l)).
Definition ex_uints (n : nat) : uints Qc_field :=
  mkuints (K := Qc_field) n (fun i j => qz (ex_one i j)) (fun i j => qz (ex_one i j + Z.of_nat i))
    (fun i j k l => qz (ex_two i j k l)) (fun i j k l => qz (ex_two i j k l + 2 * Z.of_nat i - Z.of_nat l))
    (fun i j k l => qz (ex_two i j k l + Z.of_nat i * Z.of_nat j)).
(** numerators and denominators, for comparison *)
Definition qs (x : Qc_field) : Z * positive := (Qnum (this x), Qden (this x)).
Definition ex_new (p : option (list Qc_field)) (b : bool) := new_ham ex_big ex_huge ex_expm (ex_ints 2) p b.
Definition ex_assign (o : hobj Qc_field * res unit) (p : list Qc_field) := assign_params ex_big ex_huge ex_expm (fst o) (Some p).
Definition ex_unew (p : option (list Qc_field)) (b : bool) := u_new_ham ex_big ex_huge ex_expm (ex_uints 2) p b.
Definition ex_uassign (o : uobj Qc_field * res unit) (p : list Qc_field) := u_assign_params ex_big ex_huge ex_expm (fst o) (Some p).
Definition ex_val (o : hobj Qc_field) := (qs (i_one (o_ints o) 0 1), qs (i_two (o_ints o) 0 1 1 1), qs (o_ijji o 0 1)).
Definition ex_uval (o : uobj Qc_field) :=
  (qs (ui_one0 (uo_ints o) 0 1), qs (ui_one1 (uo_ints o) 0 1), qs (ui_two1 (uo_ints o) 0 1 1 1), qs (uh_2_ijji (obj_uham o) 0 1)).
Definition ex_um (l : list Qc_field) := match unitary_matrix ex_big ex_huge ex_expm l with
  | Ok (n, u) => Ok (map (fun p => qs (u (fst p) (snd p))) (list_prod (seq 0 n) (seq 0 n))) | Err e => Err e end.
