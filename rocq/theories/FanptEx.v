(** Systems for the examples about the perturbation theory: two determinants, one parameter and the energy. *)
From Coq Require Import List ZArith NArith Arith Bool QArith Qcanon.
From Verif Require Import Py Slater Alg Fanci Fanpt SolverEx.
Import ListNotations.
Local Open Scope nat_scope.

(** the operator of a Hamiltonian has its one-electron integrals as elements *)
Definition ex_sop (h : pham Qc_field) (n j : nat) : Qc_field := h_one h n j.
(** numpy.linalg.lstsq and inv of 2 by 2 matrices *)
Definition ex_lstsq (nr nc : nat) (m : nat -> nat -> Qc_field) (b : nat -> Qc_field) (p : nat) : Qc_field :=
  let d := (m 0%nat 0%nat * m 1%nat 1%nat - m 0%nat 1%nat * m 1%nat 0%nat)%Qc in
  match p with 0 => ((b 0%nat * m 1%nat 1%nat - m 0%nat 1%nat * b 1%nat) / d)%Qc | 1 => ((m 0%nat 0%nat * b 1%nat - b 0%nat * m 1%nat 0%nat) / d)%Qc | _ => 0%Qc end.
Definition ex_inv (n : nat) (m : nat -> nat -> Qc_field) (i j : nat) : Qc_field :=
  if Nat.eqb n 1 then (1 / m 0%nat 0%nat)%Qc
  else ex_lstsq n n m (fun k => if Nat.eqb k j then 1%Qc else 0%Qc) i.
Definition ex_lt (a b : Qc_field) : bool := match Qccompare a b with Lt => true | _ => false end.
Definition ex_le (a b : Qc_field) : bool := match Qccompare a b with Gt => false | _ => true end.
Definition ex_isz (a : Qc_field) : bool := qeq a 0%Qc.
Definition mat2 (a b c d : Z) (i j : nat) : Qc_field :=
  match i, j with 0, 0 => zc a | 0, 1 => zc b | 1, 0 => zc c | 1, 1 => zc d | _, _ => 0%Qc end.
Definition ex_ham (a b c d : Z) : pham Qc_field := mkpham (F := Qc_field) 0%Qc (mat2 a b c d) (fun _ _ _ _ => 0%Qc).
(** the ideal Hamiltonian is diagonal, the real one adds a coupling *)
Definition ex_h0 : pham Qc_field := ex_ham 0 0 0 1.
Definition ex_h1 : pham Qc_field := ex_ham 1 1 1 1.
(** overlaps 1 + p^2 and p *)
Definition ex_quad : fobj Qc_field := mkfobj (K := Qc_field) 2 2 (mat2 0 0 0 1)
  (fun ps j => let p := nth 0 ps 0%Qc in match j with 0 => (1 + p * p)%Qc | 1 => p | _ => 0%Qc end)
  (fun ps j k => let p := nth 0 ps 0%Qc in match j with 0 => ((1 + 1) * p)%Qc | 1 => 1%Qc | _ => 0%Qc end)
  (Some (fun ps j k l => match j with 0 => (1 + 1)%Qc | _ => 0%Qc end)) [true; true] [].
Definition ex_dd (j k l : nat) : Qc_field := match j with 0 => (1 + 1)%Qc | _ => 0%Qc end.
(** overlaps 1 and p *)
Definition ex_lin : fobj Qc_field := mkfobj (K := Qc_field) 2 2 (mat2 0 0 0 1)
  (fun ps j => let p := nth 0 ps 0%Qc in match j with 0 => 1%Qc | 1 => p | _ => 0%Qc end)
  (fun ps j k => match j with 1 => 1%Qc | _ => 0%Qc end)
  (Some (fun ps j k l => 0%Qc)) [true; true] [].
(** the solution at lambda 0: p = 0, E = 0 *)
Definition ex_x : list Qc_field := [0%Qc; 0%Qc].
Definition ex_cont (o : fobj Qc_field) (three : bool) : cont Qc_field :=
  mkcont (F := Qc_field) o 1 ex_x 0%Qc 0 false false (ex_sop (linear_comb_ham ex_h1 ex_h0 (0%Qc : Qc_field) (@rsub Qc_field rI 0%Qc))) (ex_sop (linear_comb_ham ex_h1 ex_h0 (@rI Qc_field) (@ropp Qc_field rI))) ex_h1 ex_h0
    (if three then match fo_ddovlp o with Some f => f (wpar ex_x) | None => fun _ _ _ => 0%Qc end else fun _ _ _ => 0%Qc).
