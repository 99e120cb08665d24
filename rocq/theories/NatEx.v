(** eigh and argsort for the examples about natural orbitals. *)
From Coq Require Import List ZArith NArith Arith Bool QArith Qcanon.
From Verif Require Import Py Slater Alg WfnCI SolverEx.
Import ListNotations.
Local Open Scope nat_scope.
(** matrices of one row and diagonal matrices of two rows *)
Definition eigh_q (n : nat) (m : nat -> nat -> Qc_field) : res (list Qc_field * list (list Qc_field)) :=
  match n with
  | 1 => Ok ([m 0 0], [[1%Qc]])
  | 2 => if qeq (m 0 1) 0%Qc then Ok ([m 0 0; m 1 1], [[1%Qc; 0%Qc]; [0%Qc; 1%Qc]]) else Err ValueError
  | _ => Err ValueError
  end.
Definition qleb (a b : Qc) : bool := if Qclt_le_dec b a then false else true.
Fixpoint ins (key : nat -> Qc) (i : nat) (l : list nat) : list nat :=
  match l with [] => [i] | j :: t => if qleb (key i) (key j) then i :: l else j :: ins key i t end.
Definition argsort_q (l : list Qc_field) : list nat := fold_right (ins (fun i => nth i l 0%Qc)) [] (seq 0 (length l)).
(** 3/5 and 4/5 times a pair in the first and in the second orbital; an electron with either spin *)
Definition ci_no : ciwfn Qc_field := @mkci Qc_field 2%Z 4%Z None None [5%N; 10%N] [Q2Qc (3 # 5); Q2Qc (4 # 5)].
Definition ci_mixed : ciwfn Qc_field := @mkci Qc_field 1%Z 2%Z None None [1%N; 2%N] [1%Qc; 1%Qc].
Definition show_no (r : res (list Qc_field * list (list Qc_field))) : res (list Q * list (list Q)) :=
  do x <- r; Ok (map (fun a : Qc_field => this a) (fst x), map (map (fun a : Qc_field => this a)) (snd x)).
