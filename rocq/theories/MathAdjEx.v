(** Definitions of the examples of P_MathAdj. *)
From Coq Require Import List ZArith NArith Arith Bool QArith Qcanon.
From Verif Require Import Py Slater Alg MathTools MathAdj MathAdjSpec.
Import ListNotations.
(** the inverse by the cofactors themselves *)
Definition cof_inv {K : CField} (n : nat) (m : nat -> nat -> K) : res (nat -> nat -> K) :=
  Ok (fun i j => rmul (finv (det n m)) (cofactor n m j i)).
(** a three by three matrix *)
Definition ex_m (i j : nat) : Qc := Q2Qc (inject_Z (nth j (nth i [[2; -1; 3]; [0; 4; 1]; [5; 2; -2]]%Z []) 0%Z)).
Definition ex_inv : nat -> (nat -> nat -> Qc_field) -> res (nat -> nat -> Qc_field) := cof_inv.
Definition ex_small (x : Qc_field) : bool := Qle_bool (this x * this x) (1 # 1000000000000000000000000).
