(** Example wavefunctions for the coupled-cluster theorems *)
From Coq Require Import List ZArith NArith Arith Bool.
From Verif Require Import Py Slater Alg WfnCI CC.
Import ListNotations.
Open Scope Z_scope.
(** two electrons in three spatial orbitals, operators of ranks 1 and 2, amplitudes 1, 2, 3, ... *)
Definition ex_cc (c : ccclass) (ref : refarg) (ranks : ranksarg) (n : nat) : res (cc Z_ring) :=
  new_cc (K := Z_ring) c 2 6 ranks None ref (CPArray (K := Z_ring) (map Z.of_nat (seq 1 n))) false 0.
Definition ex_cc_value (w : res (cc Z_ring)) (sd : N) : res Z := do w <- w; cc_overlap w sd.
Definition ex_cc_deriv (w : res (cc Z_ring)) (sd : N) (ds : list Z) : res (list Z) := do w <- w; cc_overlap_deriv w sd ds.
(** the same over the rationals, with operators between given lists of orbitals *)
Definition ex_q (c : ccclass) (nelec nspin : Z) (ranks : ranksarg) (indices : option (list (list Z))) (amps : list Z) : res (cc (fring Qc_field)) :=
  new_cc (K := Qc_field) c nelec nspin ranks indices RefNone (CPArray (K := Qc_field) (map (fun z => Qcanon.Q2Qc (QArith_base.inject_Z z)) amps)) false 0.
