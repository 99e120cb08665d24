(** Example wavefunctions for C75 *)
From Coq Require Import List ZArith NArith Arith Bool.
From Verif Require Import Py Slater Alg WfnCI CC EmbCC.
Import ListNotations.
Open Scope Z_scope.
(** two subsystems of two electrons in two spatial orbitals each; amplitudes 1, 2, ... of the first, 11, 12, ... of the second *)
Definition ex_emb (inds : list (list Z)) (ranks : option (list ranksarg)) (n1 n2 : nat) (inter : list (list Z)) (ip : option (list Z)) : res (cc Z_ring) :=
  new_emb (K := Z_ring) [2; 2] [4; 4] inds [CCStandard; CCStandard] ranks None inter []
    (Some [CPArray (K := Z_ring) (map Z.of_nat (seq 1 n1)); CPArray (K := Z_ring) (map Z.of_nat (seq 11 n2))]) ip false 0.
Definition ex_emb_values (w : res (cc Z_ring)) (sds : list N) : res (list Z) := do w <- w; mapM (cc_overlap w) sds.
(** one subsystem of three electrons, amplitudes 1, 2, ... *)
Definition ex_emb1 (ranks : option (list ranksarg)) : res (cc Z_ring) :=
  new_emb (K := Z_ring) [3] [6] [[0; 1; 2; 3; 4; 5]] [CCStandard] ranks None [] []
    (Some [CPArray (K := Z_ring) (map Z.of_nat (seq 1 19))]) None false 0.
Definition ex_cc1 : res (cc Z_ring) :=
  new_cc (K := Z_ring) CCStandard 3 6 RanksNone None RefNone (CPArray (K := Z_ring) (map Z.of_nat (seq 1 19))) false 0.
