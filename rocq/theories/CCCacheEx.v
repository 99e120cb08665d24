(** A history for the example of C48 *)
From Coq Require Import List ZArith NArith.
From Verif Require Import Py Slater Alg WfnCI CC CCEx CCCache.
Import ListNotations.
Definition ex_cc_history (memory : option Z) (refresh : Z) : res (list (ccanswer Z_ring)) :=
  do w <- new_cc (K := Z_ring) CCStandard 2 6 RanksNone None RefNone (CPArray (K := Z_ring) (map Z.of_nat (seq 1 14))) false refresh;
  Ok (cc_run (cc_object w memory)
    [XOverlap 18%N; XOverlap 10%N; XOverlap 18%N; XAssign (CPArray (K := Z_ring) (map Z.of_nat (seq 2 14))); XOverlap 18%N; XDeriv 18%N [0%Z; 2%Z]]).
