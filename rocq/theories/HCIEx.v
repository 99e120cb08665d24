(** Helpers for the examples about hCI. *)
From Coq Require Import List ZArith NArith QArith.
From Verif Require Import Py SdList Alg WfnCI WfnHCI.
Import ListNotations.
(** determinants, the set being listed without duplicates in the order of the last occurrence *)
Definition zhci ne ns p H v : res (list N) :=
  do w <- new_hci (K := Z_ring) (nodup N.eq_dec) ne ns (Some p) (Some H) v None RefNone; Ok (ci_sds (fst w)).
