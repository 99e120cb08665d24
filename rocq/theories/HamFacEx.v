(** Definitions of the examples of P_HamFac. *)
From Coq Require Import List ZArith NArith.
From Verif Require Import Py Slater Alg HamGen HamEx HamFac.
Import ListNotations.
(** the components of the generalized chemical Hamiltonian as a function of the determinants and the integrals *)
Definition gen_dec {K : CRing} (a b : N) (h : gham K) : res (list K) :=
  do t <- integrate_sd_sd_decomposed h a b; Ok [fst (fst t); snd (fst t); snd t].
Definition fx (orders : list Z) : facham Z_ring (gham Z_ring) := mkfac gen_dec (ex_h2 4) 4 orders None.
(** an overlap and two derivatives *)
Definition fx_ov (m : N) : res (list Z) := Ok [ex_f m].
Definition fx_ov2 (m : N) : res (list Z) := Ok [ex_f m; (2 * ex_f m + 1)%Z].
