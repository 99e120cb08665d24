(** Definitions of the examples of P_WfnFac. *)
From Coq Require Import List ZArith NArith.
From Verif Require Import Py Slater Alg HamFac WfnFac.
Import ListNotations.
(** two parameters: the overlap is their product for one determinant and the second one for all others *)
Definition wx {K : CRing} (a b : K) : facwfn K :=
  mkfw (fun m p => Ok (if N.eqb m 5 then rmul (nth 0 p rO) (nth 1 p rO) else nth 1 p rO))
       (fun m p => Ok (if N.eqb m 5 then [nth 1 p rO; nth 0 p rO] else [rO; rI])) [a; b].
(** elements of two components, all alike *)
Definition hx {K : CRing} (orders : list Z) : facham K unit := mkfac (fun _ _ _ => Ok [rI; radd rI rI]) tt 4 orders None.
