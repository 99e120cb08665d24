(** Projected equations of the example system. *)
From Coq Require Import List ZArith NArith Arith Bool QArith Qcanon Reals.
From Verif Require Import Py Slater Alg ParamSel EqnBase EqnObj EqnEx EqnReal EqnNorm EqnEx2.
From Coq Require Import List.
Import ListNotations.
Section Ex.
Context {K : CField}.
(** the energy is computed and stored in component 2; two determinants and the normalization *)
Definition ex_eqns (t : etype) (o : obj K) : eqns K := mkeqns o (RefSds [sd1]) [sd1; sd2] t 2%nat
  [norm_cons o (RefSds [sd1; sd2])] (default_weights 2 1).
End Ex.
(** a geminal wavefunction, one equation *)
Definition gem_eqns : eqns R_field := mkeqns gem_obj (RefSds [sd1]) [sd2] Compute 2%nat [] [1%R].
