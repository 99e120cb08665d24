(** Concrete CI wavefunctions used by the examples *)
From Coq Require Import List ZArith NArith Arith Bool.
From Verif Require Import Py Slater SdList Alg WfnCI.
Import ListNotations.

(** print an [n] by [n] matrix *)
Definition zrows (n : nat) (r : res (nat -> nat -> Z_ring)) : res (list (list Z)) :=
  do g <- r; Ok (map (fun p => map (fun q => (g p q : Z)) (seq 0 n)) (seq 0 n)).
(** a CI wavefunction with given determinants and coefficients *)
Definition zci (ne ns : Z) (sds : list N) (ps : list Z) : res (ciwfn Z_ring) :=
  new_ci CIGeneral ne ns (Some (ps : list Z_ring)) (Some sds) None None.
Definition zrdm (ne ns : Z) (sds : list N) (ps : list Z) : res (list (list Z)) :=
  zrows (Z.to_nat ns) (do w <- zci ne ns sds ps; compute_1rdm w).
Definition zov (ne ns : Z) (sds : list N) (ps : list Z) (sd : N) : res Z :=
  do w <- zci ne ns sds ps; ci_overlap w sd.
Definition zdov (ne ns : Z) (sds : list N) (ps : list Z) (sd : N) (d : list Z) : res (list Z) :=
  do w <- zci ne ns sds ps; ci_overlap_deriv w sd d.
Definition zimport (ne ns : Z) (sds : list N) (ps : list Z) (sds2 : list N) (ps2 : list Z) : res (list Z) :=
  do w <- zci ne ns sds ps; do g <- zci ne ns sds2 ps2; do w' <- import_params w g; Ok (ci_params w' : list Z).
(** the determinants chosen by a constructor *)
Definition zsds (c : ciclass) (ne ns : Z) (sp se : option Z) : res (list N) :=
  do w <- new_ci (K := Z_ring) c ne ns None None sp se; Ok (ci_sds w).
