(** Concrete wavefunctions for the examples of C63: two electrons in four spin orbitals, integer overlaps, the angle
    stands for the pair (cos, sin) = (3/5, 4/5) scaled, or for a quarter turn. *)
From Coq Require Import List ZArith NArith QArith Qcanon.
From Verif Require Import Py Alg WfnCI Composite Cache WfnCached OrbSpec Jacobi JacobiSpec.
Import ListNotations.
Definition exq (n : Z) (d : positive) : Qc_ring := Q2Qc (n # d).
(** the overlaps are params[0] + the number of the determinant *)
Definition ex_wfn (i : nat) (ps : list Qc_ring) : comp Qc_ring :=
  mkcomp (K := Qc_ring) i 2 4 0%Z ps (fun ps sd => Ok (Qcplus (hd (exq 0 1) ps) (exq (Z.of_N sd) 1))) (fun ps sd d => Err NotImplementedError) None.
(** only determinants of seniority zero *)
Definition ex_pair : comp Qc_ring :=
  mkcomp (K := Qc_ring) 1 2 4 0%Z [] (fun _ sd => Ok (if N.eqb sd 5 then exq 1 1 else if N.eqb sd 10 then exq 2 1 else exq 0 1)) (fun ps sd d => Err NotImplementedError) None.
(** cos and sin at one angle *)
Definition ex_cos (x : Qc_ring) : Qc_ring := exq 3 5.
Definition ex_sin (x : Qc_ring) : Qc_ring := exq 4 5.
Definition ex_new (c : comp Qc_ring) (t : orbtype) (i j : Z) : res (jac Qc_ring) := new_jacobi 2 4 c (Some (exq 1 1)) (Some (OWord t)) (Some [i; j]).
Definition ex_value (r : res Qc_ring) : option (Z * positive) :=
  match r with Ok x => Some (Qnum (this x), Qden (this x)) | Err _ => None end.
Definition ex_overlap (c : comp Qc_ring) (t : orbtype) (i j : Z) (sd : N) : option (Z * positive) :=
  ex_value (do w <- ex_new c t i j; j_overlap ex_cos ex_sin w sd).
(** the overlap, a change, the overlap again from the instance, and the overlap of a fresh instance *)
Definition ex_stale (t : orbtype) (change : jac Qc_ring -> res (jac Qc_ring)) : option (Z * positive) * option (Z * positive) :=
  match (do w <- ex_new (ex_wfn 1 [exq 1 1]) t 0 1; do w' <- change w;
         match j_run ex_cos ex_sin (j_object w None) [EGet (5%N, None); ESet change; EGet (5%N, None)] with
         | [_; ADone; AGet (Ok (Scalar x))] => Ok (ex_value (Ok x), ex_value (j_overlap ex_cos ex_sin w' 5))
         | _ => Err ValueError
         end) with Ok r => r | Err _ => (None, None) end.
Definition ex_f (sd : N) : Qc_ring := Qcplus (exq 1 1) (exq (Z.of_N sd) 1).
(** the same from the orbitals that jacobi_rotation gives *)
Definition ex_orbitals (t : orbtype) (i j : Z) (rows : list nat) : option (Z * positive) :=
  ex_value (do w <- ex_new (ex_wfn 1 [exq 1 1]) t i j; do ms <- jacobi_rotation ex_cos ex_sin w;
            Ok (through ex_f (det_of (spin_matrix t 2 2 (map snd ms)) (seq 0 4) rows))).
(** the derivative at the angle with cosine 3/5 and sine 4/5 *)
Definition ex_deriv (t : orbtype) (i j : Z) (sd : N) (d : list Z) : option (list (option (Z * positive))) :=
  match (do w <- ex_new (ex_wfn 1 [exq 1 1]) t i j; j_overlap_deriv ex_cos ex_sin w sd TSelf d) with
  | Ok l => Some (map (fun x => ex_value (Ok x)) l)
  | Err _ => None
  end.
Definition ex_same (a b : Qc_ring) : bool := Qeq_bool (this a) (this b).
