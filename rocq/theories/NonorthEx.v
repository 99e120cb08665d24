(** Concrete wavefunctions for the examples of C64, with integer parameters and overlaps *)
From Coq Require Import List ZArith NArith.
From Verif Require Import Py Alg WfnCI Composite Cache WfnCached OrbSpec Jacobi JacobiSpec Nonorth NonorthSpec.
Import ListNotations.
(** [nelec] electrons in [nspin] spin orbitals, the overlap is params[0] + the square of the number of the determinant *)
Definition no_f (p : Z) (sd : N) : Z := (p + Z.of_N sd * Z.of_N sd)%Z.
Definition no_wfn (nelec nspin p : Z) : comp Z_ring :=
  mkcomp (K := Z_ring) 1 nelec nspin 0%Z [p : Z_ring] (fun ps sd => Ok (no_f (hd 0%Z ps) sd)) (fun ps sd d => Err NotImplementedError) None.
(** one pair in four spin orbitals; only one determinant of two spin orbitals *)
Definition no_pair : comp Z_ring :=
  mkcomp (K := Z_ring) 1 2 4 0%Z [] (fun _ sd => Ok (if N.eqb sd 5 then 1 else if N.eqb sd 10 then 2 else 0)%Z) (fun ps sd d => Err NotImplementedError) None.
Definition no_full : comp Z_ring :=
  mkcomp (K := Z_ring) 1 2 2 0%Z [] (fun _ sd => Ok (if N.eqb sd 3 then 1 else 0)%Z) (fun ps sd d => Err NotImplementedError) None.
Definition no_mat (r c : nat) (l : list (list Z)) : matrix Z_ring := mkmat (K := Z_ring) r c (fun i j => nth j (nth i l []) 0%Z).
Definition no_22 : matrix Z_ring := no_mat 2 2 [[1; 2]; [3; 5]]%Z.
Definition no_22' : matrix Z_ring := no_mat 2 2 [[2; -1]; [1; 4]]%Z.
Definition no_33 : matrix Z_ring := no_mat 3 3 [[1; 2; 0]; [3; 5; -1]; [2; 0; 1]]%Z.
Definition no_44 : matrix Z_ring := no_mat 4 4 [[1; 2; 0; 1]; [3; 5; -1; 0]; [2; 0; 1; 1]; [0; 1; 0; 2]]%Z.
Definition no_overlap (nelec nspin p : Z) (ms : list (matrix Z_ring)) (sd : N) : res Z :=
  do w <- new_nonorth (K := Z_ring) nelec nspin (no_wfn nelec nspin p) (NMats ms); n_overlap w sd.
Definition no_deriv (nelec nspin p : Z) (ms : list (matrix Z_ring)) (sd : N) (d : list Z) : res (list Z) :=
  do w <- new_nonorth (K := Z_ring) nelec nspin (no_wfn nelec nspin p) (NMats ms); n_overlap_deriv w sd TSelf d.
(** the overlap with one entry of the matrices replaced *)
Definition no_at (nelec nspin p : Z) (ms : list (matrix Z_ring)) (sd : N) (t r c : nat) (x : Z) : res Z :=
  no_overlap nelec nspin p (put_at (K := Z_ring) ms t r c x) sd.
(** an answer before and after a change, and the right one *)
Definition no_stale (change : nonorth Z_ring -> res (nonorth Z_ring)) : res (Z * Z) :=
  do w <- new_nonorth (K := Z_ring) 2 4 (no_wfn 2 4 1) (NMats [no_22]); do w' <- change w;
  match n_run (n_object w None) [EGet (5%N, None); ESet change; EGet (5%N, None)] with
  | [_; ADone; AGet (Ok (Scalar x))] => do y <- n_overlap w' 5; Ok (x : Z, y : Z)
  | _ => Err ValueError
  end.
