(** Small composite wavefunctions for the examples. *)
From Coq Require Import List ZArith NArith Arith Bool.
From Verif Require Import Py Slater Alg WfnCI Composite.
Import ListNotations.
(** a component with two parameters a, b and the overlap a sd + 2 a b *)
Definition exc (id : nat) (ne ns : Z) (ps : list Z) : comp Z_ring :=
  mkcomp (K := Z_ring) id ne ns 100 ps
    (fun ps sd => Ok (nth 0 ps 0 * Z.of_N sd + 2 * nth 0 ps 0 * nth 1 ps 0)%Z)
    (fun ps sd d => mapM (fun i => if Z.eqb i 0 then Ok (Z.of_N sd + 2 * nth 1 ps 0)%Z else if Z.eqb i 1 then Ok (2 * nth 0 ps 0)%Z else Err IndexError) d) None.
(** the same with methods for many determinants *)
Definition exb (id : nat) (ne ns : Z) (ps : list Z) : comp Z_ring :=
  let c := exc id ne ns ps in
  mkcomp (K := Z_ring) id ne ns 100 ps (c_olp c) (c_dolp c) (Some (fun ps sds => mapM (c_olp c ps) sds, fun ps sds d => mapM (fun sd => c_dolp c ps sd d) sds)).
Definition ex_lc : res (lincomb Z_ring) := new_lincomb (K := Z_ring) 2 4 100 [exc 0 2 4 [3; 1]; exc 1 2 4 [5; 2]]%Z (Some [7; 11]%Z).
Definition ex_ids : list (list Z) := [[0; 3]; [4; 2; 5; 1]]%Z.
Definition ex_em : res (embedded Z_ring) := new_embedded (K := Z_ring) 3 6 ex_ids [exc 0 1 2 [3; 1]; exb 1 2 4 [5; 2]]%Z true.
(** a component with one parameter, which is its overlap *)
Definition exp1 (id : nat) (p : Z) : comp Z_ring :=
  mkcomp (K := Z_ring) id 1 2 100 [p] (fun ps _ => Ok (nth 0 ps 0)%Z) (fun _ _ d => Ok (map (fun _ => 1%Z) d)) None.
