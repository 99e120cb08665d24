(** Small CI vectors with integer coefficients for the examples on density matrices. *)
From Coq Require Import List ZArith NArith Arith Bool.
From Verif Require Import Py Alg Density.
Import ListNotations.

Definition zdens (cs : list Z) (sds : list N) (n : nat) (ch : bool) (thr : Z) (o : orbtype) : res (dstate Z_ring) :=
  density_matrix (K := Z_ring) Z.ltb Z.abs cs sds n ch thr o.
Definition zshow1 (k : nat) (r : res (dstate Z_ring)) : res (list (list Z)) :=
  match r with
  | Ok (a, _) => Ok (map (fun m : dm1 Z_ring => map (fun p => m (fst p) (snd p)) (list_prod (seq 0 k) (seq 0 k)) : list Z) a)
  | Err e => Err e
  end.
Definition zshow2 (w : nat) (ixs : list (nat * nat * (nat * nat))) (r : res (dstate Z_ring)) : res (list Z) :=
  match r with
  | Ok (_, b) => Ok (map (fun x => (nth w b (fun _ _ _ _ => 0%Z) : dm2 Z_ring) (fst (fst x)) (snd (fst x)) (fst (snd x)) (snd (snd x)) : Z) ixs)
  | Err e => Err e
  end.
(** entries shown by the examples *)
Definition ixs : list (nat * nat * (nat * nat)) :=
  [((0,1),(0,1)); ((0,1),(1,0)); ((1,0),(0,1)); ((2,1),(2,1)); ((0,1),(2,3)); ((2,3),(0,1)); ((1,2),(0,1)); ((0,1),(1,2)); ((1,2),(3,2)); ((3,2),(2,1))].
