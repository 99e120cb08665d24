(** Concrete matrix product states over the integers. *)
From Coq Require Import List ZArith NArith.
From Verif Require Import Alg Py WfnCI Mps MpsSpec.
Import ListNotations.
Open Scope Z_scope.
(** three spatial orbitals, dimension 2, all entries different *)
Definition ex_tensor (i n r c : nat) : Z_ring := 1 + Z.of_nat (100 * i + 10 * n + 3 * r + c).
Definition ex_params : list Z_ring := flatten 3 2 ex_tensor.
Definition ex_mps : res (mps Z_ring) := new_mps (R := Z_ring) 3 6 (Some 2) (MPArray ex_params) 1.
Definition ex_default : res (mps Z_ring) := new_mps (R := Z_ring) 2 6 (Some 1) MPNone 1.
Definition ex_single : res (mps Z_ring) := new_mps (R := Z_ring) 1 2 None MPNone 1.
Definition ex_short : res (mps Z_ring) := new_mps (R := Z_ring) 2 4 (Some 1) (MPArray []) 1.
Definition overlap_of (w : res (mps Z_ring)) (sd : N) : res Z := bind w (fun w => mps_overlap (R := Z_ring) w sd).
Definition deriv_of (w : res (mps Z_ring)) (sd : N) (d : list Z) : res (list Z) := bind w (fun w => mps_overlap_deriv w sd d).
Definition olp_deriv_of (w : res (mps Z_ring)) (sd : N) (d : Z) : res Z := bind w (fun w => mps_olp_deriv w sd d).
