(** Example wavefunctions for the pair coupled-cluster theorems *)
From Coq Require Import List ZArith NArith Arith Bool QArith_base Qcanon.
From Verif Require Import Py Slater Alg Fock CCSpec WfnCI CC Pccd PccdSpec.
Import ListNotations.
Open Scope Z_scope.
(** amplitudes 2, 3, 4, ... *)
Definition ex_pair (c : pclass) (nelec nspin : Z) (indices : option (list (list Z))) (ref : option N) (n : nat) : res (pcc Z_ring) :=
  new_pcc (K := Z_ring) c nelec nspin RanksNone indices ref (CPArray (K := Z_ring) (map Z.of_nat (seq 2 n))) false 0.
Definition ex_pair_value (p : res (pcc Z_ring)) (sd : N) : res Z := do p <- p; pair_overlap p sd.
Definition ex_pair_deriv (p : res (pcc Z_ring)) (sd : N) (ds : list Z) : res (list Z) := do p <- p; pair_overlap_deriv p sd ds.
Definition ex_pair_ops (p : res (pcc Z_ring)) : res (list (list Z)) := do p <- p; Ok (map fst (cc_exops (p_cc p))).
(** the same with the amplitude of one operator replaced *)
Definition ex_pair_set (p : res (pcc Z_ring)) (i : nat) (x : Z) : res (pcc Z_ring) :=
  do p <- p; pair_assign_params p (CPArray (K := Z_ring) (firstn i (cc_params (p_cc p)) ++ x :: skipn (S i) (cc_params (p_cc p)))).
(** over the rationals *)
Definition ex_pair_q (c : pclass) (nelec nspin : Z) (ref : option N) (n : nat) : res (pcc (fring Qc_field)) :=
  new_pcc (K := Qc_field) c nelec nspin RanksNone None ref (CPArray (K := Qc_field) (map (fun i => Q2Qc (inject_Z (Z.of_nat i))) (seq 2 n))) false 0.

(** the product of the docstring of PCCD with amplitudes multiplied by [s] *)
Definition ex_documented (p : pcc (fring Qc_field)) (s : Qc) (nspin : Z) (ref sd : N) : Qc :=
  coeff (F := Qc_field) sd (product_state (F := Qc_field) (map (fun i => map (fun ei : list Z * nat => (rmul (c := Qc_field) s (nth (snd ei) (cc_params (p_cc p)) (rO (c := Qc_field))), documented (fst ei)))
    (filter (fun ei => (hd 0%Z (fst ei) =? i)%Z) (filter (fun ei => Nat.eqb (length (fst ei)) 4) (cc_exops (p_cc p))))) (map Z.of_nat (seq 0 (Z.to_nat (nspin / 2))))) ref).
(** the product of the docstring of CCSDsen0: singles act first, then pairs *)
Definition ex_sen0_documented (p : pcc (fring Qc_field)) (s : Qc) (nspin : Z) (ref sd : N) : Qc :=
  coeff (F := Qc_field) sd (product_state (F := Qc_field) (
    map (fun i => map (fun ei : list Z * nat => (nth (snd ei) (cc_params (p_cc p)) (rO (c := Qc_field)), excitation (fst ei)))
      (filter (fun ei => (hd 0%Z (fst ei) =? i)%Z) (filter (fun ei => Nat.eqb (length (fst ei)) 2) (cc_exops (p_cc p))))) (map Z.of_nat (seq 0 (Z.to_nat nspin))) ++
    map (fun i => map (fun ei : list Z * nat => (rmul (c := Qc_field) s (nth (snd ei) (cc_params (p_cc p)) (rO (c := Qc_field))), documented (fst ei)))
      (filter (fun ei => (hd 0%Z (fst ei) =? i)%Z) (filter (fun ei => Nat.eqb (length (fst ei)) 4) (cc_exops (p_cc p))))) (map Z.of_nat (seq 0 (Z.to_nat (nspin / 2))))) ref).
