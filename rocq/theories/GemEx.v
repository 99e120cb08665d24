(** Concrete geminal wavefunctions used in the examples *)
From Coq Require Import List ZArith NArith Arith Bool Lia QArith Qround Qcanon.
From Verif Require Import Py Slater Alg Graphs MathTools WfnCI Geminal CreSpec GemSpec.
Import ListNotations.
Local Open Scope nat_scope.

(** an instance of the rounding hypotheses: truncation to the grid *)
Definition trunc_sqrt (d : Z) : Q := grid (Z.sqrt (d * 2 ^ 52)).
Definition trunc (x : Q) : Q := grid (Qfloor (x * (2 ^ 26 # 1))).

(** *** wavefunctions over the rationals *)
Definition qz (z : Z) : Qc_field := Q2Qc (inject_Z z).
Definition qv (r : res Qc_field) : res (Z * positive) := do x <- r; Ok (Qnum (this x), Qden (this x)).
(** four electrons in three spatial orbitals, every antisymmetric pair *)
Definition ex_apg : res (gem Qc_field) :=
  new_gem GAPG 4 6 (Some 3%Z) None (PArray (map (fun i => qz (Z.of_nat (i * i mod 11) - 3)) (seq 0 45))).
(** the same for disjoint pairs, in an unusual order *)
Definition ex_apig : res (gem Qc_field) :=
  new_gem GAPIG 4 6 (Some 3%Z) (Some [(1, 4); (5, 0); (3, 2)]%Z) (PArray (map (fun i => qz (Z.of_nat (i * i mod 11) - 3)) (seq 0 9))).
Definition ex_set : res (gem Qc_field) :=
  new_gem GSet 4 6 (Some 3%Z) None (PArray (map (fun i => qz (Z.of_nat (i * i mod 11) - 3)) (seq 0 27))).
(** a single electron pair described by two geminals *)
Definition ex_pair : res (gem Qc_field) :=
  new_gem GAPG 2 4 (Some 2%Z) None (PArray (map qz [1; 2; 3; 4; 5; 6; 7; 8; 9; 10; 11; 12]%Z)).
(** the coefficients of a wavefunction *)
Definition coef (w : gem Qc_field) (r : nat) (p : Z * Z) : Qc_field :=
  match pair_index p (gm_pairs w) with
  | Some i => nth (r * length (gm_pairs w) + i)%nat (gm_params w) (rO (c := Qc_field))
  | None => rO end.
Definition ex_value (r : res (gem Qc_field)) (sd : N) : res (Z * positive) := do w <- r; qv (gem_overlap w sd).
Definition ex_product (r : res (gem Qc_field)) (h : nat) (sd : N) : res (Z * positive) :=
  do w <- r; qv (Ok (antisymmetrised (gm_pairs w) (coef w) (gm_ngem w) h sd)).
Definition ex_apig1 : res (gem Qc_field) :=
  new_gem GAPIG 2 4 None (Some [(2, 0); (1, 3)]%Z) (PArray [qz 5; qz 7]).
