(** Specifications for the geminal wavefunctions *)
From Coq Require Import List ZArith NArith Arith Bool Lia QArith Qround.
From Verif Require Import Py Slater BitSpec Alg Graphs MathTools WfnCI Geminal CreSpec.
Import ListNotations.
Local Open Scope nat_scope.

(** *** Specification *)
(** [f] and [g] are inverse bijections between the pairs satisfying [P] and the integers 0..n-1, and
    everything else is rejected by ValueError *)
Definition bijective_index (P : Z * Z -> Prop) (n : Z) (f : Z * Z -> res Z) (g : Z -> res (Z * Z)) : Prop :=
  (forall p, P p -> exists c, f p = Ok c /\ (0 <= c < n)%Z /\ g c = Ok p) /\
  (forall c, (0 <= c < n)%Z -> exists p, g c = Ok p /\ P p /\ f p = Ok c) /\
  (forall p, ~ P p -> f p = Err ValueError) /\
  (forall c, ~ (0 <= c < n)%Z -> g c = Err ValueError).

(** the numbers m / 2^26 with |m| <= 2^53 are binary64 numbers, so that every faithful rounding
    respects them: a value on one side of such a number is not rounded across it *)
Definition grid (m : Z) : Q := m # (2 ^ 26).
Definition faithful_rounding (rnd : Q -> Q) : Prop :=
  forall x m, (Z.abs m <= 2 ^ 53)%Z ->
    ((grid m <= x)%Q -> (grid m <= rnd x)%Q) /\ ((x <= grid m)%Q -> (rnd x <= grid m)%Q).
(** the same for the floating point square root of an integer *)
Definition faithful_sqrt (root : Z -> Q) : Prop :=
  forall d m, (0 <= d <= 2 ^ 53)%Z -> (0 <= m <= 2 ^ 53)%Z ->
    ((m * m <= d * 2 ^ 52)%Z -> (grid m <= root d)%Q) /\ ((d * 2 ^ 52 <= m * m)%Z -> (root d <= grid m)%Q).

(** ** Overlaps *)
(** the spatial orbitals T are doubly occupied (k is the number of spatial orbitals), nothing else is occupied *)
Definition doubly (k : nat) (T : list nat) (sd : N) : Prop := forall j, bit sd j = true <-> exists i, In i T /\ (j = i \/ j = (i + k)%nat).
Section Spec.
Context {K : CField}.
Local Open Scope cr_scope.
(** [C r p] is the coefficient of the pair p in geminal r: entry (r, i) of the parameters when p is
    the i-th pair *)
Definition coefficients (w : gem K) (C : nat -> Z * Z -> K) : Prop :=
  forall r i p, (r < gm_ngem w)%nat -> nth_error (gm_pairs w) i = Some p ->
    C r p = nth (r * length (gm_pairs w) + i)%nat (gm_params w) 0.
(** the sum over the choices of [h] of the [ngem] geminals of the coefficient of the determinant in the
    product of the chosen geminals *)
Definition antisymmetrised (pairs : list (Z * Z)) (C : nat -> Z * Z -> K) (ngem h : nat) (sd : N) : K :=
  sumf (fun S => gem_product pairs (map C S) sd) (combinations (seq 0%nat ngem) h).
(** sign convention of the class: APIG orders the operators decreasingly *)
Definition convention (c : gemclass) (h : nat) : K :=
  match c with GAPIG => if Nat.odd h then ropp 1 else 1 | _ => 1 end.
(** the parameters with one entry changed *)
Definition with_entry (w : gem K) (k : nat) (v : K) : gem K :=
  mkgem (gm_class w) (gm_nelec w) (gm_nspin w) (gm_ngem w) (gm_pairs w) (upd (gm_params w) k v).
End Spec.
Definition char_zero (K : CRing) : Prop := forall n, (0 < n)%nat -> nat_r (K := K) n <> rO.
