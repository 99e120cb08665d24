(** Specification: Pfaffians, and the orbitals of the ground determinant two at a time *)
From Coq Require Import List ZArith NArith Arith Bool Permutation Sorted.
From Verif Require Import Py Alg.
Import ListNotations.
Local Open Scope nat_scope.

Section Spec.
Context {K : CRing}.
Local Open Scope cr_scope.
(** the Pfaffian of the numbers A(x, y), expanded along the first of the labels; [n] bounds the number of labels *)
Fixpoint pfaffian_ (n : nat) (A : Z * Z -> K) (l : list Z) : K :=
  match n, l with
  | _, [] => 1
  | S n, x :: t => sumf (fun j => m1pow j * (A (x, nth j t 0%Z) * pfaffian_ n A (firstn j t ++ skipn (S j) t))) (seq 0 (length t))
  | O, _ => 0
  end.
Definition pfaffian (A : Z * Z -> K) (l : list Z) : K := pfaffian_ (length l) A l.
End Spec.

(** a list two at a time *)
Fixpoint twos (l : list Z) : list (Z * Z) := match l with x :: y :: t => (x, y) :: twos t | _ => [] end.
(** the orbitals 0, ..., h-1 and k, ..., k+h-1 in order, two at a time: those of the ground determinant when h <= k *)
Definition reference (h k : nat) (ref : list (Z * Z)) : Prop :=
  exists l, StronglySorted Z.le l /\ Permutation l (map Z.of_nat (seq 0 h ++ seq k h)) /\ ref = twos l.
(** the orbital pairs: all of them, or those given, without regard to the order of the two orbitals *)
Definition ordered (p : Z * Z) : Z * Z := (Z.min (fst p) (snd p), Z.max (fst p) (snd p)).
Definition orbital_pairs (nspin : Z) (given : option (list (Z * Z))) (pairs : list (Z * Z)) : Prop :=
  NoDup pairs /\
  match given with
  | None => forall x y, In (x, y) pairs <-> (0 <= x < y /\ y < nspin)%Z
  | Some l => (forall p, In p l -> fst p <> snd p) /\ pairs = map ordered l
  end.
(** [C] is the parameter of every pair of the given orbitals *)
Definition amplitudes {K : CRing} (pairs : list (Z * Z)) (params : list K) (C : Z * Z -> K) (l : list Z) : Prop :=
  forall x y, In x l -> In y l -> (x < y)%Z -> exists i, nth_error pairs i = Some (x, y) /\ nth_error params i = Some (C (x, y)).
(** the parameters before the reference is set: those given, or zeros, as many as there are pairs of spin orbitals *)
Definition given_params {K : CRing} (nspin : Z) (ps : option (list K)) : list K :=
  match ps with None => repeat rO (Z.to_nat (nspin * (nspin - 1) / 2)) | Some l => l end.
