(** Specification for C69: a feed-forward network whose inputs are products of occupation numbers.  Independent of the model. *)
From Coq Require Import List ZArith NArith Arith Bool.
From Verif Require Import BitSpec Alg.
Import ListNotations.
Section Spec.
Context {K : CRing}.
Local Open Scope cr_scope.
(** all sequences of [o] of the first [n] orbitals, in lexicographic order *)
Fixpoint tuples (n o : nat) : list (list nat) :=
  match o with O => [[]] | S o => flat_map (fun i => map (cons i) (tuples n o)) (seq 0 n) end.
(** the product of the occupation numbers of the orbitals of a sequence *)
Definition occupied (sd : N) (T : list nat) : K := prodf (fun i => if bit sd i then 1 else 0) T.
(** The weights of the first layer: for each order the weight of hidden unit j for each sequence of so many orbitals.  The weights
    of a further layer: W j k from unit k to unit j. *)
Definition first_weights : Type := list (nat * (nat -> list nat -> K)).
Definition deep_weights : Type := list (nat -> nat -> K).
Variable sigma : K -> K.
Definition net_first (n : nat) (F : first_weights) (sd : N) (j : nat) : K :=
  sigma (sumf (fun f => sumf (fun T => snd f j T * occupied sd T) (tuples n (fst f))) F).
Fixpoint net_deep (B : nat) (D : deep_weights) (v : nat -> K) : nat -> K :=
  match D with [] => v | W :: D => net_deep B D (fun j => sigma (sumf (fun k => W j k * v k) (seq 0 B))) end.
(** the product of the values of the units of the last layer, each times the scale *)
Definition net_value (n B : nat) (scale : K) (F : first_weights) (D : deep_weights) (sd : N) : K :=
  prodf (fun j => scale * net_deep B D (net_first n F sd) j) (seq 0 B).
(** all weights in a row: layer by layer, unit by unit *)
Definition net_weights (n B : nat) (F : first_weights) (D : deep_weights) : list K :=
  flat_map (fun f => flat_map (fun j => map (snd f j) (tuples n (fst f))) (seq 0 B)) F ++
  flat_map (fun W => flat_map (fun j => map (W j) (seq 0 B)) (seq 0 B)) D.
End Spec.
