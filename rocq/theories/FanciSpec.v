(** Specifications for the projected equations of fanpy/interface/fanci/legacy.py. *)
From Coq Require Import List ZArith Arith Bool.
From Verif Require Import Py Slater Alg EqnSpec Fanci.
Import ListNotations.
Local Open Scope nat_scope.

Section Spec.
Context {F : CField}.
Local Notation K := (fring F).
Local Open Scope cr_scope.
(** the places of the active parameters in the whole vector *)
Definition actives (o : fobj K) : list nat := filter (fun k => nth k (fo_mask o) false) (seq 0 (fo_nparam o)).
(** the derivatives of the overlaps of the "S" space are right at the parameters [ps] *)
Definition overlaps_derived (Der : (K -> K) -> K -> K -> Prop) (o : fobj K) (ps : list K) : Prop :=
  forall j k, (j < fo_ns o)%nat -> (k < length ps)%nat -> Der (fun y => fo_ovlp o (upd ps k y) j) (nth k ps 0) (fo_dovlp o ps j k).
(** the given constraints have right gradients; the places of the others exist *)
Definition constraints_derived (Der : (K -> K) -> K -> K -> Prop) (o : fobj K) (x : list K) : Prop :=
  forall c, In c (map snd (fo_cons o)) ->
  match c with
  | CNorm => True
  | CDet i _ => (i < fo_ns o)%nat
  | CParam i _ => (i < fo_nparam o)%nat
  | CUser f df => forall p, (p < fo_nactive o)%nat -> Der (fun y => f (upd x (nth p (actives o) 0%nat) y)) (nth (nth p (actives o) 0%nat) x 0) (nth p (df x) 0)
  end.
End Spec.
