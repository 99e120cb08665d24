(** Specification of gradients with respect to the vector of active parameters. *)
From Coq Require Import List ZArith NArith Arith Bool.
From Verif Require Import Py Slater BitSpec Alg ParamSel ParamSelSpec EqnBase EqnSpec EqnObj.
Import ListNotations.

Section Spec.
Context {K : CField}.
Local Open Scope cr_scope.
(** the components can be assigned the vector [p] *)
Definition assignable (o : obj K) (w : world K) (p : list K) : Prop :=
  fits_sel (fun c => length (w c)) (o_sel o) /\ length p = active_nparams (o_sel o)
  /\ forall c v, In c (map fst (o_sel o)) -> length v = length (w c) -> o_store o c v = Ok v.
(** [v] is the gradient of the function [f] of a vector, at [p] *)
Definition vector_grad (Der : (K -> K) -> K -> K -> Prop) (f : list K -> res K) (p v : list K) : Prop :=
  length v = length p /\ forall k, (k < length p)%nat -> Der (fun x => okv (f (upd p k x))) (nth k p 0) (nth k v 0).
(** the determinants of a reference are among those in [P], and a CI reference has a coefficient for each *)
Definition ref_in (P : N -> Prop) (w : world K) (r : refwfn) : Prop :=
  (forall sd, In sd (ref_sds r) -> P sd) /\ match r with RefSds _ => True | RefCI c l => length (w c) = length l end.
(** the slot [k] of the vector [v] holds what [get] returns for that parameter *)
Definition slot_value (s : sel) (v : list K) (c : nat) (get : list nat -> res (list K)) : Prop :=
  forall l g j i k, In (c, l) s -> get l = Ok g -> nth_error l j = Some i -> place s k c i -> nth k v 0 = nth j g 0.
Definition slot_zero (s : sel) (v : list K) (c : nat) : Prop := forall i k, place s k c i -> nth k v 0 = 0.
(** a method that returns as many values as it is given indices *)
Definition sized (s : sel) (c : nat) (get : list nat -> res (list K)) : Prop :=
  forall l, In (c, l) s -> l <> [] -> exists g, get l = Ok g /\ length g = length l.
End Spec.
