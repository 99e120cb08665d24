(** Specification of derivatives with respect to the active parameters. *)
From Coq Require Import List ZArith NArith Arith Bool.
From Verif Require Import Py Slater BitSpec Alg ParamSel ParamSelSpec EqnBase.
Import ListNotations.

Section Spec.
Context {K : CField}.
Local Open Scope cr_scope.
(** [Der f x g]: the function f has derivative g at x.  The laws of derivatives that are used; the derivatives of
    functions of a real variable satisfy them (EqnReal.v). *)
Record calculus (Der : (K -> K) -> K -> K -> Prop) : Prop := {
  cal_ext : forall f f' x g, (forall y, f y = f' y) -> Der f x g -> Der f' x g;
  cal_const : forall a x, Der (fun _ => a) x 0;
  cal_id : forall x, Der (fun y => y) x 1;
  cal_add : forall f1 f2 x g1 g2, Der f1 x g1 -> Der f2 x g2 -> Der (fun y => f1 y + f2 y) x (g1 + g2);
  cal_mul : forall f1 f2 x g1 g2, Der f1 x g1 -> Der f2 x g2 -> Der (fun y => f1 y * f2 y) x (g1 * f2 x + f1 x * g2);
  cal_inv : forall f x g, f x <> 0 -> Der f x g -> Der (fun y => finv (f y)) x (- (g * (finv (f x) * finv (f x)))) }.

Definition okv (r : res K) : K := match r with Ok x => x | Err _ => 0 end.
(** the parameters with parameter [i] of component [c] replaced *)
Definition moved (w : world K) (c i : nat) (x : K) : world K := set_world w c (upd (w c) i x).
Definition same_shape (w w' : world K) : Prop := forall c, length (w' c) = length (w c).
(** [v] is the gradient of [f] with respect to the active parameters, at the parameters [w] *)
Definition is_grad (Der : (K -> K) -> K -> K -> Prop) (w : world K) (s : sel) (f : world K -> res K) (v : list K) : Prop :=
  length v = active_nparams s
  /\ forall k c i, place s k c i -> Der (fun x => okv (f (moved w c i x))) (nth i (w c) 0) (nth k v 0).
(** a function of the parameters that does not raise and depends on nothing but their values *)
Definition regular (w : world K) (f : world K -> res K) : Prop :=
  (forall w', same_shape w w' -> exists v, f w' = Ok v) /\ (forall w1 w2, (forall c, w1 c = w2 c) -> f w1 = f w2).
(** a method that returns the derivatives of [f] with respect to the selected parameters of component [c] *)
Definition derives (Der : (K -> K) -> K -> K -> Prop) (w : world K) (s : sel) (f : world K -> res K) (c : nat) (get : list nat -> res (list K)) : Prop :=
  forall l, In (c, l) s -> l <> [] ->
  exists g, get l = Ok g /\ length g = length l
  /\ forall j i, nth_error l j = Some i -> Der (fun x => okv (f (moved w c i x))) (nth i (w c) 0) (nth j g 0).
Definition constant_in (w : world K) (f : world K -> res K) (c : nat) : Prop := forall i x, f (moved w c i x) = f w.
Definition targets (y : sys K) : list nat := match y_parts y with None => [y_wfn y] | Some l => l end.
(** the methods of the wavefunction and of the Hamiltonian do what they are meant to do, for the determinants in [P] *)
Record sound (Der : (K -> K) -> K -> K -> Prop) (P : N -> Prop) (y : sys K) (s : sel) (w : world K) : Prop := {
  so_targets : NoDup (targets y) /\ ~ In (y_ham y) (targets y);
  so_ov : forall sd, P sd -> regular w (fun w => y_ov y w sd);
  so_dov : forall sd, P sd -> forall c, In c (targets y) -> derives Der w s (fun w => y_ov y w sd) c (y_dov y w sd c);
  so_ov_other : forall sd, P sd -> forall c, ~ In c (targets y) -> constant_in w (fun w => y_ov y w sd) c;
  so_int : forall sd, P sd -> regular w (fun w => y_int y w sd);
  so_dint : forall sd, P sd -> forall c, In c (targets y) -> derives Der w s (fun w => y_int y w sd) c (y_dint y w sd c);
  so_hint : forall sd, P sd -> derives Der w s (fun w => y_int y w sd) (y_ham y) (y_hint y w sd);
  so_int_other : forall sd, P sd -> forall c, ~ In c (targets y) -> c <> y_ham y -> constant_in w (fun w => y_int y w sd) c;
  so_ss : forall a b, P a -> P b -> regular w (fun w => y_ss y w a b);
  so_dss : forall a b, P a -> P b -> derives Der w s (fun w => y_ss y w a b) (y_ham y) (y_dss y w a b);
  so_ss_other : forall a b, P a -> P b -> forall c, c <> y_ham y -> constant_in w (fun w => y_ss y w a b) c }.
(** the gradient as the blocks of the components, in the order of the selection *)
Definition blocks (s : sel) (b : nat -> list nat -> list K) : list K := concat (map (fun cl => b (fst cl) (snd cl)) s).
End Spec.
