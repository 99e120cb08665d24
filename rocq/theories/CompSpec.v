(** Specification of composite wavefunctions. *)
From Coq Require Import List ZArith NArith Arith Bool.
From Verif Require Import Py Slater BitSpec Alg Composite.
Import ListNotations.

Section Spec.
Context {K : CRing}.
Local Open Scope cr_scope.
(** [Der f x g]: the function f has derivative g at x.  All that is asked of a notion of derivative is that the
    identity has derivative 1 and that a + b f has derivative b f'. *)
Record derivation (Der : (K -> K) -> K -> K -> Prop) : Prop := {
  der_ext : forall f f' x g, (forall y, f y = f' y) -> Der f x g -> Der f' x g;
  der_id : forall x, Der (fun y => y) x 1;
  der_affine : forall f x g a b, Der f x g -> Der (fun y => a + b * f y) x (b * g) }.
(** [gs] are the derivatives of an overlap with respect to the parameters [ps]: [ov p x] is the overlap when the
    parameter [p] is [x] and the others keep their values; [at p] is the present value of the parameter *)
Definition gradient (Der : (K -> K) -> K -> K -> Prop) (ov : nat -> K -> res K) (at_ : nat -> K) (ps : list nat) (gs : list K) : Prop :=
  Forall2 (fun p g => exists f, (forall x, ov p x = Ok (f x)) /\ Der f (at_ p) g) ps gs.
(** a component with one parameter changed *)
Definition with_param (c : comp K) (p : nat) (x : K) : comp K :=
  mkcomp (c_id c) (c_nelec c) (c_nspin c) (c_memory c) (upd (c_params c) p x) (c_olp c) (c_dolp c) (c_olps c).
(** one notion of derivative: that of polynomials, given by their coefficients *)
Fixpoint peval (P : list K) (x : K) : K := match P with [] => 0 | c :: t => c + x * peval t x end.
Fixpoint pder (P : list K) (x : K) : K := match P with [] => 0 | _ :: t => peval t x + x * pder t x end.
Definition poly_der (f : K -> K) (x g : K) : Prop := exists P, (forall y, f y = peval P y) /\ g = pder P x.
(** the sum and product of the values of the components *)
Definition weighted (ps os : list K) : K := sumf (fun po => fst po * snd po) (combine ps os).
(** the wavefunctions with the [k]-th one replaced, and the combination with one of its own parameters replaced *)
Definition swapped (w : lincomb K) (k : nat) (c : comp K) : lincomb K :=
  mklc (lc_nelec w) (lc_nspin w) (lc_memory w) (upd (lc_wfns w) k c) (lc_params w).
Definition reweighted (w : lincomb K) (p : nat) (x : K) : lincomb K :=
  mklc (lc_nelec w) (lc_nspin w) (lc_memory w) (lc_wfns w) (upd (lc_params w) p x).
Definition em_swapped (w : embedded K) (k : nat) (c : comp K) : embedded K :=
  mkem (em_nelec w) (em_nspin w) (em_dict w) (upd (em_wfns w) k c).
(** the methods for many determinants agree with those for one *)
Definition batch_ok (c : comp K) : Prop :=
  match c_olps c with
  | None => True
  | Some (f, g) => forall ps sds, f ps sds = mapM (c_olp c ps) sds /\ forall d, g ps sds d = mapM (fun sd => c_dolp c ps sd d) sds
  end.
End Spec.

(** increasing enumeration of a list of orbitals *)
Definition enumerates (l : list nat) (ind : list Z) : Prop :=
  increasing l /\ forall i, In i l <-> In (Z.of_nat i) ind.
(** part [n] of the determinant [sd] that lives on the orbitals [ind] *)
Definition part_of (sd : N) (ind : list Z) (n : N) : Prop :=
  exists l, enumerates l ind /\ forall j, bit n j = match nth_error l j with Some i => bit sd i | None => false end.
(** every subsystem has the number of electrons that is asked of it, and at least one *)
Definition matched (nelecs : list Z) (ns : list N) : Prop :=
  forall s n k, nth_error ns s = Some n -> has_electrons n k -> nth_error nelecs s = Some (Z.of_nat k) /\ (0 < k)%nat.
