(** Specification of the projected equations. *)
From Coq Require Import List ZArith NArith Arith Bool.
From Verif Require Import Py Slater BitSpec Alg ParamSel ParamSelSpec EqnBase EqnSpec EqnObj EqnObjSpec.
Import ListNotations.

Section Spec.
Context {K : CField}.
Local Open Scope cr_scope.
(** the constraints run one after the other, each on the parameters that the ones before it left *)
Inductive cons_run {A} (f : cons K -> step K (list A)) : list (cons K) -> world K -> list (list A) -> world K -> Prop :=
  | run_nil : forall w, cons_run f [] w [] w
  | run_one : forall c t w v w1 vs w2, f c w = (w1, Ok v) -> cons_run f t w1 vs w2 -> cons_run f (c :: t) w (v :: vs) w2.
(** the constraints return as many numbers as they have equations; they are not run if there is no equation *)
Definition constraints_ran {A} (b : bool) (e : eqns K) (f : cons K -> step K (list A)) (w : world K) (vs : list (list A)) (w' : world K) : Prop :=
  Forall2 (fun c v => length v = k_num c b) (e_cons e) vs
  /\ ((0 < cons_eqns b e)%nat /\ cons_run f (e_cons e) w vs w' \/ cons_eqns b e = 0%nat /\ w' = w).
(** the parameters after the energy is stored *)
Definition with_energy (e : eqns K) (E : K) (w : world K) : world K :=
  match e_type e with Compute => set_world w (e_comp e) [E] | _ => w end.
(** the place of equation [t] of constraint [j] *)
Definition cons_place (b : bool) (e : eqns K) (j t : nat) : nat :=
  (nproj e + list_sum (map (fun c => k_num c b) (firstn j (e_cons e))) + t)%nat.

(** the parameters are the same, except maybe those of one component *)
Definition agree (exc : option nat) (w1 w2 : world K) : Prop := forall c, exc <> Some c -> w1 c = w2 c.
(** the component in which a computed energy is stored *)
Definition energy_store (e : eqns K) : option nat := match e_type e with Compute => Some (e_comp e) | _ => None end.
(** wavefunction and Hamiltonian depend on the values of the parameters, but not on the stored energy *)
Definition ignores (exc : option nat) (P : N -> Prop) (y : sys K) : Prop := forall w1 w2 sd, agree exc w1 w2 -> P sd ->
  y_ov y w1 sd = y_ov y w2 sd /\ y_int y w1 sd = y_int y w2 sd
  /\ (forall c l, y_dov y w1 sd c l = y_dov y w2 sd c l) /\ (forall c l, y_dint y w1 sd c l = y_dint y w2 sd c l)
  /\ (forall l, y_hint y w1 sd l = y_hint y w2 sd l).
(** a CI reference whose coefficients are not in that component *)
Definition ref_out (exc : option nat) (r : refwfn) : Prop := match r with RefSds _ => True | RefCI c _ => exc <> Some c end.
(** a constraint whose objective and gradient, called with parameters that are assigned, leave them as they are and
    return the values and the gradients of functions of the active parameters *)
Definition good_cons (Der : (K -> K) -> K -> K -> Prop) (exc : option nat) (A : list K -> world K) (b : bool) (p : list K) (c : cons K) : Prop :=
  exists fc : list K -> list K,
  (forall q w', length q = length p -> agree exc (A q) w' ->
     length (fc q) = k_num c b /\ exists w'', k_obj c q w' = (w'', Ok (fc q)) /\ agree exc (A q) w'')
  /\ (forall w', agree exc (A p) w' -> exists w'' rows, k_grad c p w' = (w'', Ok rows) /\ agree exc (A p) w''
        /\ length rows = k_num c b /\ forall j, (j < k_num c b)%nat -> vector_grad Der (fun q => Ok (nth j (fc q) 0)) p (nth j rows [])).
(** the energy can be differentiated *)
Definition energy_ok (e : eqns K) (w : world K) : Prop :=
  match e_type e with
  | Compute => exists nrm, one_norm (o_sys (e_obj e)) w (e_ref e) = Ok nrm /\ nrm <> 0
  | Variable_ => length (w (e_comp e)) = 1%nat /\ In (e_comp e, [0%nat]) (o_sel (e_obj e))
  | Fixed => length (w (e_comp e)) = 1%nat /\ get_item (o_sel (e_obj e)) (KComp (e_comp e)) = []
  end.
(** an equation of the system, as a function of the parameters *)
Definition entry (b : bool) (e : eqns K) (w : world K) (j : nat) (q : list K) : res K :=
  do v <- snd (eqn_objective b e true true q w); Ok (nth j v 0).
End Spec.
