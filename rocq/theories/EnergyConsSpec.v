(** Specification of the energy constraint. *)
From Coq Require Import List ZArith Arith Bool Reals.
From Verif Require Import Py EnergyCons.
Import ListNotations.
Local Open Scope R_scope.
(** the constraint after a sequence of calls (of which some may raise in the computation of the energy) *)
Definition ec_after (c : ec) (es : list (res R)) : ec := fold_left (fun c e => fst (ec_objective c e)) es c.
(** the energies that were computed *)
Definition computed (es : list (res R)) : list R := flat_map (fun e => match e with Ok x => [x] | Err _ => [] end) es.
(** the last [k] elements *)
Definition lastn {A} (k : nat) (l : list A) : list A := skipn (length l - k) l.
(** all numbers are positive, the first is at least [m], and all are less than a factor [b] away from the first *)
Definition steady (b m : R) (l : list R) : Prop :=
  Forall (fun x => 0 < x) l /\ match l with [] => False | x :: _ => m <= x /\ Forall (fun y => x / b < y < x * b) l end.
(** the positive differences at the end of the history belong to the last energies and the present reference *)
Definition current (c : ec) (es : list R) : Prop := (length (ec_hist c) <= length es)%nat /\
  forall k, (k <= length (ec_hist c))%nat -> Forall (fun x => 0 < x) (lastn k (ec_hist c)) -> lastn k (ec_hist c) = map (fun e => e - ec_ref c) (lastn k es).
