(** Model of the energy constraint (fanpy/eqn/constraints/energy.py:37-141) over the reals.

    The energy is what EnergyOneSideProjection.objective returned or raised (EqnObj.v).  Printing is left out.  Numbers
    are reals instead of floating point numbers; log is the real logarithm, so nothing is said about a base of 1 or
    less or a min_diff of 0 or less. *)
From Coq Require Import List ZArith Arith Bool Reals.
From Verif Require Import Py.
Import ListNotations.
Local Open Scope R_scope.
(** energy.py:76-83 *)
Record ec := mkec { ec_ref : R; ec_hist : list R; ec_size : nat; ec_base : R; ec_min : R; ec_simple : bool }.
Definition new_ec (ref : R) (size : nat) (base min_diff : R) (simple : bool) : ec := mkec ref [] size base min_diff simple.
Definition leb (x y : R) : bool := if Rle_dec x y then true else false.
Definition ltb (x y : R) : bool := if Rlt_dec x y then true else false.
Definition set_ec (c : ec) (ref : R) (hist : list R) : ec := mkec ref hist (ec_size c) (ec_base c) (ec_min c) (ec_simple c).
(** energy.py:108-110 *)
Definition push (size : nat) (h : list R) (x : R) : list R :=
  let h' := h ++ [x] in if Nat.ltb size (length h') then tl h' else h'.
(** energy.py:85-141 *)
Definition ec_objective (c : ec) (energy : res R) : ec * res R :=
  match energy with
  | Err x => (c, Err x)
  | Ok e =>
      let d := e - ec_ref c in
      if ec_simple c then (c, Ok d) else
      let h := push (ec_size c) (ec_hist c) d in
      if leb d 0 then (set_ec c (ec_ref c + ec_base c * d) h, Ok d) else
      if negb (Nat.eqb (length h) (ec_size c)) || existsb (fun i => leb i 0) h then (set_ec c (ec_ref c) h, Ok d) else
      let order := map (fun i => ln i / ln (ec_base c)) h in
      match order with
      | [] => (set_ec c (ec_ref c) h, Err IndexError)
      | o0 :: _ =>
          if ltb o0 (ln (ec_min c) / ln (ec_base c)) then (set_ec c (ec_ref c) h, Ok d) else
          if forallb (fun o => ltb (o0 - 1) o && ltb o (o0 + 1)) order
          then (set_ec c (e - Rpower (ec_base c) (o0 - 1)) [], Ok d)
          else (set_ec c (ec_ref c) h, Ok d)
      end
  end.
