(** A small system for the examples: a wavefunction (component 0) with two parameters, which are its overlaps with two
    determinants, and a Hamiltonian (component 1) with one parameter. *)
From Coq Require Import List ZArith NArith Arith Bool.
From Verif Require Import Py Slater Alg ParamSel EqnBase EqnObj.
Import ListNotations.
Section Ex.
Context {K : CField}.
Local Open Scope cr_scope.
Definition xs (w : world K) (i : nat) : K := nth i (w 0%nat) 0.
Definition hs (w : world K) : K := nth 0 (w 1%nat) 0.
Definition sd1 : N := 3%N. Definition sd2 : N := 12%N.
Definition pick (sd : N) (a b : K) : K := if N.eqb sd sd1 then a else if N.eqb sd sd2 then b else 0.
Definition unit_at (l : list nat) (a b : K) : list K := map (fun i => if Nat.eqb i 0 then a else if Nat.eqb i 1 then b else 0) l.
Definition ex_sys : sys K := mksys 0%nat 1%nat None
  (fun w sd => Ok (pick sd (xs w 0) (xs w 1)))
  (fun w sd _ l => Ok (unit_at l (pick sd 1 0) (pick sd 0 1)))
  (fun w sd => Ok (pick sd (hs w * xs w 0 + xs w 1) (xs w 0 + hs w * xs w 1)))
  (fun w sd _ l => Ok (unit_at l (pick sd (hs w) 1) (pick sd 1 (hs w))))
  (fun w sd l => Ok (unit_at l (pick sd (xs w 0) (xs w 1)) 0))
  (fun w a b => Ok (if N.eqb a b then hs w else 1))
  (fun w a b l => Ok (unit_at l (if N.eqb a b then 1 else 0) 0)).
Definition ex_world (x y h e : K) : world K := fun c => match c with 0%nat => [x; y] | 1%nat => [h] | 2%nat => [e] | _ => [] end.
Definition ex_sel : sel := [(1%nat, [0%nat]); (0%nat, [0; 1]%nat)].
Definition keep (c : nat) (v : list K) : res (list K) := Ok v.
Definition ex_obj : obj K := mkobj ex_sys ex_sel keep (fun _ => true) (fun _ => done).
(** the selection of the wavefunction's parameters only *)
Definition ex_sel0 : sel := [(0%nat, [0; 1]%nat)].
End Ex.
