(** fanpy/analysis/orbitals/natural_orbitals/ci.py: compute_natural_orbitals.  scipy.linalg.eigh and numpy.argsort are arguments.
    A matrix of orbitals is the list of its columns.  The number of spin orbitals is even (wfn/base.py:208).  Left out:
    save_natural_orbitals (writes a file). *)
From Coq Require Import List ZArith NArith Arith Bool.
From Verif Require Import Py Slater Alg WfnCI.
Import ListNotations.

Section N.
Context {K : CField}.
Local Open Scope cr_scope.
Variable eigh : nat -> (nat -> nat -> K) -> res (list K * list (list K)).
Variable argsort : list K -> list nat.
(** ci.py:69-70, 73-75 (alpha) and 77-79 (beta): idx = argsort(occ)[::-1]; occ[idx]; orbitals[:, idx] *)
Definition sorted_orbs (k : nat) (g : nat -> nat -> K) : res (list K * list (list K)) :=
  do r <- eigh k g;
  let idx := rev (argsort (fst r)) in
  Ok (map (fun i => nth i (fst r) 0) idx, map (fun i => nth i (snd r) []) idx).
(** ci.py:82-84: np.dot(mo_coeff, orbitals); the coefficients with their numbers of rows and columns; the rows of the result *)
Definition to_ao (k : nat) (mo : option (nat * nat * (nat -> nat -> K))) (cols : list (list K)) : res (nat * list (list K)) :=
  match mo with
  | None => Ok (k, cols)
  | Some (r, c, C) =>
      if Nat.eqb c k then Ok (r, map (fun v => map (fun i => sumf (fun j => C i j * nth j v 0) (seq 0 k)) (seq 0 r)) cols)
      else Err ValueError
  end.
(** ci.py:91-92: assignment to columns of an array of [k] rows, with broadcasting of a single row *)
Definition put_cols (k : nat) (p : nat * list (list K)) : res (list (list K)) :=
  if Nat.eqb (fst p) k then Ok (snd p)
  else if Nat.eqb (fst p) 1 then Ok (map (fun v => repeat (nth 0 v 0) k) (snd p))
  else Err ValueError.
(** ci.py:39-94 compute_natural_orbitals *)
Definition natural_orbitals (w : ciwfn (fring K)) (mo : option (nat * nat * (nat -> nat -> K))) : res (list K * list (list K)) :=
  let k := Z.to_nat (ci_nspin w / 2) in
  do g <- compute_1rdm w;
  do a <- sorted_orbs k g;
  do b <- sorted_orbs k (fun p q => g (k + p)%nat (k + q)%nat);
  do na <- to_ao k mo (snd a);
  do nb <- to_ao k mo (snd b);
  do ca <- put_cols k na;
  do cb <- put_cols k nb;
  Ok (fst a ++ fst b, ca ++ cb).
End N.
