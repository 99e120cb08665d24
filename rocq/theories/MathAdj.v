(** fanpy/tools/math_tools.py: adjugate, eigh, power_symmetric.  numpy.linalg.inv, numpy.linalg.eigh, the comparisons of numbers, the
    power of a number and numpy.argsort are arguments; matrices are functions with their numbers of rows and columns.  The arguments are arrays of two
    dimensions.  [Exc 1] is numpy.linalg.LinAlgError, [Exc 2] is OrthogonalizationError.  Assertions are on (__debug__). *)
From Coq Require Import List ZArith NArith Arith Bool.
From Verif Require Import Py Slater Alg MathTools.
Import ListNotations.

Section M.
Context {K : CField}.
Local Open Scope cr_scope.
Variable inv : nat -> (nat -> nat -> K) -> res (nat -> nat -> K).
(** abs(det) <= 1e-12 *)
Variable small : K -> bool.
(** math_tools.py:67-96 adjugate; numpy.linalg.det refuses matrices that are not square *)
Definition adjugate (nr nc : nat) (m : nat -> nat -> K) : res (nat -> nat -> K) :=
  if Nat.eqb (nr * nc) 0 then Err ValueError
  else if negb (Nat.eqb nr nc) then Err (Exc 1)
  else
    let d := det nr m in
    if small d then Err (Exc 1)
    else do x <- inv nr m; Ok (fun i j => d * x i j).

Variable np_eigh : nat -> (nat -> nat -> K) -> res (list K * list (list K)).
Variable argsort : list K -> list nat.
(** -a for an array of booleans: numpy raises TypeError (since 1.13; setup.py:62 asks for 1.25), whatever the length *)
Definition np_negative (a : list bool) : res (list bool) := Err TypeError.
(** math_tools.py:392-440 eigh; [kept] is abs(x) > threshold; the printing of warnings is left out, not what they evaluate *)
Definition mt_eigh (kept : K -> bool) (nr nc : nat) (m : nat -> nat -> K) : res (list K * list (list K)) :=
  if negb (Nat.eqb nr nc) then Err (Exc 2)
  else
    do r <- np_eigh nr m;
    let kept_indices := map kept (fst r) in
    do _ <- np_negative kept_indices;
    let keep {A} (l : list A) := map snd (filter fst (combine kept_indices l)) in
    let idx := rev (argsort (keep (fst r))) in
    Ok (map (fun i => nth i (keep (fst r)) 0) idx, map (fun i => nth i (keep (snd r)) []) idx).
(** math_tools.py:443-480 power_symmetric; [asym] is abs(x) > threshold_symm, [frac] is k % 1 != 0, [neg] is x < 0, [pow] is x ** k *)
Definition power_symmetric (kept asym neg : K -> bool) (frac : bool) (pow : K -> K) (nr nc : nat) (m : nat -> nat -> K) : res (nat -> nat -> K) :=
  if negb (Nat.eqb nr nc) then Err (Exc 2)
  else if Nat.eqb nr 0 then Err ValueError
  else if existsb (fun p => asym (m (snd p) (fst p) - m (fst p) (snd p))) (list_prod (seq 0 nr) (seq 0 nr)) then Err (Exc 2)
  else
    do r <- mt_eigh kept nr nc m;
    if (frac && existsb neg (fst r))%bool then Err (Exc 2)
    else Ok (fun i j => sumf (fun p => nth i (snd p) 0 * pow (fst p) * nth j (snd p) 0) (combine (fst r) (snd r))).
End M.
