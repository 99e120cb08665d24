(** Histories of calls on instances of LeastSquaresEquations. *)
From Coq Require Import List ZArith NArith Arith Bool.
From Verif Require Import Py Slater Alg ParamSel EqnBase EqnObj.
Import ListNotations.

Section Spec.
Context {K : CField}.
(** a call of objective or gradient of instance [i], whose equations are [e] *)
Inductive lscall := LsObjective (i : nat) (e : eqns K) (p : list K) | LsGradient (i : nat) (e : eqns K) (p : list K).
Definition call_state (c : lscall) (st : lstate K) : lstate K :=
  match c with LsObjective i e p => fst (ls_objective i e p st) | LsGradient i e p => fst (ls_gradient i e p st) end.
Definition returns (c : lscall) (st : lstate K) : Prop :=
  match c with
  | LsObjective i e p => exists v, snd (ls_objective i e p st) = Ok v
  | LsGradient i e p => exists v, snd (ls_gradient i e p st) = Ok v
  end.
Fixpoint after (st : lstate K) (l : list lscall) : lstate K := match l with [] => st | c :: t => after (call_state c st) t end.
(** the calls selected by [f] return a value, the others may raise *)
Fixpoint all_return (f : lscall -> bool) (st : lstate K) (l : list lscall) : Prop :=
  match l with [] => True | c :: t => (f c = true -> returns c st) /\ all_return f (call_state c st) t end.
Definition any_call (c : lscall) : bool := true.
Definition gradient_of (i : nat) (c : lscall) : bool := match c with LsObjective _ _ _ => false | LsGradient j _ _ => Nat.eqb j i end.
End Spec.
Arguments lscall : clear implicits.
