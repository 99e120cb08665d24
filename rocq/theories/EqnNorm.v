(** Model of fanpy/wfn/geminal/base.py:563-574: normalizing a geminal wavefunction, with real parameters.

    A power with a real exponent is exp (a * ln x), as for positive numbers. *)
From Coq Require Import List ZArith NArith Arith Bool Reals.
From Verif Require Import Py Slater Alg ParamSel EqnBase EqnReal EqnObj.
From Coq Require Import List.
Import ListNotations.
Local Open Scope R_scope.

(** self.normalize(refwfn); a CI wavefunction cannot be iterated over *)
Definition gem_normalize (y : sys R_field) (ngem : nat) (r : refwfn) : step R_field unit :=
  fun w => match r with
  | RefCI _ _ => (w, Err TypeError)
  | RefSds l =>
      match mapM (wrapped_ov y w) l with
      | Err e => (w, Err e)
      | Ok os =>
          let norm := psum (K := R_field) (fun o : R => o * o) os in
          (set_world w (y_wfn y) (map (fun x : R => x * Rpower norm (- (1 / 2) / INR ngem)) (w (y_wfn y))), Ok tt)
      end
  end.
