(** Model of a LeastSquaresEquations instance used as a constraint (fanpy/eqn/least_squares.py:142-252,
    projected.py:510-512 and 623-624): it has one equation, unless the property num_eqns is replaced, and returns one
    number. *)
From Coq Require Import List ZArith NArith Arith Bool.
From Verif Require Import Py Slater Alg ParamSel EqnBase EqnObj.
Import ListNotations.
Section M.
Context {K : CField}.
Local Open Scope cr_scope.
Definition ls_cons (e : eqns K) : cons K := mkcons (fun b => if b then num_eqns true e else 1%nat)
  (fun p => sbind (eqn_objective true e true true p) (fun v => reading (fun _ => Ok [psum (fun x => x * x) v])))
  (fun p => sbind (eqn_objective true e true true p) (fun _ => sbind (eqn_objective true e true true p) (fun v =>
            sbind (eqn_jacobian true e false false p) (fun m => reading (fun _ => do g <- dot_rows (length p) v m; Ok [vscale (1 + 1) g]))))).
End M.
