(** Model of what the solvers do to the Hamiltonian at the end of an iteration (calls as in HamRotHist.v). *)
From Coq Require Import List.
From Verif Require Import Py Alg HamRes HamRot HamRotHist.
Import ListNotations.
(** system.py:56, 145 and equation.py:73, 163: ham.update_prev_params = False, before the optimization *)
Definition begin_ops {K : CField} : list (hop K) := [HUpdate false].
(** system.py:66-69, 155-158: update_prev_params = True, assign_params(ham.params), update_prev_params = False *)
Definition refresh_ops {K : CField} (params : list K) : list (hop K) := [HUpdate true; HAssign (Some params); HUpdate false].
(** equation.py:169-172: the callback of minimize; the attribute that it sets is update_prev_prams, which nothing reads *)
Definition callback_ops {K : CField} (params : list K) : list (hop K) := [HAssign (Some params)].
