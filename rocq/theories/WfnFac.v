(** fanpy/wfn/utils.py: wfn_factory.  The functions for the overlap and its derivatives are arguments; the parameters are an array of one
    dimension.  Left out: nelec, nspin and memory (wfn/base.py), a given assign_params, convert_to_fanci. *)
From Coq Require Import List ZArith NArith Arith Bool.
From Verif Require Import Py Slater Alg.
Import ListNotations.

Section W.
Context {K : CRing}.
Local Open Scope cr_scope.
(** the arguments olp and olp_deriv, the attribute params *)
Record facwfn := mkfw { fw_olp : N -> list K -> res K; fw_dolp : N -> list K -> res (list K); fw_params : list K }.
(** an index of a numpy array *)
Definition np_pick (l : list K) (i : Z) : res K :=
  let n := Z.of_nat (length l) in
  if ((0 <=? i) && (i <? n))%Z then Ok (nth (Z.to_nat i) l 0)
  else if ((- n <=? i) && (i <? 0))%Z then Ok (nth (Z.to_nat (n + i)) l 0)
  else Err IndexError.
(** utils.py:93-125 _olp, _olp_deriv; utils.py:127-158 get_overlap: one number without derivatives *)
Definition fw_get (w : facwfn) (sd : N) (deriv : option (list Z)) : res (list K) :=
  match deriv with
  | None => do v <- fw_olp w sd (fw_params w); Ok [v]
  | Some idx => do d <- fw_dolp w sd (fw_params w); mapM (np_pick d) idx
  end.
(** utils.py:79-91 assign_params, by wfn/base.py:265-268 *)
Definition fw_assign (w : facwfn) (params : option (list K)) : res facwfn :=
  match params with
  | None => Err NotImplementedError
  | Some p => Ok (mkfw (fw_olp w) (fw_dolp w) p)
  end.
End W.
Arguments facwfn : clear implicits.
