(** Specification for C48: the same calls on a coupled-cluster wavefunction without caches *)
From Coq Require Import List ZArith NArith.
From Verif Require Import Py Alg CC CCCache.
Import ListNotations.
Section Plain.
Context {K : CRing}.
(** what the calls return without any cache, for a wavefunction whose table of excitations stays empty *)
Fixpoint cc_plain (w : cc K) (h : list (ccevent K)) : list (ccanswer K) :=
  match h with
  | [] => []
  | XOverlap sd :: t => YScalar (cc_overlap w sd) :: cc_plain w t
  | XDeriv sd ds :: t => YArray (cc_overlap_deriv w sd ds) :: cc_plain w t
  | XDouble sd :: t => YMatrix (cc_overlap_hessian w sd) :: cc_plain w t
  | XAssign ps :: t => match cc_assign_params w ps with Ok w' => YDone :: cc_plain w' t | Err x => YRaise x :: cc_plain w t end
  | XClear (Some CKOther) :: t => YRaise KeyError :: cc_plain w t
  | XClear _ :: t => YDone :: cc_plain w t
  end.
End Plain.
