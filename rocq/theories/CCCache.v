(** The caches of coupled-cluster wavefunctions (fanpy/wfn/cc/base.py:622-674 load_cache, 826-877): the
    overlap is cached with the memory of the wavefunction (no maximum if infinite), the derivatives with
    size 0, that is not at all; and the attribute exop_combinations keeps the tables of excitations.
    A table stored by a call that raises afterwards is not kept in the model. *)
From Coq Require Import List ZArith NArith Arith Bool.
From Verif Require Import Py Slater Alg WfnCI CC Cache.
Import ListNotations.
Section CCCache.
Context {K : CRing}.
Local Open Scope cr_scope.
Record ccobj := mkccobj { co_w : cc K; co_olp : layer N K }.
(** load_cache:646-650 *)
Definition cc_maxsize (w : cc K) (memory : option Z) : option N :=
  let size := Z.of_nat (length (cc_params w)) in
  match memory with None => None | Some m => Some (Z.to_N (Z.max (Z.quot (m - 5 * 8 * size)%Z (size + 1)%Z) 0)) end.
Definition cc_object (w : cc K) (memory : option Z) : ccobj := mkccobj w (mklayer (cc_maxsize w memory) []).
Definition cc_get (o : ccobj) (sd : N) : res K * ccobj :=
  let compute := match cc_olp (co_w o) sd with
                 | Ok (v, w) => (Ok v, w)
                 | Err e => (Err e, co_w o)
                 end in
  if disabled (co_olp o) then (fst compute, mkccobj (snd compute) (co_olp o))
  else match find N.eqb sd (l_entries (co_olp o)) with
       | Some v => (Ok v, mkccobj (co_w o) (mklayer (l_max (co_olp o)) ((sd, v) :: without_key N.eqb sd (l_entries (co_olp o)))))
       | None => (fst compute, mkccobj (snd compute) (match fst compute with Ok v => enter (co_olp o) sd v | Err _ => co_olp o end))
       end.
Definition keep {A} (o : ccobj) (r : res (A * cc K)) : res A * ccobj :=
  match r with Ok (v, w) => (Ok v, mkccobj w (co_olp o)) | Err e => (Err e, o) end.
(** keys of clear_cache: the three of load_cache, any other *)
Inductive cckey := CKOverlap | CKDeriv | CKDouble | CKOther.
Inductive ccevent := XOverlap (sd : N) | XDeriv (sd : N) (ds : list Z) | XDouble (sd : N) | XAssign (ps : ccparams K) | XClear (k : option cckey).
Inductive ccanswer := YScalar (r : res K) | YArray (r : res (list K)) | YMatrix (r : res (list (list K))) | YDone | YRaise (e : exn).
Definition emptied (o : ccobj) : ccobj := mkccobj (co_w o) (mklayer (l_max (co_olp o)) []).
Definition cc_step (o : ccobj) (e : ccevent) : ccanswer * ccobj :=
  match e with
  | XOverlap sd => let (r, o') := cc_get o sd in (YScalar r, o')
  | XDeriv sd ds =>
      let (r, o') := keep o (cc_olp_deriv (co_w o) sd) in
      (YArray (do l <- r; mapM (fun d => do i <- np_index (length l) d; Ok (nth i l 0)) ds), o')
  | XDouble sd => let (r, o') := keep o (cc_olp_hessian (co_w o) sd) in (YMatrix r, o')
  | XAssign ps => match cc_assign_params (co_w o) ps with
                  | Ok w => (YDone, emptied (mkccobj w (co_olp o)))
                  | Err x => (YRaise x, o)
                  end
  | XClear None | XClear (Some CKOverlap) => (YDone, emptied o)
  | XClear (Some CKDeriv) | XClear (Some CKDouble) => (YDone, o)
  | XClear (Some CKOther) => (YRaise KeyError, o)
  end.
Fixpoint cc_run (o : ccobj) (h : list ccevent) : list ccanswer :=
  match h with [] => [] | e :: t => let (a, o') := cc_step o e in a :: cc_run o' t end.
End CCCache.
Arguments ccobj : clear implicits.
Arguments ccevent : clear implicits.
Arguments ccanswer : clear implicits.
