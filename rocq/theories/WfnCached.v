(** The geminal wavefunctions as cached objects: which methods are memoised and how get_overlap calls
    them (fanpy/wfn/geminal/base.py, ap1rog.py).  The setter stands for any method that changes the
    configuration without clearing the caches, such as AP1roG.assign_ref_sd. *)
From Coq Require Import List ZArith NArith Arith Bool.
From Verif Require Import Py Slater Alg WfnCI Geminal AP1roG Cache.
Import ListNotations.

Inductive ovalue (K : Type) := Scalar (x : K) | Array (l : list K).
Arguments Scalar {K}.
Arguments Array {K}.
Definition arg := (N * option (list Z))%type.
Section Inst.
Context {K : CField}.
Local Open Scope cr_scope.
(** base.py:466-495 _olp_deriv, the whole gradient *)
Definition gem_dolp (w : gem K) (sd : N) : res (list K) :=
  do l <- gem_schemes w sd; olp_deriv_loop w l (zeros (length (gm_params w))).
(** base.py:497-540 get_overlap *)
Definition gem_get (w : gem K) (a : arg) : prog N K N (list K) (ovalue K) :=
  match snd a with
  | None => CallO (fst a) (fun v => Ret (Ok (Scalar v)))
  | Some deriv => CallD (fst a) (fun output =>
      Ret (do l <- mapM (fun d => do i <- np_index (length (gm_params w)) d; Ok (nth i output 0)) deriv; Ok (Array l)))
  end.
Definition set_any {Cfg} (c : Cfg) (q : Cfg -> res Cfg) : res Cfg := q c.
Definition gem_nparams (w : gem K) : Z := Z.of_nat (length (gm_params w)).
Definition gem_run := run N.eqb N.eqb (gem_overlap (K := K)) gem_dolp gem_get gem_assign_params set_any gem_nparams.

(** ap1rog.py:289-336 _olp and _olp_deriv *)
Definition ap1_cols (w : ap1 K) (sd : N) : res (list nat * list nat) :=
  do ac <- excitation w sd;
  do rows <- mapM (lookup (a1_nspatial w) (a1_refpairs w)) (fst ac);
  do cols <- mapM (lookup (a1_nspatial w) (gm_pairs (a1_gem w))) (snd ac);
  Ok (rows, cols).
Definition ap1_olp (w : ap1 K) (sd : N) : res K :=
  do rc <- ap1_cols w sd; ap1_permanent w (fst rc) (snd rc) None.
Definition ap1_dolp (w : ap1 K) (sd_d : N * Z) : res K :=
  do rc <- ap1_cols w (fst sd_d); ap1_permanent w (fst rc) (snd rc) (Some (snd sd_d)).
(** ap1rog.py:340-409 get_overlap *)
Fixpoint calls_d {K1 V1 K2 V2 A} (ks : list K2) (f : list V2 -> prog K1 V1 K2 V2 A) : prog K1 V1 K2 V2 A :=
  match ks with [] => f [] | k :: t => CallD k (fun v => calls_d t (fun vs => f (v :: vs))) end.
Definition ap1_get (w : ap1 K) (a : arg) : prog N K (N * Z) K (ovalue K) :=
  match ap1_inds w (fst a) with
  | Err e => Ret (Err e)
  | Ok None => Ret (Ok (match snd a with None => Scalar 0 | Some deriv => Array (zeros (length deriv)) end))
  | Ok (Some (rows, cols)) =>
      if (Nat.eqb (length rows) 0 && Nat.eqb (length cols) 0)%bool
      then Ret (Ok (match snd a with None => Scalar 1 | Some deriv => Array (zeros (length deriv)) end))
      else match snd a with
           | None => CallO (fst a) (fun v => Ret (Ok (Scalar v)))
           | Some deriv => calls_d (map (fun d => (fst a, d)) deriv) (fun vs => Ret (Ok (Array vs)))
           end
  end.
Definition ap1_set_params (w : ap1 K) (ps : gparams K) : res (ap1 K) :=
  do g <- ap1_assign_params (a1_gem w) ps; Ok (mkap1 g (a1_ref w) (a1_refpairs w)).
(** ap1rog.py:176-211: only ref_sd changes *)
Definition ap1_set_ref (sd : option N) (w : ap1 K) : res (ap1 K) :=
  do r <- ap1_assign_ref_sd (gm_nelec (a1_gem w)) (gm_nspin (a1_gem w)) sd; Ok (mkap1 (a1_gem w) r (a1_refpairs w)).
Definition pair_eqb (a b : N * Z) : bool := (N.eqb (fst a) (fst b) && Z.eqb (snd a) (snd b))%bool.
Definition ap1_run := run N.eqb pair_eqb ap1_olp ap1_dolp ap1_get ap1_set_params set_any (fun w => gem_nparams (a1_gem w)).
End Inst.
(** a constructed instance: caching is enabled unless the constructor was told not to *)
Definition constructed {Cfg K1 V1 K2 V2} (nparams : Cfg -> Z) (c : Cfg) (memory : option Z) (enable : bool) : obj Cfg K1 V1 K2 V2 :=
  if enable then enable_cache nparams (fresh c memory) true else fresh c memory.
