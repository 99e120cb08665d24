(** fanpy/wfn/cc/embedding.py: EmbeddedCC, a coupled-cluster wavefunction whose operators are those of
    wavefunctions of subsystems and further ones between them.  Everything but __init__ is inherited from
    BaseCC (CC.v).  Left out: memory, caches of functools, classes of subsystems other than those of CC.v. *)
From Coq Require Import List ZArith NArith Arith Bool.
From Verif Require Import Py Slater Alg WfnCI CC.
Import ListNotations.

(** embedding.py:66-68 the assertions; the zip stops with the shorter list *)
Definition emb_indices_ok (nspins : list Z) (inds : list (list Z)) : bool :=
  (forallb (fun p => Nat.eqb (length (nodup Z.eq_dec (fst p))) (length (fst p)) && (Z.of_nat (length (fst p)) =? snd p)%Z) (combine inds nspins)
   && key_eqb (sorted_set (concat inds)) (orbitals (fold_right Z.add 0%Z nspins)))%bool.
(** embedding.py:72-81 dict_sub_system: orbital j of subsystem k *)
Definition to_system (inds : list (list Z)) (k : nat) (j : Z) : res Z :=
  match nth_error inds k with
  | Some l => if ((0 <=? j) && (j <? Z.of_nat (length l)))%Z%bool then Ok (nth (Z.to_nat j) (sorted_Z l) 0%Z) else Err KeyError
  | None => Err KeyError
  end.
(** max of a list of ints (embedding.py:87) *)
Fixpoint ints_of (l : list ranksarg) : res (list Z) :=
  match l with
  | [] => Ok []
  | RanksInt r :: t => do rs <- ints_of t; Ok (r :: rs)
  | _ :: _ => Err TypeError
  end.
Definition max_of (l : list Z) : res Z := match l with [] => Err ValueError | x :: t => Ok (fold_left Z.max t x) end.
(** embedding.py:89: entries that are false are skipped, other ints cannot be iterated *)
Fixpoint union_of (l : list ranksarg) : res (list Z) :=
  match l with
  | [] => Ok []
  | RanksList rs :: t => do u <- union_of t; Ok (rs ++ u)
  | RanksNone :: t => union_of t
  | RanksInt r :: t => if (r =? 0)%Z then union_of t else Err TypeError
  end.
(** embedding.py:83-92 *)
Definition emb_ranks (nelecs : list Z) (ranks : option (list ranksarg)) : res ranksarg :=
  match ranks with
  | None => do m <- max_of nelecs; Ok (RanksInt m)
  | Some [] => Err IndexError
  | Some (RanksInt r :: t) => do rs <- ints_of (RanksInt r :: t); do m <- max_of rs; Ok (RanksInt m)
  | Some (RanksList [] :: _) => Err IndexError
  | Some (RanksList l :: t) => do u <- union_of (RanksList l :: t); Ok (RanksList (sorted_set u))
  | Some (RanksNone :: _) => Ok (RanksInt 2)
  end.

Section Emb.
Context {K : CRing}.
Local Open Scope cr_scope.
(** the arguments of one subsystem *)
Record sub := mksub { su_nelec : Z; su_nspin : Z; su_ranks : ranksarg; su_indices : option (list (list Z)); su_ref : refarg;
  su_class : ccclass; su_params : ccparams K }.
(** embedding.py:111-120 the zip of the lists *)
Fixpoint zip_subs (ix : list (option (list (list Z)))) (nelecs nspins : list Z) (ranks : list ranksarg) (refs : list refarg) (classes : list ccclass)
  (ps : list (ccparams K)) : list sub :=
  match ix, nelecs, nspins, ranks, refs, classes, ps with
  | i :: ix', ne :: nelecs', ns :: nspins', rk :: ranks', rf :: refs', c :: classes', p :: ps' =>
      mksub ne ns rk i rf c p :: zip_subs ix' nelecs' nspins' ranks' refs' classes' ps'
  | _, _, _, _, _, _, _ => []
  end.
(** embedding.py:126-131 *)
Definition sub_cc (u : sub) : res (cc K) :=
  new_cc (su_class u) (su_nelec u) (su_nspin u) (su_ranks u) (su_indices u) (su_ref u) (su_params u) false 0.
(** embedding.py:121-137 the loop over the subsystems *)
Fixpoint emb_subs (inds : list (list Z)) (k : nat) (subs : list sub) (d : exops) (ps : list (list K)) : res (exops * list (list K)) :=
  match subs with
  | [] => Ok (d, ps)
  | u :: t =>
      if (su_nelec u =? 0)%Z then emb_subs inds (S k) t d ps
      else if (su_nspin u =? 0)%Z then Err ValueError
      else
        do w <- sub_cc u;
        do items <- mapM (fun ei => do e <- mapM (to_system inds k) (fst ei); Ok (e, (snd ei + length d)%nat)) (cc_exops w);
        emb_subs inds (S k) t (fold_left (fun d ei => dict_set d (fst ei) (snd ei)) items d) (ps ++ [cc_params w])
  end.
(** embedding.py:139-141; [Exc 1] stands for AssertionError *)
Definition emb_inter (inter : list (list Z)) (d : exops) : res exops :=
  foldM (fun e d => match dict_get d e with Some _ => Err (Exc 1) | None => Ok (dict_set d e (length d)) end) inter d.
(** embedding.py:138-149; np.hstack refuses an empty list *)
Definition emb_params (inter : list (list Z)) (inter_params : option (list K)) (ps : list (list K)) : res (list K) :=
  do ps' <- match inter with
            | [] => Ok ps
            | _ => match inter_params with
                   | Some l => if Nat.eqb (length inter) (length l) then Ok (ps ++ [l]) else Err (Exc 1)
                   | None => Ok (ps ++ [repeat 0 (length inter)])
                   end
            end;
  match ps' with [] => Err ValueError | _ => Ok (concat ps') end.
(** embedding.py:10-155 __init__; None for the lists is as in the code, inter_exops None is [] *)
Definition or_none {A} (n : nat) (x : A) (l : option (list A)) : list A := match l with Some l => l | None => repeat x n end.
Definition new_emb (nelecs nspins : list Z) (inds : list (list Z)) (classes : list ccclass) (ranks : option (list ranksarg))
  (ix : option (list (option (list (list Z))))) (inter : list (list Z)) (refs : list refarg) (ps : option (list (ccparams K)))
  (inter_params : option (list K)) (given : bool) (refresh : Z) : res (cc K) :=
  do ne <- assign_nelec CIGeneral (fold_right Z.add 0%Z nelecs);
  do ns <- assign_nspin (fold_right Z.add 0%Z nspins);
  if negb (emb_indices_ok nspins inds) then Err (Exc 1) else
  do ra <- emb_ranks nelecs ranks;
  do rk <- assign_ranks ne ra;
  do r <- assign_refwfn CCBase ne ns RefNone;
  do rf <- match refs with
           | [] => mapM (fun p => do g <- ground (fst p) (snd p); Ok (RefSd g)) (combine nelecs nspins)
           | _ => Ok refs
           end;
  let n := length nelecs in
  do dp <- emb_subs inds 0 (zip_subs (or_none n None ix) nelecs nspins (or_none n RanksNone ranks) rf classes (or_none n CPNone ps)) [] [];
  do d <- match inter with [] => Ok (fst dp) | _ => emb_inter inter (fst dp) end;
  do params <- emb_params inter inter_params (snd dp);
  Ok (mkcc CCBase ne ns rk r d params refresh (if given then None else Some [])).
End Emb.
Arguments sub : clear implicits.
