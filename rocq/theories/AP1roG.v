(** Model of fanpy/wfn/geminal/ap1rog.py.

    The wavefunction is a geminal wavefunction whose columns are the orbital pairs that are not occupied
    in the reference; [a1_refpairs] is dict_reforbpair_ind, its rows.
    Not modelled: dtypes, noise, memory; the cache (see the caching model). *)
From Coq Require Import List ZArith NArith Arith Bool.
From Verif Require Import Py Slater Alg Graphs MathTools WfnCI Geminal.
Import ListNotations.
Local Open Scope nat_scope.

(** ap1rog.py:176-211 assign_ref_sd; spin and seniority of the class are both 0 (apig.py:102-132) *)
Definition ap1_assign_ref_sd (nelec nspin : Z) (sd : option N) : res N :=
  do s <- match sd with None => ground nelec nspin | Some s => Ok s end;
  if negb (Z.of_nat (total_occ (Some s)) =? nelec)%Z then Err ValueError
  else do sp <- get_spin2 s (nspin / 2);
       if negb (sp =? 0)%Z then Err ValueError
       else do sen <- get_seniority s (nspin / 2);
            if negb (Nat.eqb sen 0) then Err ValueError else Ok s.
(** ap1rog.py:213-237 *)
Definition ap1_assign_ngem (nelec : Z) (ngem : option Z) : res nat :=
  do n <- gem_assign_ngem nelec ngem;
  if negb (Z.of_nat n =? nelec / 2)%Z then Err NotImplementedError else Ok n.
(** ap1rog.py:270-272 the alpha-beta pairs of the spatial orbitals *)
Definition diag_pair (ns : Z) (p : Z * Z) : bool :=
  ((0 <=? fst p) && (fst p <? ns) && (snd p =? fst p + ns))%Z%bool.
Definition in_ref (ref : N) (p : Z * Z) : bool :=
  (occ (Some ref) (Z.to_nat (fst p)) && occ (Some ref) (Z.to_nat (snd p)))%bool.
(** ap1rog.py:239-287: the pairs in the order of their indices, split into those of the reference and
    the others *)
Definition ap1_assign_orbpairs (nspin : Z) (ref : N) (orbpairs : option (list (Z * Z))) : res (list (Z * Z) * list (Z * Z)) :=
  do ps <- apig_assign_orbpairs nspin orbpairs;
  if negb (forallb (diag_pair (nspin / 2)) ps) then Err ValueError
  else Ok (filter (in_ref ref) ps, filter (fun p => negb (in_ref ref p)) ps).

Section Ap1.
Context {K : CField}.
Local Open Scope cr_scope.
Record ap1 := mkap1 {
  a1_gem : gem K;   (* columns: the pairs outside the reference *)
  a1_ref : N;
  a1_refpairs : list (Z * Z)
}.
Definition a1_nspatial (w : ap1) : Z := (gm_nspin (a1_gem w) / 2)%Z.
Definition a1_params (w : ap1) : list K := gm_params (a1_gem w).
(** ap1rog.py:157-174: the default is zero; otherwise geminal/base.py:306-329 *)
Definition ap1_assign_params (g : gem K) (params : gparams K) : res (gem K) :=
  gem_assign_params g (match params with PNone => PArray (zeros (gm_ngem g * norbpair g)%nat) | _ => params end).
(** ap1rog.py:104-155 *)
Definition new_ap1 (nelec nspin : Z) (ngem : option Z) (orbpairs : option (list (Z * Z))) (ref_sd : option N)
    (params : gparams K) : res ap1 :=
  do ne <- gem_assign_nelec nelec;
  do ns <- assign_nspin nspin;
  do ng <- ap1_assign_ngem ne ngem;
  do ref <- ap1_assign_ref_sd ne ns ref_sd;
  do rv <- ap1_assign_orbpairs ns ref orbpairs;
  do g <- ap1_assign_params (mkgem GAPIG ne ns ng (snd rv) []) params;
  Ok (mkap1 g ref (fst rv)).

(** the rows and columns of an excitation, ap1rog.py:376-398 *)
Definition pair_key (ns : Z) (i : nat) : Z * Z := (Z.of_nat i, (Z.of_nat i + ns)%Z).
Definition lookup (ns : Z) (pairs : list (Z * Z)) (i : nat) : res nat :=
  match pair_index (pair_key ns i) pairs with Some c => Ok c | None => Err KeyError end.
Definition excitation (w : ap1) (sd : N) : res (list nat * list nat) :=
  do r <- split_spin (a1_ref w) (a1_nspatial w);
  do s <- split_spin sd (a1_nspatial w);
  Ok (diff_orbs (fst r) (fst s)).
(** ap1rog.py:340-409: either the value without excitation, or the rows and columns *)
Definition ap1_inds (w : ap1) (sd : N) : res (option (list nat * list nat)) :=
  do ac <- excitation w sd;
  if negb (Nat.eqb (length (fst ac)) (length (snd ac))) then Ok None
  else do sen <- get_seniority sd (a1_nspatial w);
       if negb (Nat.eqb sen 0) then Ok None
       else do rows <- mapM (lookup (a1_nspatial w) (a1_refpairs w)) (fst ac);
            do cols <- mapM (lookup (a1_nspatial w) (gm_pairs (a1_gem w))) (snd ac);
            Ok (Some (rows, cols)).
Definition ap1_permanent (w : ap1) (rows cols : list nat) (d : option Z) : res K :=
  compute_permanent (a1_params w) (gm_ngem (a1_gem w)) (norbpair (a1_gem w)) cols rows d.
Definition ap1_overlap (w : ap1) (sd : N) : res K :=
  do o <- ap1_inds w sd;
  match o with
  | None => Ok 0
  | Some (rows, cols) =>
      if (Nat.eqb (length rows) 0 && Nat.eqb (length cols) 0)%bool then Ok 1
      else ap1_permanent w rows cols None
  end.
Definition ap1_overlap_deriv (w : ap1) (sd : N) (deriv : list Z) : res (list K) :=
  do o <- ap1_inds w sd;
  match o with
  | None => Ok (zeros (length deriv))
  | Some (rows, cols) =>
      if (Nat.eqb (length rows) 0 && Nat.eqb (length cols) 0)%bool then Ok (zeros (length deriv))
      else mapM (fun d => ap1_permanent w rows cols (Some d)) deriv
  end.
End Ap1.
Arguments ap1 : clear implicits.
