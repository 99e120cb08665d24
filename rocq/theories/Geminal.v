(** Model of the geminal wavefunctions: fanpy/wfn/geminal/{base,apg,apig,apsetg}.py.

    Numbers are elements of a field, without rounding.  The parameter array of shape
    (ngem, norbpair) is the list of its entries, row by row, as numpy stores it; a given array is
    accepted by reshape exactly when it has the right number of entries.  Caching is modelled in
    WfnCache.v.  Argument types are not modelled, except where a dictionary of the wrong kind is
    passed on (apsetg). *)
From Coq Require Import List ZArith NArith Arith Bool QArith Qround.
From Verif Require Import Py Slater Alg Graphs MathTools WfnCI.
Import ListNotations.
Local Open Scope nat_scope.

Inductive gemclass := GAPG | GAPIG | GSet.

(** ** Orbital pairs *)
Definition zpair_eqb (p q : Z * Z) : bool := (Z.eqb (fst p) (fst q) && Z.eqb (snd p) (snd q))%bool.
(** base.py:271-274 the orbitals of a pair are sorted *)
Definition sort_pair (p : Z * Z) : Z * Z := if (snd p <? fst p)%Z then (snd p, fst p) else p.
(** base.py:259-280 assign_orbpairs: the dictionaries, as the list of pairs in the order of their
    indices *)
Fixpoint base_pairs_loop (seen : list (Z * Z)) (l : list (Z * Z)) : res (list (Z * Z)) :=
  match l with
  | [] => Ok (rev seen)
  | p :: t =>
      if (fst p =? snd p)%Z then Err ValueError
      else let p := sort_pair p in
           if existsb (zpair_eqb p) seen then Err ValueError else base_pairs_loop (p :: seen) t
  end.
(** base.py:253-254, apg.py:110 all pairs in lexicographic order *)
Definition all_pairs (n : nat) : list (Z * Z) :=
  flat_map (fun i => map (fun j => (Z.of_nat i, Z.of_nat j)) (seq (S i) (n - S i))) (seq 0 n).
(** base.py:230-280 assign_orbpairs of the base class *)
Definition base_assign_orbpairs (nspin : Z) (orbpairs : option (list (Z * Z))) : res (list (Z * Z)) :=
  base_pairs_loop [] (match orbpairs with None => all_pairs (Z.to_nat nspin) | Some l => l end).
Definition pair_orbs (l : list (Z * Z)) : list Z := flat_map (fun p => [fst p; snd p]) l.
Fixpoint no_dup (l : list Z) : bool :=
  match l with [] => true | x :: t => (negb (existsb (Z.eqb x) t) && no_dup t)%bool end.
(** apig.py:134-170 *)
Definition apig_assign_orbpairs (nspin : Z) (orbpairs : option (list (Z * Z))) : res (list (Z * Z)) :=
  let nspatial := Z.to_nat (nspin / 2) in
  do l <- base_assign_orbpairs nspin (Some match orbpairs with
            | None => map (fun i => (Z.of_nat i, Z.of_nat i + Z.of_nat nspatial)%Z) (seq 0 nspatial)
            | Some l => l
            end);
  if negb (no_dup (pair_orbs l)) then Err ValueError
  else if negb (Z.of_nat (length (pair_orbs l)) =? nspin)%Z then Err ValueError else Ok l.
(** apg.py:85-112, apsetg.py:84-113 (only the number of pairs is used of the dictionaries) *)
Definition assign_orbpairs (c : gemclass) (nspin : Z) (orbpairs : option (list (Z * Z))) : res (list (Z * Z)) :=
  match c, orbpairs with
  | GAPIG, _ => apig_assign_orbpairs nspin orbpairs
  | _, Some _ => Err ValueError
  | GAPG, None => Ok (all_pairs (Z.to_nat nspin))
  | GSet, None =>
      let k := Z.to_nat (nspin / 2) in
      Ok (flat_map (fun i => map (fun j => (Z.of_nat i, Z.of_nat j)) (seq k k)) (seq 0 k))
  end.

(** base.py:331-354, 356-379 dictionary lookups *)
Fixpoint pair_index (p : Z * Z) (l : list (Z * Z)) : option nat :=
  match l with
  | [] => None
  | q :: t => if zpair_eqb q p then Some 0 else option_map S (pair_index p t)
  end.
Definition base_col_ind (pairs : list (Z * Z)) (p : Z * Z) : res Z :=
  match pair_index p pairs with Some i => Ok (Z.of_nat i) | None => Err ValueError end.
Definition base_orbpair (pairs : list (Z * Z)) (c : Z) : res (Z * Z) :=
  if (c <? 0)%Z then Err ValueError
  else match nth_error pairs (Z.to_nat c) with Some p => Ok p | None => Err ValueError end.
(** apg.py:114-150 *)
Definition apg_col_ind (nspin : Z) (p : Z * Z) : res Z :=
  let (i, j) := sort_pair p in
  if ((0 <=? i) && (i <? j) && (j <? nspin))%Z
  then Ok (nspin * i - i * (i + 1) / 2 + (j - i - 1))%Z else Err ValueError.
(** apg.py:152-179.  [root d] is the floating point power d ** 0.5 and [rnd] the rounding of the
    subtraction; floor division by 2 and the integer arithmetic on i are exact. *)
Definition apg_orbpair (root : Z -> Q) (rnd : Q -> Q) (nspin c : Z) : res (Z * Z) :=
  if ((0 <=? c) && (2 * c <? nspin * (nspin - 1)))%Z then
    let x := rnd (inject_Z (2 * nspin - 1) - root ((1 - 2 * nspin) * (1 - 2 * nspin) - 8 * c)%Z)%Q in
    let i := Qfloor (x / 2)%Q in
    Ok (i, (c - (i * nspin - i * (i + 1) / 2 - i - 1))%Z)
  else Err ValueError.
(** apsetg.py:115-139 *)
Definition set_col_ind (nspin : Z) (p : Z * Z) : res Z :=
  let (i, j) := p in
  let k := (nspin / 2)%Z in
  if ((0 <=? i) && (i <? k) && (k <=? j) && (j <? nspin))%Z then Ok (k * i + j - k)%Z else Err ValueError.
(** apsetg.py:141-165 *)
Definition set_orbpair (nspin c : Z) : res (Z * Z) :=
  let k := (nspin / 2)%Z in
  if ((0 <=? c) && (c <? k * k))%Z then let i := (c / k)%Z in Ok (i, (c - i * k + k)%Z) else Err ValueError.

(** ** Pairing schemes of the occupied orbitals *)
(** apig.py:172-225 *)
Definition apig_schemes (nelec : Z) (pairs : list (Z * Z)) (occ : list Z) : res (list (scheme * Z)) :=
  if negb (Z.of_nat (length occ) =? nelec)%Z then Err ValueError
  else
    let orbpairs := flat_map (fun i => match find (fun p => Z.eqb (fst p) i) (rev pairs) with
                                       | Some p => [p] | None => [] end) occ in
    let constructed := pair_orbs orbpairs in
    do sign <- sign_perm constructed None true;
    if (forallb (fun x => existsb (Z.eqb x) constructed) occ && forallb (fun x => existsb (Z.eqb x) occ) constructed)%bool
    then Ok [(orbpairs, sign)] else Ok [([], 1%Z)].
(** apg.py:181-204, apsetg.py:167-200 *)
Definition schemes (c : gemclass) (nelec nspin : Z) (pairs : list (Z * Z)) (occ : list Z) : res (list (scheme * Z)) :=
  match c with
  | GAPG => Ok (generate_complete_pmatch occ 1)
  | GAPIG => apig_schemes nelec pairs occ
  | GSet =>
      let k := (nspin / 2)%Z in
      generate_biclique_pmatch (filter (fun i => (i <? k)%Z) occ) (filter (fun i => negb (i <? k)%Z) occ) (Some occ) false
  end.

Section Gem.
Context {K : CField}.
Local Open Scope cr_scope.

Record gem := mkgem {
  gm_class : gemclass; gm_nelec : Z; gm_nspin : Z; gm_ngem : nat;
  gm_pairs : list (Z * Z);   (* dict_ind_orbpair (for GSet: the keys of dict_ind_orbpair) *)
  gm_params : list K
}.
(** base.py:164-174 *)
Definition norbpair (w : gem) : nat := length (gm_pairs w).
Definition col_ind (w : gem) (p : Z * Z) : res Z :=
  match gm_class w with
  | GAPG => apg_col_ind (gm_nspin w) p
  | GAPIG => base_col_ind (gm_pairs w) p
  | GSet => set_col_ind (gm_nspin w) p
  end.

(** base.py:176-196 *)
Definition gem_assign_nelec (nelec : Z) : res Z :=
  if (nelec <=? 0)%Z then Err ValueError
  else if negb (nelec mod 2 =? 0)%Z then Err NotImplementedError else Ok nelec.
(** base.py:198-228 *)
Definition gem_assign_ngem (nelec : Z) (ngem : option Z) : res nat :=
  let n := match ngem with None => (nelec / 2)%Z | Some n => n end in
  if (n <? nelec / 2)%Z then Err ValueError else Ok (Z.to_nat n).
Definition zeros (n : nat) : list K := repeat 0 n.
(** base.py:300-304 default parameters *)
Fixpoint default_loop (w : gem) (is : list nat) (params : list K) : res (list K) :=
  match is with
  | [] => Ok params
  | i :: t =>
      do c <- col_ind w (Z.of_nat i, Z.of_nat i + gm_nspin w / 2)%Z;
      let pos := (i * norbpair w + Z.to_nat c)%nat in
      default_loop w t (upd params pos (nth pos params 0 + 1))
  end.
(** base.py:306-324 parameters copied from another geminal wavefunction.  The dictionary
    dict_ind_orbpair of GSet maps pairs to indices, so that an integer is passed to get_col_ind. *)
Definition col_of_int (c : gemclass) : exn := match c with GAPIG => ValueError | _ => TypeError end.
Definition set_column (w other : gem) (params : list K) (c ind : nat) : list K :=
  fold_left (fun l r => upd l (r * norbpair w + c)%nat (nth (r * norbpair other + ind)%nat (gm_params other) 0))
            (seq 0 (gm_ngem w)) params.
Fixpoint copy_loop (w other : gem) (items : list (nat * (Z * Z))) (params : list K) : res (list K) :=
  match items with
  | [] => Ok params
  | (ind, p) :: t =>
      match (match gm_class other with GSet => Err (col_of_int (gm_class w)) | _ => col_ind w p end) with
      | Ok c => copy_loop w other t (set_column w other params (Z.to_nat c) ind)
      | Err ValueError => copy_loop w other t params
      | Err e => Err e
      end
  end.
Inductive gparams := PNone | PArray (l : list K) | PGem (other : gem).
(** base.py:282-329 assign_params (no noise); [w] supplies everything but the parameters *)
Definition gem_assign_params (w : gem) (ps : gparams) : res gem :=
  let size := (gm_ngem w * norbpair w)%nat in
  do l <- match ps with
          | PNone => default_loop w (seq 0 (gm_ngem w)) (zeros size)
          | PArray l => Ok l
          | PGem other =>
              if negb (gm_nelec w =? gm_nelec other)%Z then Err ValueError
              else if negb (gm_nspin w =? gm_nspin other)%Z then Err ValueError
              else if negb (Nat.eqb (gm_ngem w) (gm_ngem other)) then Err ValueError
              else copy_loop w other (enumerate (gm_pairs other)) (zeros size)
          end;
  if negb (Nat.eqb (length l) size) then Err ValueError
  else Ok (mkgem (gm_class w) (gm_nelec w) (gm_nspin w) (gm_ngem w) (gm_pairs w) l).
(** base.py:118-150 __init__ *)
Definition new_gem (c : gemclass) (nelec nspin : Z) (ngem : option Z) (orbpairs : option (list (Z * Z)))
    (params : gparams) : res gem :=
  do ne <- gem_assign_nelec nelec;
  do ns <- assign_nspin nspin;
  do ng <- gem_assign_ngem ne ngem;
  do ps <- assign_orbpairs c ns orbpairs;
  gem_assign_params (mkgem c ne ns ng ps []) params.

(** ** Overlaps *)
Definition entry (params : list K) (norb : nat) (r c : nat) : K := nth (r * norb + c)%nat params 0.
(** selection of the algorithm, base.py:411-414, and evaluation on a submatrix *)
Definition sub_permanent (ryser : bool) (params : list K) (norb : nat) (rows cols : list nat) : res K :=
  let m := fun i j => entry params norb (nth i rows 0%nat) (nth j cols 0%nat) in
  if ryser then permanent_ryser (length rows) (length cols) m
  else permanent_combinatoric (length rows) (length cols) m.
(** base.py:381-431 compute_permanent; [ngem] and [norb] are the shape of the parameters *)
Definition compute_permanent (params : list K) (ngem norb : nat) (cols rows : list nat) (deriv : option Z) : res K :=
  if negb (forallb (fun r => Nat.ltb r ngem) rows && forallb (fun c => Nat.ltb c norb) cols)%bool then Err IndexError
  else
    let ryser := (Nat.leb (length cols) 3 && Nat.leb (length rows) 3)%bool in
    match deriv with
    | None => sub_permanent ryser params norb rows cols
    | Some d =>
        let row_removed := (d / Z.of_nat norb)%Z in
        let col_removed := (d mod Z.of_nat norb)%Z in
        let rows' := filter (fun r => negb (Z.of_nat r =? row_removed)%Z) rows in
        let cols' := filter (fun c => negb (Z.of_nat c =? col_removed)%Z) cols in
        if (Nat.eqb (length rows') (length rows) || Nat.eqb (length cols') (length cols))%bool then Ok 0
        else if (Nat.eqb (length rows') 0 && Nat.eqb (length cols') 0)%bool then Ok 1
        else sub_permanent ryser params norb rows' cols'
    end.
Definition zocc (sd : N) : list Z := map Z.of_nat (occ_indices (Some sd)).
Definition gem_schemes (w : gem) (sd : N) : res (list (scheme * Z)) :=
  schemes (gm_class w) (gm_nelec w) (gm_nspin w) (gm_pairs w) (zocc sd).
Definition cols_of (w : gem) (ps : scheme) : res (list nat) := mapM (fun p => do c <- col_ind w p; Ok (Z.to_nat c)) ps.
(** base.py:433-464 _olp; when no scheme counts the result is default_val, which is 0 *)
Fixpoint olp_loop (w : gem) (l : list (scheme * Z)) (val : K) : res K :=
  match l with
  | [] => Ok val
  | (ps, sign) :: t =>
      match ps with
      | [] => olp_loop w t val
      | _ =>
          do cols <- cols_of w ps;
          do p <- compute_permanent (gm_params w) (gm_ngem w) (norbpair w) cols (seq 0 (gm_ngem w)) None;
          olp_loop w t (val + sgnr sign * p)
      end
  end.
Definition gem_overlap (w : gem) (sd : N) : res K :=
  do l <- gem_schemes w sd;
  olp_loop w l 0.
(** base.py:491-494 the two inner loops *)
Fixpoint deriv_inner (w : gem) (cols : list nat) (sign : Z) (rcs : list (nat * nat)) (output : list K) : res (list K) :=
  match rcs with
  | [] => Ok output
  | (r, c) :: t =>
      let i := (r * norbpair w + c)%nat in
      do p <- compute_permanent (gm_params w) (gm_ngem w) (norbpair w) cols (seq 0 (gm_ngem w)) (Some (Z.of_nat i));
      deriv_inner w cols sign t (upd output i (nth i output 0 + sgnr sign * p))
  end.
(** base.py:466-495 _olp_deriv *)
Fixpoint olp_deriv_loop (w : gem) (l : list (scheme * Z)) (output : list K) : res (list K) :=
  match l with
  | [] => Ok output
  | (ps, sign) :: t =>
      match ps with
      | [] => olp_deriv_loop w t output
      | _ =>
          do cols <- cols_of w ps;
          do o <- deriv_inner w cols sign (list_prod (seq 0 (gm_ngem w)) cols) output;
          olp_deriv_loop w t o
      end
  end.
(** base.py:497-540 get_overlap with deriv *)
Definition gem_overlap_deriv (w : gem) (sd : N) (deriv : list Z) : res (list K) :=
  do l <- gem_schemes w sd;
  do output <- olp_deriv_loop w l (zeros (length (gm_params w)));
  mapM (fun d => do i <- np_index (length (gm_params w)) d; Ok (nth i output 0)) deriv.
End Gem.
Arguments gem : clear implicits.
Arguments gparams : clear implicits.
