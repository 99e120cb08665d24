(** Model of the coupled-cluster wavefunctions: fanpy/wfn/cc/base.py (BaseCC), standard_cc.py
    (StandardCC), generalized_cc.py (GeneralizedCC) and ccs.py (CCS).
    A determinant is an integer, an excitation operator a list of orbital indices (annihilators, then
    creators), the dictionary exops an association list in insertion order.
    Not modelled: isinstance checks, memory, add_noise, printing, the uint dtype of the stored indices
    (an index is below the number of parameters, which fits the dtype chosen). *)
From Coq Require Import List ZArith NArith Arith Bool.
From Verif Require Import Py Slater Graphs MathTools Alg WfnCI.
Import ListNotations.

(** ** dictionaries with tuple keys *)
Definition key_eqb (a b : list Z) : bool := if list_eq_dec Z.eq_dec a b then true else false.
Fixpoint dict_get {V} (d : list (list Z * V)) (k : list Z) : option V :=
  match d with
  | [] => None
  | (k', v) :: t => if key_eqb k k' then Some v else dict_get t k
  end.
(** [d[k] = v]: a key that is present keeps its place *)
Fixpoint dict_set {V} (d : list (list Z * V)) (k : list Z) (v : V) : list (list Z * V) :=
  match d with
  | [] => [(k, v)]
  | (k', v') :: t => if key_eqb k k' then (k', v) :: t else (k', v') :: dict_set t k v
  end.
Definition exops := list (list Z * nat).
(** the loops [exops[key] = counter; counter += 1] *)
Definition number (keys : list (list Z)) : exops :=
  fst (fold_left (fun st k => (dict_set (fst st) k (snd st), S (snd st))) keys ([], 0%nat)).

(** ** attributes *)
Inductive ccclass := CCBase | CCStandard | CCGeneralized | CCSingles.
Inductive ranksarg := RanksNone | RanksInt (r : Z) | RanksList (l : list Z).

(** sorted list of the elements of [set(l)] *)
Definition sorted_set (l : list Z) : list Z := sorted_Z (nodup Z.eq_dec l).

(** cc/base.py:241-289 assign_ranks; max of an empty list is a ValueError *)
Definition assign_ranks (nelec : Z) (ranks : ranksarg) : res (list Z) :=
  match ranks with
  | RanksList l =>
      if negb (forallb (fun r => 0 <? r)%Z l) then Err ValueError
      else match l with
           | [] => Err ValueError
           | x :: t => if (nelec <? fold_left Z.max t x)%Z then Err ValueError else Ok (sorted_set l)
           end
  | _ =>
      let r := match ranks with RanksInt r => r | _ => nelec end in
      if (r <=? 0)%Z then Err ValueError
      else if (nelec <? r)%Z then Err ValueError
      else Ok (map Z.of_nat (seq 1 (Z.to_nat r)))
  end.

(** the nested loops over ranks, annihilators and creators *)
Definition rank_keys (ranks : list Z) (from : list Z) (to : list Z -> list Z) : list (list Z) :=
  flat_map (fun rank =>
    flat_map (fun ann => map (fun cre => ann ++ cre) (combinations (to ann) (Z.to_nat rank)))
             (combinations from (Z.to_nat rank))) ranks.
Definition memz (x : Z) (l : list Z) : bool := existsb (Z.eqb x) l.
Definition orbitals (nspin : Z) : list Z := map Z.of_nat (seq 0 (Z.to_nat nspin)).
Definition zoccs (sd : N) : list Z := map Z.of_nat (occ_indices (Some sd)).

(** cc/base.py:291-360 assign_exops; [indices] is None or the list of lists *)
Definition base_exop_keys (nspin : Z) (ranks : list Z) (indices : option (list (list Z))) : res (list (list Z)) :=
  match indices with
  | None => Ok (rank_keys ranks (orbitals nspin) (fun ann => filter (fun i => negb (memz i ann)) (orbitals nspin)))
  | Some [inds0; inds1] =>
      if negb (forallb (fun i => 0 <=? i)%Z inds0) then Err ValueError
      else if negb (forallb (fun i => 0 <=? i)%Z inds1) then Err ValueError
      else Ok (rank_keys ranks (sorted_set inds0) (fun _ => sorted_set inds1))
  | Some _ => Err TypeError
  end.
(** standard_cc.py:158-197, ccs.py:159-198, generalized_cc.py:116-141 *)
Definition occ_virt_keys (nspin : Z) (ranks : list Z) (ref : N) : list (list Z) :=
  rank_keys ranks (zoccs ref) (fun _ => filter (fun i => negb (memz i (zoccs ref))) (orbitals nspin)).
Definition exop_keys (c : ccclass) (nspin : Z) (ranks : list Z) (ref : N) (indices : option (list (list Z)))
  : res (list (list Z)) :=
  match c, indices with
  | CCBase, _ => base_exop_keys nspin ranks indices
  | CCGeneralized, None => base_exop_keys nspin ranks None
  | (CCStandard | CCSingles), None => Ok (occ_virt_keys nspin ranks ref)
  | _, Some _ => Err TypeError
  end.

(** cc/base.py:362-398 assign_refwfn, standard_cc.py:199-225, ccs.py:200-226; of a CI wavefunction only
    the numbers of electrons and spin orbitals are read *)
Inductive refarg := RefNone | RefSd (sd : N) | RefCI (nelec nspin : Z).
Inductive reference := RSd (sd : N) | RCI.
Definition assign_refwfn (c : ccclass) (nelec nspin : Z) (r : refarg) : res reference :=
  match r with
  | RefNone => do g <- ground nelec nspin; Ok (RSd g)
  | RefSd sd => if negb (Z.of_nat (total_occ (Some sd)) =? nelec)%Z then Err ValueError else Ok (RSd sd)
  | RefCI ne ns =>
      match c with
      | CCBase | CCGeneralized =>
          if negb (ne =? nelec)%Z then Err ValueError
          else if negb (ns =? nspin)%Z then Err ValueError else Ok RCI
      | _ => Err TypeError
      end
  end.

(** ** generate_possible_exops *)

(** the stored table: number of operators -> rows of indices with the sign (0 for minus) *)
Definition multi := list (nat * list (list nat * Z)).
Fixpoint multi_add (m : multi) (n : nat) (row : list nat * Z) : multi :=
  match m with
  | [] => [(n, [row])]
  | (n', rows) :: t => if Nat.eqb n n' then (n', rows ++ [row]) :: t else (n', rows) :: multi_add t n row
  end.
(** cc/base.py:909-912  bin sizes in increasing order with their numbers *)
Definition bins_of (partition : list Z) : list (nat * nat) :=
  map (fun s => (Z.to_nat s, count_occ Z.eq_dec partition s)) (sorted_set partition).
(** cc/base.py:918-933  the blocks of one size; KeyError if there is none *)
Definition group {A} (size : nat) (blocks : list (list A)) : res (list (list A)) :=
  match filter (fun b => Nat.eqb (length b) size) blocks with [] => Err KeyError | g => Ok g end.
(** itertools.product *)
Fixpoint cart {A} (ls : list (list A)) : list (list A) :=
  match ls with
  | [] => [[]]
  | l :: t => flat_map (fun x => map (cons x) (cart t)) l
  end.
(** cc/base.py:935-943  all ways to pair the blocks of annihilators and of creators of equal size *)
Definition pairings (bsn : list (nat * nat)) (annhs creas : list (list Z)) : res (list (list (list Z * list Z))) :=
  do per_size <- mapM (fun sn =>
      do A <- group (fst sn) annhs;
      do C <- group (fst sn) creas;
      Ok (map (fun p => combine A p) (permutations C (length C)))) bsn;
  Ok (map (@concat (list Z * list Z)) (cart per_size)).
(** cc/base.py:968-983 sign of reordering the operators *)
Fixpoint hops (prev : nat) (combs : list (list Z)) : nat :=
  match combs with
  | [] => 0
  | e :: t => (prev * (length e / 2) + hops (prev + length e / 2) t)%nat
  end.
Definition annihilators (e : list Z) : list Z := firstn (length e / 2) e.
Definition creators (e : list Z) : list Z := skipn (length e / 2) e.
Definition row_sign (a_inds c_inds : list Z) (combs : list (list Z)) : res Z :=
  do s1 <- sign_perm (flat_map annihilators combs) (Some a_inds) true;
  do s2 <- sign_perm (flat_map creators combs) (Some c_inds) true;
  Ok ((if Nat.odd (hops 0 combs) then -1 else 1) * s1 * s2)%Z.
(** cc/base.py:452-474 get_ind, 476-498 get_exop *)
Definition get_ind (d : exops) (e : list Z) : res nat :=
  match dict_get d e with Some i => Ok i | None => Err ValueError end.
Fixpoint get_exop (d : exops) (ind : Z) : res (list Z) :=
  match d with
  | [] => Err ValueError
  | (e, i) :: t => if (Z.of_nat i =? ind)%Z then Ok e else get_exop t ind
  end.
(** cc/base.py:944-993 one pairing: skipped if an operator is not in exops *)
Definition one_row (d : exops) (a_inds c_inds : list Z) (row : list (list Z * list Z)) (m : multi) : res multi :=
  let combs := map (fun p => fst p ++ snd p) row in
  if forallb (fun e => match dict_get d e with Some _ => true | None => false end) combs then
    do sign <- row_sign a_inds c_inds combs;
    do inds <- mapM (get_ind d) combs;
    Ok (multi_add m (length inds) (inds, if (sign =? -1)%Z then 0%Z else sign))
  else Ok m.
Fixpoint foldM {A S} (f : A -> S -> res S) (l : list A) (s : S) : res S :=
  match l with [] => Ok s | x :: t => do s' <- f x s; foldM f t s' end.
(** cc/base.py:904-993 *)
Definition gen_exops (d : exops) (ranks : list Z) (a_inds c_inds : list Z) : res multi :=
  let exrank := length a_inds in
  do parts <- int_partition (S (exrank + length ranks)) ranks (length ranks) (Z.of_nat exrank);
  foldM (fun partition m =>
    let bsn := bins_of partition in
    do As <- generate_unordered_partition a_inds bsn;
    foldM (fun annhs m =>
      do Cs <- generate_unordered_partition c_inds bsn;
      foldM (fun creas m =>
        do rows <- pairings bsn annhs creas;
        foldM (one_row d a_inds c_inds) rows m) Cs m) As m) (rev parts) [].

Section CC.
Context {K : CRing}.
Local Open Scope cr_scope.

(** cc_combs: the attribute exop_combinations (None if it was never set); cc_refresh: refresh_exops *)
Record cc := mkcc {
  cc_class : ccclass; cc_nelec : Z; cc_nspin : Z; cc_ranks : list Z; cc_ref : reference;
  cc_exops : exops; cc_params : list K; cc_refresh : Z; cc_combs : option (list (list Z * multi)) }.
Definition with_combs (w : cc) (c : option (list (list Z * multi))) : cc :=
  mkcc (cc_class w) (cc_nelec w) (cc_nspin w) (cc_ranks w) (cc_ref w) (cc_exops w) (cc_params w) (cc_refresh w) c.
Definition with_params (w : cc) (p : list K) : cc :=
  mkcc (cc_class w) (cc_nelec w) (cc_nspin w) (cc_ranks w) (cc_ref w) (cc_exops w) p (cc_refresh w) (cc_combs w).

(** cc/base.py:435-444 parameters of another wavefunction: operators that self lacks are ignored *)
Inductive ccparams := CPNone | CPArray (l : list K) | CPWfn (other : cc).
Fixpoint copy_exops (d : exops) (items : exops) (theirs params : list K) : res (list K) :=
  match items with
  | [] => Ok params
  | (e, ind) :: t =>
      match get_ind d e with
      | Ok i =>
          match nth_error theirs ind with
          | None => Err IndexError
          | Some x => if Nat.ltb i (length params) then copy_exops d t theirs (upd params i x) else Err IndexError
          end
      | Err _ => copy_exops d t theirs params
      end
  end.
(** cc/base.py:400-450 assign_params (no noise) *)
Definition cc_assign_params (w : cc) (ps : ccparams) : res cc :=
  let zeros := repeat (0 : K) (length (cc_exops w)) in
  do l <- match ps with
          | CPNone => Ok zeros
          | CPArray l => if Nat.eqb (length l) (length (cc_exops w)) then Ok l else Err ValueError
          | CPWfn other =>
              if negb (cc_nelec w =? cc_nelec other)%Z then Err ValueError
              else if negb (cc_nspin w =? cc_nspin other)%Z then Err ValueError
              else copy_exops (cc_exops w) (cc_exops other) (cc_params other) zeros
          end;
  Ok (with_params w l).

(** cc/base.py:133-187, standard_cc.py:101-156, ccs.py:102-157 __init__.  StandardCC and CCS build
    their operators while the reference is the default one and set the given reference afterwards.
    [given]: whether exop_combinations was passed (it is then not stored). *)
Definition new_cc (c : ccclass) (nelec nspin : Z) (ranks : ranksarg) (indices : option (list (list Z)))
  (refwfn : refarg) (ps : ccparams) (given : bool) (refresh : Z) : res cc :=
  do ne <- assign_nelec CIGeneral nelec;
  do ns <- assign_nspin nspin;
  do rk <- assign_ranks ne (match c with CCSingles => RanksList [1%Z] | _ => ranks end);
  let late := match c with CCStandard | CCSingles => true | _ => false end in
  do r1 <- assign_refwfn c ne ns (if late then RefNone else refwfn);
  let ref_of r := match r with RSd sd => sd | RCI => 0%N end in
  do keys <- exop_keys c ns rk (ref_of r1) (if late then None else indices);
  do w <- cc_assign_params (mkcc c ne ns rk r1 (number keys) [] refresh (if given then None else Some [])) ps;
  if late then
    do keys2 <- exop_keys c ns rk (ref_of r1) indices;
    do r2 <- assign_refwfn c ne ns refwfn;
    Ok (mkcc c ne ns rk r2 (number keys2) (cc_params w) refresh (cc_combs w))
  else Ok w.

(** numpy indexing of the parameters *)
Definition param (w : cc) (i : nat) : res K :=
  match nth_error (cc_params w) i with Some x => Ok x | None => Err IndexError end.
(** cc/base.py:554-556 *)
Definition decode (s : Z) : Z := if (s <? 1)%Z then (-1)%Z else s.
Definition row_value (w : cc) (row : list nat * Z) : res K :=
  do ps <- mapM (param w) (fst row); Ok (sgnr (decode (snd row)) * prodf (fun x => x) ps).
(** cc/base.py:550-557 product_amplitudes_multi *)
Definition all_rows (m : multi) : list (list nat * Z) := flat_map snd m.
Definition amplitudes (w : cc) (m : multi) : res K :=
  do vs <- mapM (row_value w) (all_rows m); Ok (sumf (fun x => x) vs).
(** cc/base.py:559-572 product_amplitudes_multi(deriv=True), entry [d]: for every row that contains d
    the product of the other parameters.  (The code runs over the columns d that occur and adds to
    output[d]; the other entries stay zero.) *)
Definition row_slope (w : cc) (d : nat) (row : list nat * Z) : K :=
  if existsb (Nat.eqb d) (fst row)
  then sgnr (decode (snd row)) * prodf (fun i => nth i (cc_params w) 0) (filter (fun i => negb (Nat.eqb d i)) (fst row))
  else 0.
Definition in_bounds (w : cc) (m : multi) : bool :=
  forallb (fun row => forallb (fun i => Nat.ltb i (length (cc_params w))) (fst row)) (all_rows m).
Definition amplitudes_deriv (w : cc) (m : multi) : res (list K) :=
  if in_bounds w m
  then Ok (map (fun d => sumf (row_slope w d) (all_rows m)) (seq 0%nat (length (cc_params w))))
  else Err IndexError.
(** cc/base.py:594-616: [path] without the first [a] and the first (other) [b] *)
Fixpoint masked (a b : nat) (used_a used_b : bool) (path : list nat) : list nat :=
  match path with
  | [] => []
  | i :: t =>
      if (Nat.eqb i a && negb used_a)%bool then masked a b true used_b t
      else if (Nat.eqb i b && negb used_b)%bool then masked a b used_a true t
      else i :: masked a b used_a used_b t
  end.
Definition row_curv (w : cc) (a b : nat) (row : list nat * Z) : K :=
  let path := fst row in
  if (existsb (Nat.eqb a) path && existsb (Nat.eqb b) path
      && negb (Nat.eqb a b && Nat.ltb (count_occ Nat.eq_dec path a) 2))%bool
  then sgnr (decode (snd row)) * prodf (fun i => nth i (cc_params w) 0) (masked a b false false path)
  else 0.
(** cc/base.py:574-618 product_amplitudes_multi_double_derivative *)
Definition amplitudes_hessian (w : cc) (m : multi) : res (list (list K)) :=
  if in_bounds w m
  then Ok (map (fun a => map (fun b => sumf (row_curv w a b) (all_rows m)) (seq 0%nat (length (cc_params w))))
               (seq 0%nat (length (cc_params w))))
  else Err IndexError.

(** cc/base.py:714-719 and 900-902, 1009: the table of the pair, made and stored if it is missing *)
Definition get_multi (w : cc) (a_inds c_inds : list Z) : res (multi * cc) :=
  match cc_combs w with
  | None => Err AttributeError
  | Some combs =>
      match dict_get combs (a_inds ++ c_inds) with
      | Some m => Ok (m, w)
      | None =>
          let combs := if (negb (cc_refresh w =? 0)%Z && (cc_refresh w <? Z.of_nat (length combs))%Z)%bool
                       then [] else combs in
          do m <- gen_exops (cc_exops w) (cc_ranks w) a_inds c_inds;
          Ok (m, with_combs w (Some (dict_set combs (a_inds ++ c_inds) m)))
      end
  end.
(** cc/base.py:699-722 temp_olp; [f] evaluates the table.  CCS stores a list instead of a dictionary
    (ccs.py:228-274; ValueError from get_ind if a pair is not an operator), whose [values()] does not
    exist; CIWavefunction has no attribute sd_vec. *)
Definition excitation_of (sd ref : N) : list nat * list nat := (snd (diff_orbs sd ref), fst (diff_orbs sd ref)).
Definition with_table {A} (w : cc) (sd : N) (at_ref : A) (f : cc -> multi -> res A) (scale : K -> A -> A) : res (A * cc) :=
  match cc_ref w with
  | RCI => Err AttributeError
  | RSd ref =>
      if N.eqb sd ref then Ok (at_ref, w)
      else
        let '(a, c) := excitation_of sd ref in
        do sign <- sign_excite (Some ref) a c;
        match cc_class w with
        | CCSingles => match cc_combs w with
                       | None => Err AttributeError
                       | Some _ =>
                           if forallb (fun x => forallb (fun y => match dict_get (cc_exops w) [Z.of_nat x; Z.of_nat y] with
                                                                  | Some _ => true | None => false end) c) a
                           then Err AttributeError else Err ValueError
                       end
        | _ =>
            do p <- get_multi w (map Z.of_nat a) (map Z.of_nat c);
            do v <- f (snd p) (fst p);
            Ok (scale (sgnr sign) v, snd p)
        end
  end.
(** cc/base.py:676-730 _olp, 732-781 _olp_deriv, 783-820 _olp_double_derivative: value and the
    wavefunction with its new exop_combinations *)
Definition cc_olp (w : cc) (sd : N) : res (K * cc) := with_table w sd 1 amplitudes (fun s v => s * v).
Definition cc_olp_deriv (w : cc) (sd : N) : res (list K * cc) :=
  with_table w sd (repeat 0 (length (cc_params w))) amplitudes_deriv (fun s v => map (fun x => s * x) v).
Definition cc_olp_hessian (w : cc) (sd : N) : res (list (list K) * cc) :=
  with_table w sd (repeat (repeat 0 (length (cc_params w))) (length (cc_params w))) amplitudes_hessian
             (fun s v => map (map (fun x => s * x)) v).
(** cc/base.py:826-873 get_overlap (without the cache of functools), 875-877 *)
Definition cc_overlap (w : cc) (sd : N) : res K := do p <- cc_olp w sd; Ok (fst p).
Definition cc_overlap_deriv (w : cc) (sd : N) (deriv : list Z) : res (list K) :=
  do p <- cc_olp_deriv w sd;
  mapM (fun d => do i <- np_index (length (fst p)) d; Ok (nth i (fst p) 0)) deriv.
Definition cc_overlap_hessian (w : cc) (sd : N) : res (list (list K)) := do p <- cc_olp_hessian w sd; Ok (fst p).
End CC.
Arguments cc : clear implicits.
Arguments ccparams : clear implicits.
