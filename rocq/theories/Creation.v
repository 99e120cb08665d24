(** Model of fanpy/wfn/creation_cc.py, the wavefunction exp(sum c_ij a+_i a+_j)|0>.

    Numbers are elements of a field, without rounding; the parameter array is the list of its entries, of any
    length: it is not checked.  Noise, memory and argument types are not modelled.  The class has no cache. *)
From Coq Require Import List ZArith NArith Arith Bool.
From Verif Require Import Py Slater Alg Graphs WfnCI Geminal.
Import ListNotations.
Local Open Scope nat_scope.

(** creation_cc.py:89-110 assign_nelec *)
Definition cr_assign_nelec (nelec : Z) : res Z :=
  if (nelec <=? 0)%Z then Err ValueError
  else if negb (nelec mod 2 =? 0)%Z then Err NotImplementedError else Ok nelec.
(** creation_cc.py:139-188 assign_orbpairs: the dictionary, as the list of pairs in the order of their indices *)
Fixpoint cr_pairs_loop (seen : list (Z * Z)) (l : list (Z * Z)) : res (list (Z * Z)) :=
  match l with
  | [] => Ok (rev seen)
  | p :: t =>
      if (fst p =? snd p)%Z then Err ValueError
      else
        let p := if (snd p <? fst p)%Z then (snd p, fst p) else p in
        if existsb (zpair_eqb p) seen then Err ValueError else cr_pairs_loop (p :: seen) t
  end.
Definition cr_assign_orbpairs (nspin : Z) (orbpairs : option (list (Z * Z))) : res (list (Z * Z)) :=
  cr_pairs_loop [] match orbpairs with
                   | None => flat_map (fun i => map (fun j => (Z.of_nat i, Z.of_nat j)) (seq (S i) (Z.to_nat nspin - S i))) (seq 0 (Z.to_nat nspin))
                   | Some l => l
                   end.
(** creation_cc.py:190-214 get_col_ind *)
Definition cr_col (pairs : list (Z * Z)) (p : Z * Z) : res nat :=
  match pair_index p pairs with Some i => Ok i | None => Err ValueError end.

(** ** creation_cc.py:216-261 get_permutations *)
Definition flatten (ps : list (nat * nat)) : list nat := flat_map (fun p => [fst p; snd p]) ps.
(** itertools.combinations(indices, r=2), as pairs *)
Fixpoint index_pairs (l : list nat) : list (nat * nat) :=
  match l with [] => [] | x :: t => map (fun y => (x, y)) t ++ index_pairs t end.
(** len(set(l)) *)
Definition distinct_count (l : list nat) : nat := length (nodup Nat.eq_dec l).
(** creation_cc.py:241-261 get_sign: -1 for every inversion of the flattened pairs *)
Fixpoint sign_below (x : Z) (t : list Z) (sign : Z) : Z :=
  match t with [] => sign | y :: t => sign_below x t (if (y <? x)%Z then - sign else sign)%Z end.
Fixpoint sign_loop (l : list Z) (sign : Z) : Z :=
  match l with [] => sign | x :: t => sign_loop t (sign_below x t sign) end.
Definition cr_sign (ps : list (Z * Z)) : Z := sign_loop (flat_map (fun p => [fst p; snd p]) ps) 1.
Definition zpairs (ps : list (nat * nat)) : list (Z * Z) := map (fun p => (Z.of_nat (fst p), Z.of_nat (snd p))) ps.
Definition cr_permutations (nelec : Z) : list (list (nat * nat) * Z) :=
  let indices := seq 0 (Z.to_nat nelec) in
  flat_map (fun element => if Nat.eqb (distinct_count (flatten element)) (length indices) then [(element, cr_sign (zpairs element))] else [])
           (combinations (index_pairs indices) (length indices / 2)).

Section Creation.
Context {K : CField}.
Local Open Scope cr_scope.
Record creation := mkcr {
  cr_nelec : Z; cr_nspin : Z;
  cr_pairs : list (Z * Z);
  cr_params : list K;
  cr_perms : list (list (nat * nat) * Z)   (* permutations and signs *)
}.
(** creation_cc.py:127-133 the orbitals i and nspatial + i, flattened, sorted and taken two at a time *)
Fixpoint by_twos (l : list Z) : list (Z * Z) := match l with x :: y :: t => (x, y) :: by_twos t | _ => [] end.
Definition cr_reference (nelec nspin : Z) : list (Z * Z) :=
  by_twos (sorted_Z (flat_map (fun i => [Z.of_nat i; nspin / 2 + Z.of_nat i])%Z (seq 0 (Z.to_nat (nelec / 2))))).
(** creation_cc.py:134-136: the given array is changed in place *)
Fixpoint set_reference (pairs ref : list (Z * Z)) (params : list K) : res (list K) :=
  match ref with
  | [] => Ok params
  | p :: t => do c <- cr_col pairs p; if Nat.ltb c (length params) then set_reference pairs t (upd params c 1) else Err IndexError
  end.
(** creation_cc.py:112-137 assign_params *)
Definition cr_given (nelec nspin : Z) (pairs : list (Z * Z)) (params : option (list K)) : res (list K) :=
  set_reference pairs (cr_reference nelec nspin)
    match params with None => repeat 0 (Z.to_nat (nspin * (nspin - 1) / 2)) | Some l => l end.
Definition cr_assign_params (w : creation) (params : option (list K)) : res creation :=
  do l <- cr_given (cr_nelec w) (cr_nspin w) (cr_pairs w) params;
  Ok (mkcr (cr_nelec w) (cr_nspin w) (cr_pairs w) l (cr_perms w)).
(** creation_cc.py:65-87 __init__ *)
Definition new_creation (nelec nspin : Z) (orbpairs : option (list (Z * Z))) (params : option (list K)) : res creation :=
  do ne <- cr_assign_nelec nelec;
  do ns <- assign_nspin nspin;
  do pairs <- cr_assign_orbpairs ns orbpairs;
  do l <- cr_given ne ns pairs params;
  Ok (mkcr ne ns pairs l (cr_permutations ne)).

(** the orbitals of the pairs of positions; both numpy.take and indexing raise IndexError *)
Definition at_pos (occ : list nat) (i : nat) : res Z := match nth_error occ i with Some x => Ok (Z.of_nat x) | None => Err IndexError end.
Definition cr_orbitals (occ : list nat) (perm : list (nat * nat)) : res (list (Z * Z)) :=
  mapM (fun p => do a <- at_pos occ (fst p); do b <- at_pos occ (snd p); Ok (a, b)) perm.
Definition cr_param (w : creation) (c : nat) : res K := match nth_error (cr_params w) c with Some x => Ok x | None => Err IndexError end.
(** creation_cc.py:281-301 calculate_product *)
Definition cr_product (w : creation) (occ : list nat) (perm : list (nat * nat)) (sign : Z) : res K :=
  do ps <- cr_orbitals occ perm;
  do cols <- mapM (cr_col (cr_pairs w)) ps;
  do xs <- mapM (cr_param w) cols;
  Ok (sgnr sign * prodf (fun x => x) xs).
(** creation_cc.py:263-279 _olp *)
Definition cr_olp (w : creation) (sd : N) : res K :=
  do vs <- mapM (fun ps => cr_product w (occ_indices (Some sd)) (fst ps) (snd ps)) (cr_perms w);
  Ok (sumf (fun x => x) vs).
(** creation_cc.py:323-325: the loop over the pairs of a permutation *)
Fixpoint cr_deriv_pairs (w : creation) (sign : Z) (perm todo : list (Z * Z)) (output : list K) : res (list K) :=
  match todo with
  | [] => Ok output
  | pr :: t =>
      do c <- cr_col (cr_pairs w) pr;
      if negb (Nat.ltb c (length output)) then Err IndexError else
      do xs <- mapM (fun p => do c <- cr_col (cr_pairs w) p; cr_param w c) (filter (fun p => negb (zpair_eqb p pr)) perm);
      cr_deriv_pairs w sign perm t (upd output c (nth c output 0 + sgnr sign * prodf (fun x => x) xs))
  end.
Fixpoint cr_deriv_loop (w : creation) (occ : list nat) (perms : list (list (nat * nat))) (output : list K) : res (list K) :=
  match perms with
  | [] => Ok output
  | perm :: t =>
      do ps <- cr_orbitals occ perm;
      do o <- cr_deriv_pairs w (cr_sign ps) ps ps output;
      cr_deriv_loop w occ t o
  end.
(** creation_cc.py:303-326 _olp_deriv *)
Definition cr_olp_deriv (w : creation) (sd : N) : res (list K) :=
  cr_deriv_loop w (occ_indices (Some sd)) (map fst (cr_perms w)) (repeat 0 (length (cr_params w))).
(** creation_cc.py:328-352 get_overlap *)
Definition cr_overlap (w : creation) (sd : N) : res K := cr_olp w sd.
Definition cr_overlap_deriv (w : creation) (sd : N) (deriv : list Z) : res (list K) :=
  do output <- cr_olp_deriv w sd;
  mapM (fun d => do i <- np_index (length output) d; Ok (nth i output 0)) deriv.
End Creation.
Arguments creation : clear implicits.
