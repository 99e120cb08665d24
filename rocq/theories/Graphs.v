(** Model of fanpy/tools/graphs.py.  Generators are modelled by the list of the values they yield
    (and by an error if iterating raises). *)
From Coq Require Import List ZArith NArith Bool Arith.
From Verif Require Import Py Slater.
Import ListNotations.

Definition scheme := list (Z * Z).

(** graphs.py:57-68  body of the for loop of generate_complete_pmatch for one inner scheme;
    [a, b] are the last two indices and [h] is n // 2 - 1 *)
Definition cpm_extend (a b : Z) (h : nat) (p : scheme * Z) : list (scheme * Z) :=
  let (sch, s) := p in
  (sch ++ [(a, b)], s)
  :: flat_map (fun i =>
       let x := nth i sch (0%Z, 0%Z) in
       [ (firstn i sch ++ [(fst x, a); (snd x, b)] ++ skipn (i + 1) sch, (- s)%Z);
         (firstn i sch ++ [(fst x, b); (snd x, a)] ++ skipn (i + 1) sch, s) ])
     (rev (seq 0 h)).

(** graphs.py:48-68  recursion of generate_complete_pmatch on the reversed index list
    ([indices[:-2]] drops the first two entries of the reversed list) *)
Fixpoint cpm_rev (r : list Z) (sign : Z) : list (scheme * Z) :=
  match r with
  | b :: a :: t =>
      match t with
      | [] => [([(a, b)], sign)]
      | _ => flat_map (cpm_extend a b (Nat.div (length r) 2 - 1)) (cpm_rev t sign)
      end
  | _ => [([], sign)]
  end.

(** graphs.py:21-68  generate_complete_pmatch *)
Definition generate_complete_pmatch (indices : list Z) (sign : Z) : list (scheme * Z) :=
  let n := length indices in
  if Nat.eqb (Nat.modulo n 2) 1 || Nat.ltb n 2 then [([], sign)]
  else cpm_rev (rev indices) sign.

(** ** generate_biclique_pmatch *)

(** state of the permutation machine: indices, cycles, sign *)
Definition bp_state := (list nat * list nat * Z)%type.

(** [swap l i j] exchanges two entries *)
Definition swap_at {A} (d : A) (l : list A) (i j : nat) : list A :=
  upd (upd l i (nth j l d)) j (nth i l d).

(** graphs.py:142-162  body of the for loop for one [i]; the boolean says whether the body yields
    (and breaks).  [(-1) ** (n - i - 1)] is the parity of n - i - 1. *)
Definition bp_level (n i : nat) (st : bp_state) : bool * bp_state :=
  let '(indices, cycles, sign) := st in
  let cycles := upd cycles i (nth i cycles 0 - 1) in
  if Nat.eqb (nth i cycles 0) 0 then
    (false, (firstn i indices ++ skipn (i + 1) indices ++ slice indices i (i + 1),
             upd cycles i (n - i), (sign * sgn (Nat.odd (n - i - 1)))%Z))
  else
    let j := nth i cycles 0 in
    (true, (swap_at 0 indices i (n - j), cycles, (sign * -1)%Z)).

(** graphs.py:141-165  [for i in reversed(range(n))]: the levels are given as a list *)
Fixpoint bp_for (n : nat) (levels : list nat) (st : bp_state) : bool * bp_state :=
  match levels with
  | [] => (false, st)
  | i :: t => let (y, st') := bp_level n i st in if y then (true, st') else bp_for n t st'
  end.

(** graphs.py:140-165  the while loop; [None] means that the fuel did not suffice *)
Fixpoint bp_while (n fuel : nat) (st : bp_state) : option (list bp_state) :=
  match fuel with
  | O => None
  | S f =>
      let (y, st') := bp_for n (rev (seq 0 n)) st in
      if y then match bp_while n f st' with None => None | Some l => Some (st' :: l) end
      else Some []
  end.

(** [n!] iterations suffice (theorems C20_matchings and C20_error: the result is never an error unless the ordered set is not sorted) *)
Fixpoint factorial (n : nat) : nat := match n with O => 1 | S k => S k * factorial k end.

Definition flatten_pairs (p : scheme) : list Z := flat_map (fun x => [fst x; snd x]) p.

Definition memZ (x : Z) (l : list Z) : bool := existsb (Z.eqb x) l.

(** [len(set(a).symmetric_difference(set(b)))] *)
Definition sym_diff_size (a b : list Z) : nat :=
  length (filter (fun x => negb (memZ x b)) (nodup Z.eq_dec a)) +
  length (filter (fun x => negb (memZ x a)) (nodup Z.eq_dec b)).

(** graphs.py:71-165  generate_biclique_pmatch.  [Exc 0] stands for running out of fuel, which never
    happens. *)
Definition generate_biclique_pmatch (one two : list Z) (ordered_set : option (list Z))
  (is_decreasing : bool) : res (list (scheme * Z)) :=
  do orig <- sign_perm (flatten_pairs (combine one two)) ordered_set is_decreasing;
  if Nat.eqb (length one) 0 || Nat.eqb (length two) 0 then Ok [([], 1%Z)]
  else if negb (Nat.eqb (length one) (length two)) then Ok [([], 1%Z)]
  else if Nat.ltb (sym_diff_size one two) (length (one ++ two)) then Ok [([], 1%Z)]
  else
    let n := length two in
    let st0 := (seq 0 n, rev (seq 1 n), 1%Z) in
    match bp_while n (factorial n) st0 with
    | None => Err (Exc 0)
    | Some l =>
        Ok (map (fun st => let '(indices, _, sign) := st in
                           (combine one (map (fun i => nth i two 0%Z) indices), (sign * orig)%Z))
                (st0 :: l))
    end.

(** ** generate_unordered_partition *)

(** graphs.py:203-246  the while loop over the bins for one previous partition and the new element
    [last]; yields the new partitions.  [fuel] bounds the number of iterations (every iteration
    increases ind_bin or ind_size).  An index out of range of [prev_partition] is an IndexError. *)
Fixpoint up_while (fuel : nat) (bsn : list (nat * nat)) (prev : list (list Z)) (last : Z)
  (ind_bin ind_bin_size : Z) (ind_size : nat) : res (list (list (list Z))) :=
  match fuel with
  | O => Err (Exc 0)
  | S f =>
      if negb (Nat.ltb ind_size (length bsn)) then Ok []
      else
        let ind_bin := (ind_bin + 1)%Z in
        let ind_bin_size := (ind_bin_size + 1)%Z in
        let full := (ind_bin_size =? Z.of_nat (snd (nth ind_size bsn (0, 0)%nat)))%Z in
        let ind_size := if full then S ind_size else ind_size in
        let ind_bin_size := if full then 0%Z else ind_bin_size in
        if full && Nat.eqb ind_size (length bsn) then Ok []
        else
          match nth_error prev (Z.to_nat ind_bin) with
          | None => Err IndexError
          | Some subset =>
              let put := firstn (Z.to_nat ind_bin) prev ++ [subset ++ [last]]
                         ++ skipn (Z.to_nat ind_bin + 1) prev in
              let bsize := fst (nth ind_size bsn (0, 0)%nat) in
              let bnum := Z.of_nat (snd (nth ind_size bsn (0, 0)%nat)) in
              match rev subset with
              | [] =>
                  do r <- (if (1 <? bnum)%Z
                           then up_while f bsn prev last (ind_bin + (bnum - ind_bin_size - 1))%Z
                                  (-1)%Z (S ind_size)
                           else up_while f bsn prev last ind_bin ind_bin_size ind_size);
                  Ok (put :: r)
              | x :: _ =>
                  if negb (x <? last)%Z then up_while f bsn prev last ind_bin ind_bin_size ind_size
                  else if negb (Nat.ltb (length subset) bsize)
                       then up_while f bsn prev last ind_bin ind_bin_size ind_size
                  else do r <- up_while f bsn prev last ind_bin ind_bin_size ind_size;
                       Ok (put :: r)
              end
          end
  end.

(** bound on the number of iterations *)
Definition up_fuel (bsn : list (nat * nat)) : nat :=
  S (length bsn + list_sum (map snd bsn)).

Fixpoint concat_res {A} (l : list (res (list A))) : res (list A) :=
  match l with
  | [] => Ok []
  | x :: t => do a <- x; do b <- concat_res t; Ok (a ++ b)
  end.

(** graphs.py:166-249  generate_unordered_partition, on the reversed collection *)
Fixpoint gup_rev (r : list Z) (bsn : list (nat * nat)) : res (list (list (list Z))) :=
  match r with
  | [] => Ok [flat_map (fun sn => repeat [] (snd sn)) bsn]
  | last :: t =>
      do prevs <- gup_rev t bsn;
      concat_res (map (fun prev => up_while (up_fuel bsn) bsn prev last (-1)%Z (-1)%Z 0) prevs)
  end.
Definition generate_unordered_partition (collection : list Z) (bsn : list (nat * nat)) :=
  gup_rev (rev collection) bsn.

(** ** int_partition_recursive, graphs.py:253-298.  [None]: out of fuel (the Python recursion would
    not end).  [coins[num_coin_types - 1]] raises IndexError beyond the list; the model returns an
    error value. *)
Fixpoint int_partition (fuel : nat) (coins : list Z) (k : nat) (total : Z)
  : res (list (list Z)) :=
  match fuel with
  | O => Err (Exc 0)
  | S f =>
      let first := if (total =? 0)%Z then [[]] else [] in
      if (total <=? 0)%Z then Ok first
      else match k with
           | O => Ok first
           | S k' =>
               match nth_error coins k' with
               | None => Err IndexError
               | Some c =>
                   do incl <- int_partition f coins k (total - c);
                   do excl <- int_partition f coins k' total;
                   Ok (first ++ map (cons c) incl ++ excl)
               end
           end
  end.

(** ** generate_general_pmatch, graphs.py:301-339.  [conn i j] is the connectivity matrix.  The
    recursion passes the submatrix of the remaining vertices; the model passes the list of original
    positions together with the indices, which selects the same entries. *)
Fixpoint general_pmatch (fuel : nat) (vs : list (nat * Z)) (conn : nat -> nat -> bool)
  : list (scheme * Z) :=
  match fuel with
  | O => []
  | S f =>
      match vs with
      | [] => []
      | [_] => []
      | [v; w] => [([(snd v, snd w)], 1%Z)]
      | v :: rest =>
          flat_map (fun j =>
            let w := nth j rest (0, 0%Z) in
            if conn (fst v) (fst w) then
              (* the mask keeps the vertices after the first that are neither v nor w *)
              let rem := filter (fun u => negb (Z.eqb (snd u) (snd v) || Z.eqb (snd u) (snd w))) rest in
              map (fun p => ((snd v, snd w) :: fst p, (sgn (Nat.odd j) * snd p)%Z))
                  (general_pmatch f rem conn)
            else [])
            (seq 0 (length rest))
      end
  end.
Definition generate_general_pmatch (indices : list Z) (conn : nat -> nat -> bool) :=
  general_pmatch (length indices) (enumerate indices) conn.
