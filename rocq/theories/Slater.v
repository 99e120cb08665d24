(** Model of fanpy/tools/slater.py (function by function).

    Slater determinants are Python ints or None: [option N].  Negative ints are not modelled (no
    function of the module produces them).  Orbital indices of functions that do not check their
    sign are [nat]; indices of functions that do check are [Z].  The [__debug__] checks are modelled
    as active (the default interpreter mode).  numpy integer arrays are lists of unbounded integers
    except in [excite_bulk*], where int64 shifts are modelled. *)
From Coq Require Import List ZArith NArith Bool Lia.
From Verif Require Import Py.
Import ListNotations.

(** slater.py:102-119  occ: [sd is not None and (sd >> i) % 2] (truth value) *)
Definition occ (sd : option N) (i : nat) : bool :=
  match sd with
  | None => false
  | Some n => negb (N.eqb (N.modulo (N.shiftr n (N.of_nat i)) 2) 0)
  end.

(** slater.py:122-138  occ_indices *)
Definition occ_indices (sd : option N) : list nat :=
  match sd with
  | None => []
  | Some n => map fst (filter snd (enumerate (bin_lsb n)))
  end.

(** slater.py:141-162  vir_indices *)
Definition vir_indices (sd : option N) (norbs : Z) : list nat :=
  match sd with
  | None => []
  | Some n =>
      if (norbs <=? 0)%Z then []
      else filter (fun i => N.eqb (N.land n (N.shiftl 1 (N.of_nat i))) 0) (range norbs)
  end.

(** slater.py:165-182  total_occ *)
Definition total_occ (sd : option N) : nat :=
  match sd with
  | None => 0
  | Some n => count_true (bin_msb n)
  end.

(** slater.py:185-211  is_alpha *)
Definition is_alpha (i nspatial : Z) : res bool :=
  if ((nspatial <=? 0) || (i <? 0) || (2 * nspatial <? i))%Z then Err ValueError
  else Ok (i <? nspatial)%Z.

(** slater.py:214-241  spatial_index *)
Definition spatial_index (i nspatial : Z) : res Z :=
  if ((nspatial <=? 0) || (i <? 0) || (2 * nspatial <? i))%Z then Err ValueError
  else do a <- is_alpha i nspatial;
       if a then Ok i else Ok (i - nspatial)%Z.

(** slater.py:244-283  spin_index.  The [spin] string is one of the two accepted words or anything
    else. *)
Inductive spin_word := Alpha | Beta | OtherWord.
Definition spin_index (i nspatial : Z) (spin : spin_word) : res Z :=
  if (nspatial <=? 0)%Z then Err ValueError
  else if negb ((0 <=? i) && (i <? nspatial))%Z then Err ValueError
  else match spin with
       | OtherWord => Err ValueError
       | Alpha => Ok i
       | Beta => Ok (i + nspatial)%Z
       end.

(** slater.py:286-309  annihilate *)
Fixpoint annihilate (sd : option N) (indices : list nat) : option N :=
  match indices with
  | [] => sd
  | i :: t =>
      if negb (occ sd i) then None
      else annihilate (match sd with
                       | None => None (* unreachable: occ None is false *)
                       | Some n => Some (N.lxor n (N.shiftl 1 (N.of_nat i)))
                       end) t
  end.

(** slater.py:312-334  create *)
Fixpoint create (sd : option N) (indices : list nat) : option N :=
  match indices with
  | [] => sd
  | i :: t =>
      match sd with
      | None => None
      | Some n => if negb (occ sd i) then create (Some (N.lor n (N.shiftl 1 (N.of_nat i)))) t
                  else None
      end
  end.

(** slater.py:337-365  excite *)
Definition excite (sd : option N) (indices : list nat) : res (option N) :=
  if negb (Nat.eqb (Nat.modulo (length indices) 2) 0) then Err ValueError
  else
    let half := Nat.div (length indices) 2 in
    let sd1 := annihilate sd (firstn half indices) in
    Ok (create sd1 (skipn half indices)).

(** slater.py:368-402  ground *)
Definition ground (nocc norbs : Z) : res N :=
  if (norbs <? nocc)%Z then Err ValueError
  else if negb (Z.eqb (norbs mod 2) 0)%Z then Err ValueError
  else
    do a <- int_of_bin (py_repeat true (nocc / 2 + nocc mod 2)%Z);
    do b <- int_of_bin (py_repeat true (nocc / 2)%Z ++ py_repeat false (norbs / 2)%Z);
    Ok (a + b)%N.

(** slater.py:405-421  shared_sd *)
Definition shared_sd (sd1 sd2 : N) : N := N.land sd1 sd2.

(** slater.py:424-440  shared_orbs *)
Definition shared_orbs (sd1 sd2 : N) : list nat := occ_indices (Some (N.land sd1 sd2)).

(** slater.py:443-463  diff_orbs *)
Definition diff_orbs (sd1 sd2 : N) : list nat * list nat :=
  let sd_diff := N.lxor sd1 sd2 in
  let sd1_diff := N.land sd_diff sd1 in
  let sd2_diff := N.land sd_diff sd2 in
  (occ_indices (Some sd1_diff), occ_indices (Some sd2_diff)).

(** slater.py:466-499  combine_spin *)
Definition combine_spin (alpha_bits beta_bits : N) (nspatial : Z) : res N :=
  if (nspatial <=? 0)%Z then Err ValueError
  else Ok (N.lor alpha_bits (N.shiftl beta_bits (Z.to_N nspatial))).

(** slater.py:502-537  split_spin *)
Definition split_spin (block_sd : N) (nspatial : Z) : res (N * N) :=
  if (nspatial <=? 0)%Z then Err ValueError
  else
    do mask <- int_of_bin (py_repeat true nspatial);
    Ok (N.land block_sd mask, N.shiftr block_sd (Z.to_N nspatial)).

(** slater.py:540-571  interleave_index *)
Definition interleave_index (i nspatial : Z) : res Z :=
  if (i <? 0)%Z then Err ValueError
  else if (2 * nspatial <=? i)%Z then Err ValueError
  else if (i <? nspatial)%Z then Ok (2 * i)%Z
  else Ok (2 * (i - nspatial) + 1)%Z.

(** slater.py:574-605  deinterleave_index *)
Definition deinterleave_index (i nspatial : Z) : res Z :=
  if (i <? 0)%Z then Err ValueError
  else if (2 * nspatial <=? i)%Z then Err ValueError
  else if (i mod 2 =? 0)%Z then Ok (i / 2)%Z
  else Ok (i / 2 + nspatial)%Z.

(** slater.py:608-660  interleave.  Digit strings are most-significant-first lists. *)
Definition interleave (block_sd : N) (nspatial : Z) : res N :=
  if (nspatial <=? 0)%Z then Err ValueError
  else
    let sd_bit0 := bin_msb block_sd in
    let sd_bit := py_repeat false (nspatial * 2 - Z.of_nat (length sd_bit0))%Z ++ sd_bit0 in
    let k := Z.to_nat nspatial in
    let alpha_bit := skipn k sd_bit in
    let beta_bit := firstn k sd_bit in
    int_of_bin (flat_map (fun p => [fst p; snd p]) (combine beta_bit alpha_bit)).

(** Elements of even / odd position, counted from the front: [l[0::2]], [l[1::2]]. *)
Fixpoint evens {A} (l : list A) : list A :=
  match l with
  | [] => []
  | [x] => [x]
  | x :: _ :: t => x :: evens t
  end.
Definition odds {A} (l : list A) : list A := match l with [] => [] | _ :: t => evens t end.

(** slater.py:670-723  deinterleave.  [s[-1::-2][::-1]] takes every second digit counted from the
    least significant end; with [lsb := rev s] this is [rev (evens lsb)], and [s[-2::-2][::-1]] is
    [rev (odds lsb)]. *)
Definition deinterleave (shuffled_sd : N) (nspatial : Z) : res N :=
  if (nspatial <=? 0)%Z then Err ValueError
  else
    let lsb := rev (bin_msb shuffled_sd) in
    let alpha0 := rev (evens lsb) in
    let beta0 := rev (odds lsb) in
    let alpha_bit := py_repeat false (nspatial - Z.of_nat (length alpha0))%Z ++ alpha0 in
    let beta_bit := py_repeat false (nspatial - Z.of_nat (length beta0))%Z ++ beta0 in
    int_of_bin (beta_bit ++ alpha_bit).

(** slater.py:733-750  get_spin.  The code returns the float 0.5*(a-b); the model returns the
    integer a-b, i.e. twice the spin. *)
Definition get_spin2 (sd : N) (nspatial : Z) : res Z :=
  do ab <- split_spin sd nspatial;
  Ok (Z.of_nat (total_occ (Some (fst ab))) - Z.of_nat (total_occ (Some (snd ab))))%Z.

(** slater.py:753-770  get_seniority *)
Definition get_seniority (sd : N) (nspatial : Z) : res nat :=
  do ab <- split_spin sd nspatial;
  Ok (total_occ (Some (N.lxor (fst ab) (snd ab)))).

(** slater.py:811-817  inner loop of sign_perm: walk over [jumbled] until [i] is met *)
Fixpoint sign_perm_inner (i : Z) (jumbled : list Z) (sign : Z) : Z :=
  match jumbled with
  | [] => sign
  | j :: t => if (i <? j)%Z then sign_perm_inner i t (- sign)%Z
              else if (j =? i)%Z then sign
              else sign_perm_inner i t sign
  end.

Fixpoint strictly_increasing (l : list Z) : bool :=
  match l with
  | x :: ((y :: _) as t) => (x <? y)%Z && strictly_increasing t
  | _ => true
  end.

(** slater.py:773-818  sign_perm *)
Definition sign_perm (jumbled_set : list Z) (ordered_set : option (list Z)) (is_decreasing : bool)
  : res Z :=
  let jumbled := if is_decreasing then rev jumbled_set else jumbled_set in
  match ordered_set with
  | None => Ok (fold_left (fun s i => sign_perm_inner i jumbled s) (sorted_Z jumbled) 1%Z)
  | Some ord =>
      if negb (strictly_increasing ord) then Err ValueError
      else Ok (fold_left (fun s i => sign_perm_inner i jumbled s) ord 1%Z)
  end.

(** slater.py:821-869  sign_swap *)
Definition sign_swap (sd : option N) (pos_current pos_future : Z) : res Z :=
  match sd with
  | None => Err ValueError
  | Some n =>
      if (pos_current <? 0)%Z then Err ValueError
      else if (pos_future <? 0)%Z then Err ValueError
      else
        let cur := Z.to_nat pos_current in
        let fut := Z.to_nat pos_future in
        if negb (occ sd cur) then Err ValueError
        else
          let num_trans :=
            if Nat.ltb cur fut then count_true (slice (bin_lsb n) (cur + 1) (fut + 1))
            else count_true (slice (bin_lsb n) fut cur) in
          if Nat.eqb (Nat.modulo num_trans 2) 0 then Ok 1%Z else Ok (-1)%Z
  end.

(** slater.py:908-913  annihilation loop of sign_excite *)
Fixpoint sign_excite_ann (sd : option N) (sign : Z) (annihilators : list nat)
  : res (option N * Z) :=
  match annihilators with
  | [] => Ok (sd, sign)
  | i :: t =>
      if negb (occ sd i) then Err ValueError
      else do s <- sign_swap sd (Z.of_nat i) 0;
           sign_excite_ann (annihilate sd [i]) (sign * s)%Z t
  end.

(** slater.py:915-920  creation loop of sign_excite *)
Fixpoint sign_excite_cre (sd : option N) (sign : Z) (creators : list nat) : res Z :=
  match creators with
  | [] => Ok sign
  | i :: t =>
      match create sd [i] with
      | None => Err ValueError
      | Some n => do s <- sign_swap (Some n) (Z.of_nat i) 0;
                  sign_excite_cre (Some n) (sign * s)%Z t
      end
  end.

(** slater.py:872-922  sign_excite *)
Definition sign_excite (sd : option N) (annihilators creators : list nat) : res Z :=
  do p <- sign_excite_ann sd 1%Z annihilators;
  sign_excite_cre (fst p) (snd p) creators.

(** [l[k] = v] on a list (numpy item assignment, index in range) *)
Fixpoint upd {A} (l : list A) (k : nat) (v : A) : list A :=
  match l, k with
  | [], _ => []
  | _ :: t, O => v :: t
  | x :: t, S k' => x :: upd t k' v
  end.

(** slater.py:963-964  [indices = zeros(nspin); indices[occs] = arange(occs.size)] *)
Definition position_table (occs : list nat) (nspin : nat) : list nat :=
  fold_left (fun tbl p => upd tbl (snd p) (fst p)) (enumerate occs) (repeat 0 nspin).

Definition count_pred {A} (f : A -> bool) (l : list A) : nat := length (filter f l).

(** slater.py:968-977  annihilators of one row: number of jumps and the row of [shared_indices]
    with the annihilated entries replaced by -1.  (The numpy code runs over columns for all rows at
    once; rows do not interact, so the model runs over the columns of one row.) *)
Fixpoint sea_ann (tbl : list nat) (shared : list Z) (jumps : nat) (anns : list nat)
  : nat * list Z :=
  match anns with
  | [] => (jumps, shared)
  | a :: t =>
      let jumps' := jumps + count_pred (fun s => (Z.of_nat a <? s)%Z) shared in
      sea_ann tbl (upd shared (nth a tbl 0) (-1)%Z) jumps' t
  end.

(** slater.py:981-984  creators of one row *)
Fixpoint sea_cre (shared : list Z) (jumps : nat) (cres : list nat) : nat :=
  match cres with
  | [] => jumps
  | c :: t => sea_cre shared (jumps + count_pred (fun s => (Z.of_nat c <? s)%Z) shared) t
  end.

(** slater.py:925-992  sign_excite_array; the result matrix has one row per annihilator row and one
    column per creator row.  [ncre] is creators.shape[1]. *)
Definition sign_excite_array (occs : list nat) (annihilators creators : list (list nat))
  (ncre nspin : nat) : list (list Z) :=
  let tbl := position_table occs nspin in
  map (fun anns =>
         let (ja, shared) := sea_ann tbl (map Z.of_nat occs) 0 anns in
         map (fun cres =>
                let jc := sea_cre shared 0 cres in
                (sgn (Nat.odd (ja + jc)) * sgn (Nat.odd (Nat.modulo (Nat.div ncre 2) 2)))%Z)
             creators)
      annihilators.

(** [l] without the element at position [k] *)
Fixpoint remove_at {A} (l : list A) (k : nat) : list A :=
  match l, k with
  | [], _ => []
  | _ :: t, O => t
  | x :: t, S k' => x :: remove_at t k'
  end.

(** slater.py:995-1015  shared_indices_remove_one_index: row k is [indices] without entry k (tile,
    mask out the diagonal, reshape) *)
Definition shared_indices_remove_one_index (indices : list nat) : list (list nat) :=
  map (fun k => remove_at indices k) (seq 0 (length indices)).

(** slater.py:1018-1060  spatial_to_spin_indices *)
Definition spatial_to_spin_indices (spatial_indices : list Z) (nspatial : Z) (to_beta : bool)
  : res (list Z) :=
  if negb (0 <? nspatial)%Z then Err ValueError
  else if negb (forallb (fun i => (0 <=? i) && (i <? nspatial))%Z spatial_indices)
       then Err ValueError
  else if to_beta then Ok (map (fun i => i + nspatial)%Z spatial_indices)
  else Ok spatial_indices.

(** numpy [left_shift(1, i)] on int64: bit 63 is the sign bit, larger shifts give 0 *)
Definition np_shl1 (i : nat) : Z :=
  if Nat.ltb i 63 then Z.shiftl 1 (Z.of_nat i)
  else if Nat.eqb i 63 then (- 2 ^ 63)%Z
  else 0%Z.

(** numpy conversion of a Python int to int64 *)
Definition np_int64 (n : N) : res Z :=
  if (Z.of_N n <? 2 ^ 63)%Z then Ok (Z.of_N n) else Err OverflowError.

(** slater.py:1102-1118  bit masks of combinations of indices.  For order 1 the code skips the
    bitwise_or reduction of the single column; [fold_left Z.lor _ 0] of one element is that
    element. *)
Definition bulk_masks (combos : list (list nat)) : list Z :=
  map (fun c => fold_left Z.lor (map np_shl1 c) 0%Z) combos.

(** slater.py:1063-1120  excite_bulk.  [excite_order] is the Python int argument. *)
Definition excite_bulk (sd : N) (occ_inds vir_inds : list nat) (excite_order : Z)
  : res (list Z) :=
  if (excite_order <? 0)%Z then Err TypeError
  else if (excite_order =? 0)%Z then do s <- np_int64 sd; Ok [s]
  else
    let k := Z.to_nat excite_order in
    let occ_masks := bulk_masks (combinations occ_inds k) in
    let vir_masks := bulk_masks (combinations vir_inds k) in
    do s <- np_int64 sd;
    Ok (flat_map (fun o => map (fun v => Z.lor (Z.lxor s o) v) vir_masks) occ_masks).

(** slater.py:1123-1174  excite_bulk_two_ab *)
Definition excite_bulk_two_ab (sd : N) (occ_alpha occ_beta vir_alpha vir_beta : list nat)
  : res (list Z) :=
  let occ_masks := bulk_masks (map (fun p => [fst p; snd p]) (list_prod occ_alpha occ_beta)) in
  let vir_masks := bulk_masks (map (fun p => [fst p; snd p]) (list_prod vir_alpha vir_beta)) in
  do s <- np_int64 sd;
  Ok (flat_map (fun o => map (fun v => Z.lor (Z.lxor s o) v) vir_masks) occ_masks).

(** slater.py:1198-1201 (also 1244-1248, 1325-1335)  number of virtuals that fall into each gap
    between occupied orbitals.  [skip_occ] is the inner while loop. *)
Fixpoint skip_occ (a : nat) (occs : list nat) (counter : nat) (fuel : nat) : nat :=
  match fuel with
  | O => counter
  | S f => if Nat.ltb counter (length occs) && Nat.ltb (nth counter occs 0) a
           then skip_occ a occs (S counter) f
           else counter
  end.

Definition bin_sizes_step (occs : list nat) (st : nat * list nat) (a : nat) : nat * list nat :=
  let (counter, bins) := st in
  let c := skip_occ a occs counter (length occs) in
  (c, upd bins c (nth c bins 0 + 1)).

Definition bin_sizes (occs virs : list nat) : list nat :=
  snd (fold_left (bin_sizes_step occs) virs (0, repeat 0 (length occs + 1))).

Definition b2n (b : bool) : nat := if b then 1 else 0.

(** slater.py:1177-1218  sign_excite_one *)
Definition sign_excite_one (occs virs : list nat) : list Z :=
  let num_occ := length occs in
  let bins := bin_sizes occs virs in
  flat_map (fun i =>
    flat_map (fun j =>
      let num_jumps := if Nat.ltb i j then i + j - 1 else i + j in
      if Nat.eqb (Nat.modulo num_jumps 2) 0 then repeat 1%Z (nth j bins 0)
      else repeat (-1)%Z (nth j bins 0))
      (seq 0 (num_occ + 1)))
    (seq 0 num_occ).

(** slater.py:1221-1289  sign_excite_two *)
Definition sign_excite_two (occs virs : list nat) : list Z :=
  let num_occ := length occs in
  let bins := bin_sizes occs virs in
  flat_map (fun i1 =>
    flat_map (fun i2 =>
      flat_map (fun j1 =>
        if Nat.eqb (nth j1 bins 0) 0 then []
        else
          let nj := (Z.of_nat i1 + Z.of_nat i2 - 1 + 2 * Z.of_nat j1)%Z in
          let sign_j1 := if (nj mod 2 =? 0)%Z then 1%Z else (-1)%Z in
          let signs_j2 :=
            flat_map (fun j2 =>
              if Nat.eqb (nth j2 bins 0) 0 then []
              else
                let nj := (Z.of_nat i1 + Z.of_nat i2 - 1 + Z.of_nat j2 + Z.of_nat j1
                           - Z.of_nat (b2n (Nat.ltb i1 j2) + b2n (Nat.ltb i2 j2)
                                       + b2n (Nat.ltb i1 j1) + b2n (Nat.ltb i2 j1)))%Z in
                let sign := if (nj mod 2 =? 0)%Z then 1%Z else (-1)%Z in
                repeat sign (nth j2 bins 0))
              (seq (j1 + 1) (num_occ + 1 - (j1 + 1))) in
          flat_map (fun len_j1 => repeat sign_j1 len_j1 ++ signs_j2)
                   (rev (seq 0 (nth j1 bins 0))))
        (seq 0 (num_occ + 1)))
      (seq (i1 + 1) (num_occ - (i1 + 1))))
    (seq 0 num_occ).

(** slater.py:1292-1369  sign_excite_two_ab; [output_j_b * bin_sizes_alpha[j_a]] is list
    repetition *)
Definition sign_excite_two_ab (occ_alpha occ_beta vir_alpha vir_beta : list nat) : list Z :=
  let na := length occ_alpha in
  let nb := length occ_beta in
  let bins_a := bin_sizes occ_alpha vir_alpha in
  let bins_b := bin_sizes occ_beta vir_beta in
  flat_map (fun i_a =>
    flat_map (fun i_b =>
      flat_map (fun j_a =>
        if Nat.eqb (nth j_a bins_a 0) 0 then []
        else
          let output_j_b :=
            flat_map (fun j_b =>
              if Nat.eqb (nth j_b bins_b 0) 0 then []
              else
                let nj0 := i_a + i_b + j_b + j_a in
                let nj1 := if Nat.ltb i_a j_a then nj0 - 1 else nj0 in
                let nj2 := if Nat.ltb i_b j_b then nj1 - 1 else nj1 in
                if Nat.eqb (Nat.modulo nj2 2) 0 then repeat 1%Z (nth j_b bins_b 0)
                else repeat (-1)%Z (nth j_b bins_b 0))
              (seq 0 (nb + 1)) in
          concat (repeat output_j_b (nth j_a bins_a 0)))
        (seq 0 (na + 1)))
      (seq 0 nb))
    (seq 0 na).
