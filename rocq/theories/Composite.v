(** Model of fanpy/wfn/composite: lincomb.py, product.py, embedding.py, embedding_fixedelectron.py.

    A component wavefunction is given by its number of electrons, spin orbitals and memory, its parameters, and by
    two functions of the parameters: the overlap with a determinant and the derivatives of the overlap with respect
    to a list of parameter indices.  It may also have the methods for many determinants at once (get_overlaps).
    The identity of a Python object is [c_id].  The checks of Python types are left out. *)
From Coq Require Import List ZArith NArith Arith Bool.
From Verif Require Import Py Slater Alg WfnCI.
Import ListNotations.

(** product of two one-dimensional arrays, with broadcasting of an array of length one *)
Definition bmul {K : CRing} (a b : list K) : res (list K) :=
  if Nat.eqb (length a) (length b) then Ok (map (fun xy => rmul (fst xy) (snd xy)) (combine a b))
  else match a, b with
       | [x], _ => Ok (map (rmul x) b)
       | _, [y] => Ok (map (fun x => rmul x y) a)
       | _, _ => Err ValueError
       end.

Section Composite.
Context {K : CRing}.
Local Open Scope cr_scope.
Record comp := mkcomp {
  c_id : nat; c_nelec : Z; c_nspin : Z; c_memory : Z; c_params : list K;
  c_olp : list K -> N -> res K;
  c_dolp : list K -> N -> list Z -> res (list K);
  c_olps : option ((list K -> list N -> res (list K)) * (list K -> list N -> list Z -> res (list (list K)))) }.
Definition get_olp (c : comp) (sd : N) : res K := c_olp c (c_params c) sd.
Definition get_dolp (c : comp) (sd : N) (d : list Z) : res (list K) := c_dolp c (c_params c) sd d.
(** product.py:216-219, 254-257: get_overlaps if the component has it, otherwise one by one *)
Definition get_olps (c : comp) (sds : list N) : res (list K) :=
  match c_olps c with Some (f, _) => f (c_params c) sds | None => mapM (get_olp c) sds end.
Definition get_dolps (c : comp) (sds : list N) (d : list Z) : res (list (list K)) :=
  match c_olps c with Some (_, f) => f (c_params c) sds d | None => mapM (fun sd => get_dolp c sd d) sds end.
(** wfns.index(wfn) *)
Fixpoint find_comp (i : nat) (l : list comp) : option nat :=
  match l with [] => None | c :: t => if Nat.eqb (c_id c) i then Some O else option_map S (find_comp i t) end.
(** len(set(wfns)) != len(wfns) *)
Fixpoint repeated (l : list nat) : bool := match l with [] => false | x :: t => (existsb (Nat.eqb x) t || repeated t)%bool end.

(** * lincomb.py *)
Record lincomb := mklc { lc_nelec : Z; lc_nspin : Z; lc_memory : Z; lc_wfns : list comp; lc_params : list K }.
(** lincomb.py:174-212 assign_wfns *)
Definition lc_assign_wfns (nelec memory : Z) (wfns : list comp) : res (list comp) :=
  if negb (forallb (fun c => Z.eqb (c_nelec c) nelec) wfns) then Err ValueError
  else if negb (forallb (fun c => Z.eqb (c_memory c) memory) wfns) then Err ValueError
  else if Nat.eqb (length wfns) 1 then Err ValueError
  else if repeated (map c_id wfns) then Err ValueError
  else Ok wfns.
(** lincomb.py:126-143 assign_params (no noise): the first wavefunction alone; given parameters are not checked *)
Definition lc_assign_params (wfns : list comp) (params : option (list K)) : res (list K) :=
  match params with
  | Some p => Ok p
  | None => match wfns with [] => Err IndexError | _ :: t => Ok (1 :: map (fun _ => 0) t) end
  end.
(** lincomb.py:64-86 __init__ *)
Definition new_lincomb (nelec nspin memory : Z) (wfns : list comp) (params : option (list K)) : res lincomb :=
  do ne <- assign_nelec CIGeneral nelec;
  do ns <- assign_nspin nspin;
  do ws <- lc_assign_wfns ne memory wfns;
  do ps <- lc_assign_params ws params;
  Ok (mklc ne ns memory ws ps).
(** lincomb.py:256-258 get_overlap *)
Definition lc_overlap (w : lincomb) (sd : N) : res K :=
  do contrib <- mapM (fun c => get_olp c sd) (lc_wfns w);
  do t <- bmul (lc_params w) contrib;
  Ok (sumf (fun x => x) t).
(** the wavefunction in the first entry of deriv: the combination itself or an object *)
Inductive target := TSelf | TWfn (i : nat).
(** lincomb.py:256-287 get_overlap with deriv = (wavefunction, indices) *)
Definition lc_overlap_deriv (w : lincomb) (sd : N) (t : target) (d : list Z) : res (list K) :=
  do contrib <- mapM (fun c => get_olp c sd) (lc_wfns w);
  match t with
  | TSelf => if existsb (fun i => (i <? 0) || (Z.of_nat (length (lc_params w)) <=? i))%Z d then Err ValueError else Ok contrib
  | TWfn i =>
      match find_comp i (lc_wfns w) with
      | None => Err ValueError
      | Some k =>
          match nth_error (lc_params w) k, nth_error (lc_wfns w) k with
          | Some p, Some c => do g <- get_dolp c sd d; Ok (map (rmul p) g)
          | _, _ => Err IndexError
          end
      end
  end.

(** * product.py *)
(** product.py:62-92 __init__ *)
Definition new_product (wfns : list comp) : res (list comp) :=
  match wfns with
  | [] => Err IndexError
  | c0 :: _ =>
      do ne <- assign_nelec CIGeneral (c_nelec c0);
      do ns <- assign_nspin (c_nspin c0);
      if negb (forallb (fun c => Z.eqb (c_nelec c) (c_nelec c0)) wfns) then Err ValueError
      else if repeated (map c_id wfns) then Err ValueError else Ok wfns
  end.
(** product.py:135-170 and embedding.py:144-180, for the determinants of the components *)
Definition pr_contrib (ws : list comp) (sds : list N) : res (list K) := mapM (fun sw => get_olp (snd sw) (fst sw)) (combine sds ws).
Definition pr_overlap_at (ws : list comp) (sds : list N) : res K :=
  do contrib <- pr_contrib ws sds; Ok (prodf (fun x => x) contrib).
Definition pr_deriv_at (ws : list comp) (sds : list N) (i : nat) (d : list Z) : res (list K) :=
  do contrib <- pr_contrib ws sds;
  match find_comp i ws with
  | None => Err ValueError
  | Some k =>
      match nth_error ws k, nth_error sds k with
      | Some c, Some sd =>
          let out := prodf (fun x => x) (firstn k contrib) * prodf (fun x => x) (skipn (S k) contrib) in
          do g <- get_dolp c sd d; Ok (map (rmul out) g)
      | _, _ => Err IndexError
      end
  end.
(** product.py:94-170 get_overlap: all components are given the same determinant *)
Definition pr_overlap (ws : list comp) (sd : N) : res K := pr_overlap_at ws (map (fun _ => sd) ws).
Definition pr_overlap_deriv (ws : list comp) (sd : N) (i : nat) (d : list Z) : res (list K) := pr_deriv_at ws (map (fun _ => sd) ws) i d.
(** product.py:213-258 get_overlaps and embedding.py:223-269; [cols] has for each component the list of its
    determinants; np.array of rows of different lengths is a ValueError *)
Definition same_length {A} (n : nat) (rows : list (list A)) : bool := forallb (fun r => Nat.eqb (length r) n) rows.
Definition pr_contribs (ws : list comp) (n : nat) (cols : list (list N)) : res (list (list K)) :=
  do rows <- mapM (fun sw => get_olps (snd sw) (fst sw)) (combine cols ws);
  if same_length n rows then Ok rows else Err ValueError.
(** np.prod(rows, axis=0) *)
Definition prod_rows (n : nat) (rows : list (list K)) : list K :=
  map (fun j => prodf (fun r => nth j r 0) rows) (seq 0%nat n).
Definition pr_overlaps_at (ws : list comp) (n : nat) (cols : list (list N)) : res (list K) :=
  do rows <- pr_contribs ws n cols; Ok (prod_rows n rows).
Definition pr_derivs_at (ws : list comp) (n : nat) (cols : list (list N)) (i : nat) (d : list Z) : res (list (list K)) :=
  do rows <- pr_contribs ws n cols;
  match find_comp i ws with
  | None => Err ValueError
  | Some k =>
      match nth_error ws k, nth_error cols k with
      | Some c, Some sds =>
          let out := map (fun xy => fst xy * snd xy) (combine (prod_rows n (firstn k rows)) (prod_rows n (skipn (S k) rows))) in
          do g <- get_dolps c sds d;
          if Nat.eqb (length g) n then Ok (map (fun xr => map (rmul (fst xr)) (snd xr)) (combine out g)) else Err ValueError
      | _, _ => Err IndexError
      end
  end.
Definition pr_overlaps (ws : list comp) (sds : list N) : res (list K) := pr_overlaps_at ws (length sds) (map (fun _ => sds) ws).
Definition pr_overlaps_deriv (ws : list comp) (sds : list N) (i : nat) (d : list Z) : res (list (list K)) :=
  pr_derivs_at ws (length sds) (map (fun _ => sds) ws) i d.

(** * embedding.py *)
Fixpoint zrepeated (l : list Z) : bool := match l with [] => false | x :: t => (existsb (Z.eqb x) t || zrepeated t)%bool end.
Definition zin (x : Z) (l : list Z) : bool := existsb (Z.eqb x) l.
(** len(set(l)) *)
Fixpoint distinct (l : list Z) : nat := match l with [] => 0 | x :: t => if zin x t then distinct t else S (distinct t) end.
Fixpoint disjoint_lists (ls : list (list Z)) : bool :=
  match ls with
  | [] => true
  | a :: t => (forallb (fun b => negb (existsb (fun x => zin x a) b)) t && disjoint_lists t)%bool
  end.
(** dict_system_sub as an association list; embedding.py:77-86 *)
Definition dict_add (d : list (Z * list (nat * nat))) (i : Z) (sj : nat * nat) : list (Z * list (nat * nat)) :=
  if existsb (fun e => Z.eqb (fst e) i) d
  then map (fun e => if Z.eqb (fst e) i then (fst e, snd e ++ [sj]) else e) d
  else d ++ [(i, [sj])].
Definition dict_build (indices_list : list (list Z)) : list (Z * list (nat * nat)) :=
  fold_left (fun d sl => fold_left (fun d ji => dict_add d (snd ji) (fst sl, fst ji)) (enumerate (sorted_Z (snd sl))) d)
            (enumerate indices_list) [].
Definition dict_get (d : list (Z * list (nat * nat))) (i : Z) : res (list (nat * nat)) :=
  match find (fun e => Z.eqb (fst e) i) d with Some e => Ok (snd e) | None => Err KeyError end.
Record embedded := mkem { em_nelec : Z; em_nspin : Z; em_dict : list (Z * list (nat * nat)); em_wfns : list comp }.
(** embedding.py:11-90 __init__ *)
Definition new_embedded (nelec nspin : Z) (indices_list : list (list Z)) (wfns : list comp) (disjoint : bool) : res embedded :=
  do ne <- assign_nelec CIGeneral nelec;
  do ns <- assign_nspin nspin;
  let nspatial := (ns / 2)%Z in
  if existsb (fun ind => (zrepeated ind ||
       negb (Nat.eqb (distinct (map (fun i => if (i <? nspatial)%Z then i else (i - nspatial)%Z) ind)) (Nat.div (length ind) 2)))%bool) indices_list
  then Err ValueError
  else if negb (forallb (fun i => (0 <=? i) && (i <? nspin))%Z (concat indices_list) &&
                forallb (fun i => zin (Z.of_nat i) (concat indices_list)) (seq 0%nat (Z.to_nat nspin)))%bool then Err ValueError
  else if negb (Nat.eqb (length wfns) (length indices_list)) then Err ValueError
  else if negb (forallb (fun wi => Z.eqb (c_nspin (fst wi)) (Z.of_nat (length (snd wi)))) (combine wfns indices_list)) then Err ValueError
  else if (disjoint && (negb (Z.eqb nelec (fold_right Z.add 0%Z (map c_nelec wfns))) ||
                        negb (Z.eqb nspin (fold_right Z.add 0%Z (map c_nspin wfns))) || negb (disjoint_lists indices_list)))%bool then Err ValueError
  else Ok (mkem ne ns (dict_build indices_list) wfns).
(** embedding.py:96-101 split_sd *)
Definition create_at (l : list (option N)) (s j : nat) : res (list (option N)) :=
  match nth_error l s with
  | None => Err IndexError
  | Some sd => Ok (upd l s (create sd [j]))
  end.
Definition split_sd (w : embedded) (sd : N) : res (list (option N)) :=
  fold_left (fun acc i => do l <- acc; do sjs <- dict_get (em_dict w) (Z.of_nat i);
               fold_left (fun acc sj => do l <- acc; create_at l (fst sj) (snd sj)) sjs (Ok l))
            (occ_indices (Some sd)) (Ok (map (fun _ => Some 0%N) (em_wfns w))).
(** a component is not given None (which would be a TypeError) *)
Definition all_sds (l : list (option N)) : res (list N) := mapM (fun o => match o with Some n => Ok n | None => Err TypeError end) l.
(** embedding.py:103-180 get_overlap *)
Definition em_overlap (w : embedded) (sd : N) : res K :=
  do l <- split_sd w sd; do sds <- all_sds l; pr_overlap_at (em_wfns w) sds.
Definition em_overlap_deriv (w : embedded) (sd : N) (i : nat) (d : list Z) : res (list K) :=
  do l <- split_sd w sd; do sds <- all_sds l; pr_deriv_at (em_wfns w) sds i d.
(** embedding.py:182-269 get_overlaps, for at least one determinant *)
Definition transpose_sds (k : nat) (rows : list (list N)) : list (list N) :=
  map (fun s => map (fun r => nth s r 0%N) rows) (seq 0%nat k).
Definition em_overlaps (w : embedded) (sds : list N) : res (list K) :=
  do rows <- mapM (fun sd => do l <- split_sd w sd; all_sds l) sds;
  pr_overlaps_at (em_wfns w) (length sds) (transpose_sds (length (em_wfns w)) rows).
Definition em_overlaps_deriv (w : embedded) (sds : list N) (i : nat) (d : list Z) : res (list (list K)) :=
  do rows <- mapM (fun sd => do l <- split_sd w sd; all_sds l) sds;
  pr_derivs_at (em_wfns w) (length sds) (transpose_sds (length (em_wfns w)) rows) i d.

(** * embedding_fixedelectron.py *)
(** embedding_fixedelectron.py:35-46 split_sd: determinants of the wrong number of electrons are replaced by 0 *)
Definition count_at (l : list nat) (s : nat) : res (list nat) :=
  match nth_error l s with None => Err IndexError | Some n => Ok (upd l s (S n)) end.
Definition fixed_split (w : embedded) (nelecs : list Z) (sd : N) : res (list (option N)) :=
  do lc <- fold_left (fun acc i => do lc <- acc; do sjs <- dict_get (em_dict w) (Z.of_nat i);
               fold_left (fun acc sj => do lc <- acc; do l <- create_at (fst lc) (fst sj) (snd sj); do c <- count_at (snd lc) (fst sj); Ok (l, c)) sjs (Ok lc))
            (occ_indices (Some sd)) (Ok (map (fun _ => Some 0%N) (em_wfns w), map (fun _ => 0%nat) (em_wfns w)));
  mapM (fun i => match nth_error nelecs i with
                 | None => Err IndexError
                 | Some n => Ok (if Z.eqb n (Z.of_nat (nth i (snd lc) 0%nat)) then nth i (fst lc) None else Some 0%N)
                 end) (seq 0%nat (length (em_wfns w))).
(** embedding_fixedelectron.py:48-133 get_overlap *)
Definition fixed_overlap (w : embedded) (nelecs : list Z) (sd : N) : res K :=
  do l <- fixed_split w nelecs sd; do sds <- all_sds l;
  if existsb (N.eqb 0) sds then Ok 0 else pr_overlap_at (em_wfns w) sds.
Definition fixed_overlap_deriv (w : embedded) (nelecs : list Z) (sd : N) (i : nat) (d : list Z) : res (list K) :=
  do l <- fixed_split w nelecs sd; do sds <- all_sds l;
  do contrib <- pr_contrib (em_wfns w) sds;
  if existsb (fun c => Nat.eqb (c_id c) i) (em_wfns w) then
    if existsb (N.eqb 0) sds then Ok (map (fun _ => 0) d) else pr_deriv_at (em_wfns w) sds i d
  else Err ValueError.
(** embedding_fixedelectron.py:135-244 get_overlaps, for at least one determinant: only the determinants whose parts
    are all nonzero are given to the components *)
Definition no_zero (row : list N) : bool := negb (existsb (N.eqb 0) row).
(** output = zeros; output[mask] = values *)
Fixpoint scatter {A} (z : A) (mask : list bool) (vals : list A) : list A :=
  match mask, vals with
  | [], _ => []
  | true :: m, v :: t => v :: scatter z m t
  | _ :: m, _ => z :: scatter z m vals
  end.
Definition fixed_overlaps (w : embedded) (nelecs : list Z) (sds : list N) : res (list K) :=
  do rows <- mapM (fun sd => do l <- fixed_split w nelecs sd; all_sds l) sds;
  let rows' := filter no_zero rows in
  do v <- pr_overlaps_at (em_wfns w) (length rows') (transpose_sds (length (em_wfns w)) rows');
  Ok (scatter 0 (map no_zero rows) v).
Definition fixed_overlaps_deriv (w : embedded) (nelecs : list Z) (sds : list N) (i : nat) (d : list Z) : res (list (list K)) :=
  do rows <- mapM (fun sd => do l <- fixed_split w nelecs sd; all_sds l) sds;
  let rows' := filter no_zero rows in
  do v <- pr_derivs_at (em_wfns w) (length rows') (transpose_sds (length (em_wfns w)) rows') i d;
  Ok (scatter (map (fun _ => 0) d) (map no_zero rows) v).
End Composite.
Arguments comp : clear implicits.
Arguments lincomb : clear implicits.
Arguments embedded : clear implicits.
