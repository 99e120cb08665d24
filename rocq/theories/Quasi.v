(** Model of fanpy/wfn/quasiparticle/base.py and tetret.py.

    The coefficient matrix is kept as its C-order list.  Numbers are elements of a field, without rounding;
    numpy.linalg.det is the Leibniz formula.  Noise, dtypes, memory and argument types are not modelled.  An empty list of
    indices becomes an array of floats, with which numpy refuses to index. *)
From Coq Require Import List ZArith NArith Arith Bool.
From Verif Require Import Py Slater Alg MathTools Graphs WfnCI Geminal Nonorth Cache WfnCached.
Import ListNotations.
Local Open Scope nat_scope.

(** *** orbital subsets *)
Fixpoint zlist_eqb (a b : list Z) : bool :=
  match a, b with
  | [], [] => true
  | x :: a, y :: b => (Z.eqb x y && zlist_eqb a b)%bool
  | _, _ => false
  end.
Fixpoint subset_index (s : list Z) (l : list (list Z)) : option nat :=
  match l with [] => None | t :: l => if zlist_eqb t s then Some 0 else option_map S (subset_index s l) end.
(** base.py:292-339 get_col_ind and get_orbsubset *)
Definition q_col_ind (subsets : list (list Z)) (s : list Z) : res nat :=
  match subset_index s subsets with Some i => Ok i | None => Err ValueError end.
Definition q_orbsubset (subsets : list (list Z)) (c : Z) : res (list Z) :=
  if (c <? 0)%Z then Err ValueError
  else match nth_error subsets (Z.to_nat c) with Some s => Ok s | None => Err ValueError end.
Fixpoint z_nodup (l : list Z) : bool := match l with [] => true | x :: t => (negb (existsb (Z.eqb x) t) && z_nodup t)%bool end.
(** base.py:208-229 the loop of assign_orbsubsets; the keys of the dictionary in the order of their indices *)
Fixpoint q_subsets_loop (l : list (list Z)) (dict : list (list Z)) : res (list (list Z)) :=
  match l with
  | [] => Ok dict
  | s :: t =>
      if negb (z_nodup s) then Err ValueError
      else let s := sorted_Z s in
           match subset_index s dict with Some _ => Err ValueError | None => q_subsets_loop t (dict ++ [s]) end
  end.
(** base.py:180-229 assign_orbsubsets *)
Definition q_assign_subsets (o : option (list (list Z))) : res (list (list Z)) :=
  match o with None => Err NotImplementedError | Some l => q_subsets_loop l [] end.
(** base.py:153-178 assign_nquasiparticle *)
Definition q_assign_num (n : option Z) : res Z :=
  match n with None => Err NotImplementedError | Some n => if (n <=? 0)%Z then Err ValueError else Ok n end.

(** *** tetrets *)
(** tetret.py:89-108 assign_nelec *)
Definition t_assign_nelec (nelec : Z) : res Z :=
  do n <- assign_nelec CIGeneral nelec;
  if negb (n mod 4 =? 0)%Z then Err ValueError else Ok n.
(** tetret.py:110-134 assign_nquasiparticle *)
Definition t_assign_num (nelec : Z) (n : option Z) : res Z :=
  do n <- q_assign_num (Some match n with None => (nelec / 4)%Z | Some n => n end);
  if negb (n * 4 =? nelec)%Z then Err ValueError else Ok n.
(** tetret.py:157-164 the default subsets *)
Definition from_to (a b : nat) : list nat := seq a (b - a).
Definition quadruples (n : nat) : list (list Z) :=
  flat_map (fun i => flat_map (fun j => flat_map (fun k => map (fun l => map Z.of_nat [i; j; k; l])
    (from_to (k + 1) n)) (from_to (j + 1) n)) (from_to (i + 1) n)) (seq 0 n).
(** tetret.py:138-168 assign_orbsubsets *)
Definition t_assign_subsets (nspin : Z) (o : option (list (list Z))) : res (list (list Z)) :=
  match o with None => q_assign_subsets (Some (quadruples (Z.to_nat nspin))) | Some _ => Err NotImplementedError end.
(** tetret.py:171-199 generate_possible_orbsubsets *)
Definition t_partitions (occ : list Z) : res (list (list (list Z))) :=
  if negb (Nat.eqb (length occ mod 4) 0) then Err ValueError
  else generate_unordered_partition occ [(4, length occ / 4)].

Section Quasi.
Context {K : CField}.
Local Open Scope cr_scope.
Record quasi := mkqp { qp_nelec : Z; qp_nspin : Z; qp_num : nat; qp_subsets : list (list Z); qp_params : list K }.
Inductive qparams := QDefault | QArray (l : list K) | QOther (o : quasi).
Definition qp_cols (w : quasi) : nat := length (qp_subsets w).
(** generate_possible_orbsubsets of the class *)
Variable gen : list Z -> res (list (list (list Z))).

(** base.py:250-264 the default parameters *)
Fixpoint q_default_loop (w : quasi) (l : list (nat * list Z)) (params : list K) : res (list K) :=
  match l with
  | [] => Ok params
  | (i, s) :: t =>
      do c <- q_col_ind (qp_subsets w) s;
      if negb (Nat.ltb i (qp_num w)) then Err IndexError
      else let pos := (i * qp_cols w + c)%nat in q_default_loop w t (upd params pos (nth pos params 0 + 1))
  end.
Definition q_default (w : quasi) : res (list K) :=
  do g <- ground (qp_nelec w) (qp_nspin w);
  do ps <- gen (zocc g);
  match ps with
  | [] => Err (Exc 2)   (* StopIteration *)
  | p :: _ => q_default_loop w (enumerate p) (zeros (qp_num w * qp_cols w))
  end.
(** base.py:265-285 parameters of another instance *)
Definition q_copy_loop (w other : quasi) : list K :=
  fold_left (fun params is => match q_col_ind (qp_subsets w) (snd is) with
                              | Ok c => fold_left (fun l r => upd l (r * qp_cols w + c)%nat (nth (r * qp_cols other + fst is)%nat (qp_params other) 0))
                                          (seq 0 (qp_num other)) params
                              | Err _ => params
                              end)
            (enumerate (qp_subsets other)) (zeros (qp_num w * qp_cols w)).
(** base.py:231-290 assign_params *)
Definition q_assign_params (w : quasi) (ps : qparams) : res quasi :=
  do l <- match ps with
          | QDefault => q_default w
          | QArray l => Ok l
          | QOther o =>
              if negb (qp_nelec w =? qp_nelec o)%Z then Err ValueError
              else if negb (qp_nspin w =? qp_nspin o)%Z then Err ValueError
              else if Nat.ltb (qp_num w) (qp_num o) then Err ValueError
              else Ok (q_copy_loop w o)
          end;
  if negb (Nat.eqb (length l) (qp_num w * qp_cols w)) then Err ValueError
  else Ok (mkqp (qp_nelec w) (qp_nspin w) (qp_num w) (qp_subsets w) l).

(** base.py:341-404 compute_permsum without derivative *)
Definition permsum (w : quasi) (nboson : nat) (cols rows : list nat) : res K :=
  match cols, rows with
  | [], _ | _, [] => Err IndexError
  | _, _ =>
      if negb (forallb (fun r => Nat.ltb r (qp_num w)) rows && forallb (fun c => Nat.ltb c (qp_cols w)) cols)%bool then Err IndexError
      else
        let nrow := length rows in let ncol := length cols in
        let m := mkmat nrow ncol (fun r c => nth (nth r rows 0%nat * qp_cols w + nth c cols 0%nat)%nat (qp_params w) 0) in
        let rows_ferm := seq nboson (nrow - nboson) in
        sumM (fun bos =>
            do p <- (if Nat.eqb nboson 0 then permanent_ryser 1 1 (fun _ _ => 1)
                     else if Nat.ltb nrow nboson then Err IndexError
                     else permanent_ryser nboson nboson (fun i j => m_at m i (nth j bos 0%nat)));
            let ferm := filter (fun c => negb (existsb (Nat.eqb c) bos)) (seq 0 ncol) in
            do d <- match rows_ferm, ferm with
                    | [], _ | _, [] => Ok 1
                    | _, _ => minor m rows_ferm ferm
                    end;
            Ok (p * d)) (combinations (seq 0 ncol) nboson)
  end.
(** base.py:341-422 compute_permsum with the derivative *)
Definition permsum_deriv (w : quasi) (nboson : nat) (cols rows : list nat) (d : Z) : res K :=
  match cols, rows with
  | [], _ | _, [] => Err IndexError
  | _, _ =>
      if negb (forallb (fun r => Nat.ltb r (qp_num w)) rows && forallb (fun c => Nat.ltb c (qp_cols w)) cols)%bool then Err IndexError
      else
      let row_removed := (d / Z.of_nat (qp_cols w))%Z in
      let col_removed := (d mod Z.of_nat (qp_cols w))%Z in
      let rows' := filter (fun r => negb (Z.of_nat r =? row_removed)%Z) rows in
      let cols' := filter (fun c => negb (Z.of_nat c =? col_removed)%Z) cols in
      let nboson' := if (row_removed <? Z.of_nat nboson)%Z then (nboson - 1)%nat else nboson in
      if (Nat.eqb (length rows') (length rows) || Nat.eqb (length cols') (length cols))%bool then Ok 0
      else if (Nat.eqb (length rows') 0 && Nat.eqb (length cols') 0)%bool then Ok 1
      else permsum w nboson' cols' rows'
  end.
(** base.py:424-460 _process_subsets *)
Definition even_size (s : list Z) : bool := Nat.even (length s).
Definition process_subsets (w : quasi) (ps : list (list Z)) : res (list nat * list (list Z) * list (list Z)) :=
  do cols <- mapM (q_col_ind (qp_subsets w)) ps;
  let tagged := combine ps cols in
  let bos := filter (fun x => even_size (fst x)) tagged in
  let ferm := filter (fun x => negb (even_size (fst x))) tagged in
  Ok (map snd bos ++ map snd ferm, map fst bos, map fst ferm).
(** base.py:462-488 _olp *)
Definition q_olp (w : quasi) (sd : N) : res K :=
  let occ := zocc sd in
  do parts <- gen occ;
  sumM (fun ps =>
      do x <- process_subsets w ps;
      let '(cols, bos, ferm) := x in
      do sign <- sign_perm (concat (bos ++ ferm)) (Some occ) true;
      do v <- permsum w (length bos) cols (seq 0 (qp_num w));
      Ok (sgnr sign * v)) parts.
(** base.py:490-519 _olp_deriv *)
Fixpoint q_deriv_inner (w : quasi) (nboson : nat) (cols : list nat) (sign : Z) (rcs : list (nat * nat)) (output : list K) : res (list K) :=
  match rcs with
  | [] => Ok output
  | (r, c) :: t =>
      let i := (r * qp_cols w + c)%nat in
      do v <- permsum_deriv w nboson cols (seq 0 (qp_num w)) (Z.of_nat i);
      q_deriv_inner w nboson cols sign t (upd output i (nth i output 0 + sgnr sign * v))
  end.
Fixpoint q_deriv_loop (w : quasi) (occ : list Z) (parts : list (list (list Z))) (output : list K) : res (list K) :=
  match parts with
  | [] => Ok output
  | ps :: t =>
      do x <- process_subsets w ps;
      let '(cols, bos, ferm) := x in
      do sign <- sign_perm (concat (bos ++ ferm)) (Some occ) true;
      do o <- q_deriv_inner w (length bos) cols sign (list_prod (seq 0 (qp_num w)) cols) output;
      q_deriv_loop w occ t o
  end.
Definition q_dolp (w : quasi) (sd : N) : res (list K) :=
  do parts <- gen (zocc sd);
  q_deriv_loop w (zocc sd) parts (zeros (length (qp_params w))).
(** base.py:521-563 get_overlap *)
Definition q_select (w : quasi) (output : list K) (deriv : list Z) : res (list K) :=
  mapM (fun d => do i <- np_index (length output) d; Ok (nth i output 0)) deriv.
Definition q_overlap (w : quasi) (sd : N) : res K := q_olp w sd.
Definition q_overlap_deriv (w : quasi) (sd : N) (deriv : list Z) : res (list K) := do output <- q_dolp w sd; q_select w output deriv.

(** ** the instance: _olp and _olp_deriv are memoised, assign_params clears the caches *)
Definition q_get (w : quasi) (a : arg) : prog N K N (list K) (ovalue K) :=
  match snd a with
  | None => CallO (fst a) (fun v => Ret (Ok (Scalar v)))
  | Some deriv => CallD (fst a) (fun output => Ret (do l <- q_select w output deriv; Ok (Array l)))
  end.
Definition q_nparams (w : quasi) : Z := Z.of_nat (length (qp_params w)).
Definition q_run := run N.eqb N.eqb q_olp q_dolp q_get q_assign_params (set_any (Cfg := quasi)) q_nparams.
End Quasi.
Arguments quasi : clear implicits.
Arguments qparams : clear implicits.

(** base.py:96-138 __init__ of AntisymmeterizedProductTetrets *)
Definition new_tetret {K : CField} (nelec nspin : Z) (num : option Z) (subsets : option (list (list Z))) (ps : qparams K) : res (quasi K) :=
  do ne <- t_assign_nelec nelec;
  do ns <- assign_nspin nspin;
  do n <- t_assign_num ne num;
  do l <- t_assign_subsets ns subsets;
  q_assign_params t_partitions (mkqp (K := K) ne ns (Z.to_nat n) l []) ps.
