(** Model of fanpy/wfn/composite/nonorth.py (with base_one.py:65-119): a wavefunction in orbitals that are linear
    combinations of the orbitals of another wavefunction.

    The wrapped wavefunction is a component of [Composite].  Parameters are matrices with exact entries; noise and
    the dtype of the matrices are left out, and so are the 64 bit limits of orbitals given as numpy integers.
    numpy.linalg.det is the Leibniz formula, [Exc 1] stands for LinAlgError. *)
From Coq Require Import List ZArith NArith Arith Bool.
From Verif Require Import Py Slater Alg MathTools WfnCI Composite Cache WfnCached Jacobi.
Import ListNotations.

Section Nonorth.
Context {K : CRing}.
Local Open Scope cr_scope.
Record matrix := mkmat { m_rows : nat; m_cols : nat; m_at : nat -> nat -> K }.
Record nonorth := mkno { n_nelec : Z; n_nspin : Z; n_wfn : comp K; n_params : list matrix }.
(** wfn/base.py nspatial, of this wavefunction and of the wrapped one *)
Definition n_ns (w : nonorth) : nat := Z.to_nat (n_nspin w / 2).
Definition n_wns (w : nonorth) : nat := Z.to_nat (c_nspin (n_wfn w) / 2).
(** nonorth.py:139-148 nparams *)
Definition n_nparams (w : nonorth) : Z := fold_right (fun m s => (Z.of_nat (m_rows m * m_cols m) + s)%Z) 0%Z (n_params w).
(** nonorth.py:163-188 orbtype *)
Definition n_orbtype (w : nonorth) : option orbtype :=
  match n_params w with
  | [m] => if Nat.eqb (m_rows m) (n_ns w) then Some Restricted
           else if Nat.eqb (m_rows m) (Z.to_nat (n_nspin w)) then Some Generalized else None
  | [a; b] => if (Nat.eqb (m_rows a) (n_ns w) && Nat.eqb (m_rows b) (n_ns w))%bool then Some Unrestricted else None
  | _ => None
  end.
(** nonorth.py:99-136 spin and seniority, from those of the wrapped wavefunction *)
Definition n_seniority (w : nonorth) (inner : option Z) : option Z :=
  match n_orbtype w with Some Restricted | Some Unrestricted => inner | _ => None end.

(** the argument params: None, one array or a sequence of arrays, or something else *)
Inductive noarg := NDefault | NMats (l : list matrix) | NOther.
(** numpy.eye *)
Definition eye (n m : nat) : matrix := mkmat n m (fun i j => if Nat.eqb i j then 1 else 0).
(** nonorth.py:190-268 assign_params *)
Definition n_assign_params (w : nonorth) (a : noarg) : res nonorth :=
  let shape (m : matrix) (r c : Z) := (Nat.eqb (m_rows m) (Z.to_nat r) && Nat.eqb (m_cols m) (Z.to_nat c))%bool in
  let spatial (m : matrix) := shape m (n_nspin w / 2)%Z (c_nspin (n_wfn w) / 2)%Z in
  let spin (m : matrix) := shape m (n_nspin w) (c_nspin (n_wfn w)) in
  let set l := Ok (mkno (n_nelec w) (n_nspin w) (n_wfn w) l) in
  match a with
  | NDefault => set [eye (n_ns w) (n_wns w)]
  | NMats [m] => if (spatial m || spin m)%bool then set [m] else Err ValueError
  | NMats [m; m'] => if spatial m then (if spatial m' then set [m; m'] else Err ValueError) else Err ValueError
  | _ => Err TypeError
  end.
(** base_one.py:65-92 __init__ *)
Definition new_nonorth (nelec nspin : Z) (c : comp K) (a : noarg) : res nonorth :=
  do ne <- assign_nelec CIGeneral nelec;
  do nsp <- assign_nspin nspin;
  do c <- one_assign_wfn ne c;
  n_assign_params (mkno ne nsp c []) a.

(** self.params[i] *)
Definition n_mat (w : nonorth) (i : nat) : res matrix := match nth_error (n_params w) i with Some m => Ok m | None => Err IndexError end.
(** numpy.linalg.det(m[rows, :][:, cols]) *)
Definition minor (m : matrix) (rows cols : list nat) : res K :=
  if negb (forallb (fun i => Nat.ltb i (m_rows m)) rows) then Err IndexError
  else if negb (forallb (fun j => Nat.ltb j (m_cols m)) cols) then Err IndexError
  else if negb (Nat.eqb (length rows) (length cols)) then Err (Exc 1)
  else Ok (det (length rows) (fun i j => m_at m (nth i rows 0%nat) (nth j cols 0%nat))).
(** the same, 1.0 if there are no columns *)
Definition minor1 (m : matrix) (rows cols : list nat) : res K := match cols with [] => Ok 1 | _ => minor m rows cols end.
(** self.wfn.get_overlap(slater.create(0, *orbitals)) *)
Definition n_at (w : nonorth) (orbs : list nat) : res K :=
  match create (Some 0%N) orbs with Some n => get_olp (n_wfn w) n | None => Err TypeError end.
Definition sumM {A} (f : A -> res K) (l : list A) : res K := do vs <- mapM f l; Ok (sumf (fun x => x) vs).
Definition shifted (k : nat) (l : list nat) : list nat := map (fun i => (i + k)%nat) l.

(** nonorth.py:270-320 _olp *)
Definition n_olp (w : nonorth) (sd : N) : res K :=
  match n_orbtype w with
  | Some Generalized =>
      sumM (fun cols => do v <- n_at w cols; do m <- n_mat w 0; do c <- minor m (occ_indices (Some sd)) cols; Ok (v * c))
           (combinations (seq 0 (Z.to_nat (c_nspin (n_wfn w)))) (Z.to_nat (n_nelec w)))
  | t =>
      do ab <- split_spin sd (n_nspin w / 2)%Z;
      let arows := occ_indices (Some (fst ab)) in let brows := occ_indices (Some (snd ab)) in
      let orbs := seq 0 (n_wns w) in
      sumM (fun acols =>
        do ma <- n_mat w 0; do a <- minor1 ma arows acols;
        sumM (fun bcols =>
          do v <- n_at w (acols ++ shifted (n_ns w) bcols);
          do mb <- n_mat w (match t with Some Restricted => 0 | _ => 1 end)%nat;
          do b <- minor1 mb brows bcols;
          Ok (v * a * b)) (combinations orbs (length brows))) (combinations orbs (length arows))
  end.

(** the matrix, row and column of a parameter (nonorth.py:342-346, 584-588) *)
Definition n_place (w : nonorth) (i : nat) : res (nat * nat * nat) :=
  do m <- n_mat w 0;
  let size := (m_rows m * m_cols m)%nat in
  if Nat.eqb size 0 then Err ZeroDivisionError else
  let t := (i / size)%nat in
  do m' <- n_mat w t;
  if Nat.eqb (m_cols m') 0 then Err ZeroDivisionError else
  Ok (t, ((i mod size) / m_cols m')%nat, ((i mod size) mod m_cols m')%nat).
(** (-1) ** np.sum(np.array(l) < c) *)
Definition below_sign (l : list nat) (c : nat) : K := m1pow (length (filter (fun i => Nat.ltb i c) l)).
Definition others (n c : nat) : list nat := filter (fun i => negb (Nat.eqb i c)) (seq 0 n).
(** nonorth.py:349-360: generalized orbitals *)
Definition deriv_generalized (w : nonorth) (sd : N) (row col : nat) : res K :=
  let rows := occ_indices (annihilate (Some sd) [row]) in
  sumM (fun cols => do v <- n_at w (col :: cols); do m <- n_mat w 0; do c <- minor m rows cols;
                    Ok (v * below_sign rows row * below_sign cols col * c))
       (combinations (others (Z.to_nat (c_nspin (n_wfn w))) col) (length rows)).
(** nonorth.py:366-442: restricted orbitals, the orbital is occupied with both spins *)
Definition deriv_both (w : nonorth) (alpha beta : N) (row col : nat) : res K :=
  let ns := n_ns w in
  let a := occ_indices (annihilate (Some alpha) [row]) in
  let b := occ_indices (annihilate (Some beta) [row]) in
  let orbs := others (n_wns w) col in
  do m <- n_mat w 0;
  do x <- sumM (fun ac =>
      do da <- minor1 m a ac;
      do av <- minor m (a ++ [row]) (ac ++ [col]);
      do y <- sumM (fun bc =>
          do v <- n_at w (col :: (col + ns)%nat :: ac ++ shifted ns bc);
          do db <- minor1 m b bc;
          do bv <- minor m (b ++ [row]) (bc ++ [col]);
          Ok (v * (da * bv + av * db))) (combinations orbs (length b));
      do z <- sumM (fun bc =>
          do v <- n_at w (col :: ac ++ shifted ns bc);
          do bv <- minor m (b ++ [row]) bc;
          Ok (v * da * bv)) (combinations orbs (length b + 1));
      Ok (y + z)) (combinations orbs (length a));
  do y <- sumM (fun ac =>
      do av <- minor m (a ++ [row]) ac;
      sumM (fun bc =>
          do v <- n_at w ((col + ns)%nat :: ac ++ shifted ns bc);
          do db <- minor1 m b bc;
          Ok (v * av * db)) (combinations orbs (length b))) (combinations orbs (length a + 1));
  Ok (x + y).
(** nonorth.py:469-487: the loop over the columns of the beta orbitals; the sign is multiplied in every turn *)
Fixpoint beta_loop (w : nonorth) (t : nat) (first : bool) (col : nat) (mb : res matrix) (brows acols : list nat) (f sign : K) (l : list (list nat)) : res K :=
  match l with
  | [] => Ok 0
  | bc :: l =>
      do v <- n_at w (acols ++ shifted (n_ns w) bc ++ [if first then col else (col + n_ns w)%nat]);
      let sign := if Nat.eqb t 1 then sign * below_sign bc col else sign in
      do b <- match bc with [] => Ok 1 | _ => do mb <- mb; minor mb brows bc end;
      do rest <- beta_loop w t first col mb brows acols f sign l;
      Ok (v * sign * f * b + rest)
  end.
(** nonorth.py:444-488: the orbital is occupied with one spin, or the orbitals are unrestricted *)
Definition deriv_one (w : nonorth) (orb : option orbtype) (t : nat) (alpha beta : N) (row col : nat) : res K :=
  let first := match orb with
               | Some Restricted => occ (Some alpha) row
               | Some Unrestricted => Nat.eqb t 0
               | _ => false
               end in
  let arows := if first then occ_indices (annihilate (Some alpha) [row]) else occ_indices (Some alpha) in
  let brows := if first then occ_indices (Some beta) else occ_indices (annihilate (Some beta) [row]) in
  let row_sign := below_sign (if first then arows else brows) row in
  let all := seq 0 (n_wns w) in let some := others (n_wns w) col in
  let mb := n_mat w (match orb with Some Restricted => 0 | _ => 1 end)%nat in
  sumM (fun ac =>
      let sign := if Nat.eqb t 0 then below_sign ac col else 1 in
      do ma <- n_mat w 0; do a <- minor1 ma arows ac;
      beta_loop w t first col mb brows ac (row_sign * a) sign (combinations (if first then all else some) (length brows)))
    (combinations (if first then some else all) (length arows)).
(** nonorth.py:323-488 _olp_deriv *)
Definition n_dolp (w : nonorth) (k : N * nat) : res K :=
  let sd := fst k in
  do p <- n_place w (snd k);
  let '(t, row, col) := p in
  match n_orbtype w with
  | Some Generalized => deriv_generalized w sd row col
  | orb =>
      do ab <- split_spin sd (n_nspin w / 2)%Z;
      let alpha := fst ab in let beta := snd ab in
      if negb (occ (Some alpha) row || occ (Some beta) row)%bool then Ok 0
      else match orb with
           | Some Restricted => if (occ (Some alpha) row && occ (Some beta) row)%bool then deriv_both w alpha beta row col
                                else deriv_one w orb t alpha beta row col
           | _ => deriv_one w orb t alpha beta row col
           end
  end.

(** nonorth.py:592-599: parameters of orbitals that are not in the determinant are skipped *)
Definition skipped (w : nonorth) (sd : N) (t row : nat) : bool :=
  match n_orbtype w with
  | Some Restricted => negb (occ (Some sd) row || occ (Some sd) (row + n_ns w)%nat)
  | Some Unrestricted => negb (occ (Some sd) (row + t * n_ns w)%nat)
  | Some Generalized => negb (occ (Some sd) row)
  | None => false
  end.
(** nonorth.py:581-601: output[i] is set, i being the number of the parameter *)
Fixpoint fill (w : nonorth) (sd : N) (d : list nat) (out : list K) : res (list K) :=
  match d with
  | [] => Ok out
  | i :: d =>
      do p <- n_place w i;
      let '(t, row, _) := p in
      if skipped w sd t row then fill w sd d out
      else do v <- n_dolp w (sd, i);
           if Nat.ltb i (length out) then fill w sd d (upd out i v) else Err IndexError
  end.
(** nonorth.py:568-576, 602 *)
Definition n_deriv_check (w : nonorth) (t : target) (d : list Z) : res unit :=
  match t with
  | TSelf => if existsb (fun i => (i <? 0) || (n_nparams w <=? i))%Z d then Err ValueError else Ok tt
  | TWfn i => if Nat.eqb i (c_id (n_wfn w)) then Err NotImplementedError else Err ValueError
  end.
(** nonorth.py:494-605 get_overlap *)
Definition n_overlap (w : nonorth) (sd : N) : res K := n_olp w sd.
Definition n_overlap_deriv (w : nonorth) (sd : N) (t : target) (d : list Z) : res (list K) :=
  do _ <- n_deriv_check w t d; fill w sd (map Z.to_nat d) (repeat 0 (length d)).

(** * the instance: caching is enabled by base_one.py:91-92; only assign_params clears the caches *)
Definition narg := (N * option (target * list Z))%type.
Definition nkey_eqb (a b : N * nat) : bool := (N.eqb (fst a) (fst b) && Nat.eqb (snd a) (snd b))%bool.
Fixpoint fill_prog (w : nonorth) (sd : N) (d : list nat) (out : list K) : prog N K (N * nat) K (ovalue K) :=
  match d with
  | [] => Ret (Ok (Array out))
  | i :: d =>
      match n_place w i with
      | Err e => Ret (Err e)
      | Ok (t, row, _) =>
          if skipped w sd t row then fill_prog w sd d out
          else CallD (sd, i) (fun v => if Nat.ltb i (length out) then fill_prog w sd d (upd out i v) else Ret (Err IndexError))
      end
  end.
Definition n_get (w : nonorth) (a : narg) : prog N K (N * nat) K (ovalue K) :=
  match snd a with
  | None => CallO (fst a) (fun v => Ret (Ok (Scalar v)))
  | Some (t, d) =>
      match n_deriv_check w t d with
      | Err e => Ret (Err e)
      | Ok _ => fill_prog w (fst a) (map Z.to_nat d) (repeat 0 (length d))
      end
  end.
(** base_one.py:94-119 assign_wfn, and assign_params of the wrapped wavefunction *)
Definition n_set_wfn (c : comp K) (w : nonorth) : res nonorth :=
  do c <- one_assign_wfn (n_nelec w) c; Ok (mkno (n_nelec w) (n_nspin w) c (n_params w)).
Definition n_wfn_params (ps : list K) (w : nonorth) : res nonorth :=
  let c := n_wfn w in
  Ok (mkno (n_nelec w) (n_nspin w) (mkcomp (c_id c) (c_nelec c) (c_nspin c) (c_memory c) ps (c_olp c) (c_dolp c) (c_olps c)) (n_params w)).
Definition n_run := run N.eqb nkey_eqb n_olp n_dolp n_get n_assign_params (set_any (Cfg := nonorth)) n_nparams.
Definition n_object (w : nonorth) (memory : option Z) := constructed (K1 := N) (V1 := K) (K2 := N * nat) (V2 := K) n_nparams w memory true.
End Nonorth.
Arguments matrix : clear implicits.
Arguments nonorth : clear implicits.
