(** Model of the geminals with a rank-two coefficient matrix: fanpy/wfn/geminal/rank2_approx.py and
    apr2g.py, the class APr2G(RankTwoApprox, APIG).

    Numbers are elements of a field, without rounding, and division by zero gives what [finv 0] gives
    (numpy: inf or nan).  The electrons, orbitals, geminals and orbital pairs are those of APIG
    (Geminal.v); the parameter array is one-dimensional, of any length: the class never checks it.
    Not numbers of the model and therefore arguments: [small x] is abs(x) < 1e-9, [lstsq] is
    np.linalg.lstsq(...)[0], [noise] the random template noise, [far s n] is
    isnan(d) or d > rmsd for d = (s / n) ** 0.5.  Types of arguments, the method "svd" of
    full_to_rank2, add_noise and compilation with -O are not modelled. *)
From Coq Require Import List ZArith NArith Arith Bool.
From Verif Require Import Py Slater Alg Graphs MathTools WfnCI Geminal Cache WfnCached.
Import ListNotations.
Local Open Scope nat_scope.

Section R2.
Context {K : CField}.
Local Open Scope cr_scope.

(** rank2_approx.py:52-62, 64-74, 76-86 *)
Definition r2_lambdas (w : gem K) : list K := firstn (gm_ngem w) (gm_params w).
Definition r2_epsilons (w : gem K) : list K := firstn (norbpair w) (skipn (gm_ngem w) (gm_params w)).
Definition r2_zetas (w : gem K) : list K := skipn (gm_ngem w + norbpair w)%nat (gm_params w).
(** rank2_approx.py:88-98 fullrank_params: zetas are broadcast with the rows of lambdas - epsilons *)
Definition broadcast (n m : nat) : res nat :=
  if Nat.eqb n m then Ok n else if Nat.eqb n 1 then Ok m else if Nat.eqb m 1 then Ok n else Err ValueError.
Definition bget (l : list K) (j : nat) : K := if Nat.eqb (length l) 1 then nth 0 l 0 else nth j l 0.
Definition r2_fullrank (w : gem K) : res (list (list K)) :=
  do n <- broadcast (length (r2_zetas w)) (length (r2_epsilons w));
  Ok (map (fun l => map (fun j => bget (r2_zetas w) j * finv (l - bget (r2_epsilons w) j)) (seq 0 n)) (r2_lambdas w)).

(** ** Conversion of a coefficient matrix (rank2_approx.py:275-447, method "least squares") *)
Definition unit_row (n i : nat) (x : K) : list K := map (fun k => if Nat.eqb k i then x else 0) (seq 0 n).
(** rank2_approx.py:378-389 the matrix of the homogeneous linear equations, by rows *)
Definition r2_row (ngem norb : nat) (C : list K) (i j : nat) : list K :=
  unit_row ngem i (- entry C norb i j) ++ unit_row norb j (entry C norb i j) ++ unit_row norb j 1.
Definition r2_matrix (ngem norb : nat) (C : list K) : list (list K) :=
  flat_map (fun i => map (r2_row ngem norb C i) (seq 0 norb)) (seq 0 ngem).
(** rank2_approx.py:393-418 zeta_0 is set to 1 and its column moved to the right hand side *)
Definition without_at (p : nat) (l : list K) : list K := firstn p l ++ skipn (S p) l.
Definition insert_at (p : nat) (x : K) (l : list K) : list K := firstn p l ++ x :: skipn p l.
Definition r2_solve (lstsq : list (list K) -> list K -> list K) (ngem norb : nat) (C : list K) : list K :=
  let m := r2_matrix ngem norb C in
  let p := (ngem + norb)%nat in
  insert_at p 1 (lstsq (map (without_at p) m) (map (fun row => - (nth p row 0 * 1)) m)).
(** rank2_approx.py:436-447 *)
Definition r2_deviation (ngem norb : nat) (C p : list K) : K :=
  psum (fun ij => let d := entry C norb (fst ij) (snd ij)
                    - nth (ngem + norb + snd ij)%nat p 0 * finv (nth (fst ij) p 0 - nth (ngem + snd ij)%nat p 0) in d * d)
       (list_prod (seq 0 ngem) (seq 0 norb)).
Definition full_to_rank2 (lstsq : list (list K) -> list K -> list K) (far : K -> nat -> bool) (ngem norb : nat) (C : list K) : res (list K) :=
  let p := r2_solve lstsq ngem norb C in
  if far (r2_deviation ngem norb C p) (ngem * norb)%nat then Err ValueError else Ok p.

(** ** Assignment of parameters *)
Definition with_params2 (w : gem K) (l : list K) : gem K :=
  mkgem (gm_class w) (gm_nelec w) (gm_nspin w) (gm_ngem w) (gm_pairs w) l.
Inductive r2params := RNone (noise : list K) | RArray (l : list K) | RGem.
(** rank2_approx.py:120-135 the array that is assigned *)
Definition r2_given (lstsq : list (list K) -> list K -> list K) (far : K -> nat -> bool) (w : gem K) (ps : r2params) : res (list K) :=
  match ps with
  | RNone noise =>
      do t <- default_loop w (seq 0 (gm_ngem w)) (zeros (gm_ngem w * norbpair w));
      full_to_rank2 lstsq far (gm_ngem w) (norbpair w) (map (fun p => fst p + snd p) (combine t noise))
  | RArray l => Ok l
  | RGem => Err NotImplementedError
  end.
(** rank2_approx.py:138-141 *)
Definition r2_singular (small : K -> bool) (w : gem K) : bool :=
  existsb (fun l => existsb (fun e => small (l - e)) (r2_epsilons w)) (r2_lambdas w).
(** rank2_approx.py:100-143 assign_params: the wavefunction afterwards, and the exception if there was
    one.  The new parameters are stored before they are checked. *)
Definition r2_assign (small : K -> bool) lstsq far (w : gem K) (ps : r2params) : gem K * res unit :=
  match r2_given lstsq far w ps with
  | Err e => (w, Err e)
  | Ok l => let w' := with_params2 w l in (w', if r2_singular small w' then Err ValueError else Ok tt)
  end.
(** base.py:118-150, 60-87 __init__, with APIG.assign_orbpairs (apig.py:134-170) *)
Definition new_r2 (small : K -> bool) lstsq far (nelec nspin : Z) (ngem : option Z) (orbpairs : option (list (Z * Z))) (ps : r2params) : res (gem K) :=
  do ne <- gem_assign_nelec nelec;
  do ns <- assign_nspin nspin;
  do ng <- gem_assign_ngem ne ngem;
  do pairs <- assign_orbpairs GAPIG ns orbpairs;
  let (w, r) := r2_assign small lstsq far (mkgem GAPIG ne ns ng pairs []) ps in
  do _ <- r; Ok w.

(** ** Overlaps *)
(** indexing of an array with an array of indices, which are not negative here *)
Definition at_ (l : list K) (i : nat) : res K := match nth_error l i with Some x => Ok x | None => Err IndexError end.
Definition pick (l : list K) (is : list nat) : res (list K) := mapM (at_ l) is.
Definition fn (l : list K) : nat -> K := fun i => nth i l 0.
(** rank2_approx.py:176, 202-206, 231-235.  When there is no row or no column, permanent_borchardt
    (math_tools.py:306-308) indexes with an empty array of floats. *)
Definition r2_perm (w : gem K) (rows cols : list nat) : res K :=
  do ls <- pick (r2_lambdas w) rows;
  do es <- pick (r2_epsilons w) cols;
  do zs <- pick (r2_zetas w) cols;
  if (Nat.eqb (length rows) 0 || Nat.eqb (length cols) 0)%bool then Err IndexError
  else permanent_borchardt (length rows) (length cols) (length cols) (fn ls) (fn es) (fn zs) None.
Definition other (x : nat) (l : list nat) : list nat := filter (fun y => negb (Nat.eqb y x)) l.
(** rank2_approx.py:199-206, 228-235 *)
Definition r2_minor (w : gem K) (rows cols : list nat) (d : K) : res K :=
  if (Nat.eqb (length rows) 0 && Nat.eqb (length cols) 0)%bool then Ok d
  else do p <- r2_perm w rows cols; Ok (d * p).
(** rank2_approx.py:187-207 *)
Fixpoint r2_row_loop (w : gem K) (r : nat) (rows cols : list nat) (cs : list nat) (val : K) : res K :=
  match cs with
  | [] => Ok val
  | c :: t =>
      let rows' := other r rows in
      let cols' := other c cols in
      if (Nat.eqb (length rows') (length rows) || Nat.eqb (length cols') (length cols))%bool then r2_row_loop w r rows cols t val
      else
        do z <- at_ (r2_zetas w) c;
        do l <- at_ (r2_lambdas w) r;
        do e <- at_ (r2_epsilons w) c;
        do x <- r2_minor w rows' cols' (- z * finv ((l - e) * (l - e)));
        r2_row_loop w r rows cols t (val + x)
  end.
(** rank2_approx.py:215-236; [eps] tells whether the derivative is with respect to an epsilon *)
Fixpoint r2_col_loop (w : gem K) (eps : bool) (c : nat) (rows cols' : list nat) (rs : list nat) (val : K) : res K :=
  match rs with
  | [] => Ok val
  | r :: t =>
      do d <- (if eps then
                 do z <- at_ (r2_zetas w) c; do l <- at_ (r2_lambdas w) r; do e <- at_ (r2_epsilons w) c;
                 Ok (z * finv ((l - e) * (l - e)))
               else
                 do l <- at_ (r2_lambdas w) r; do e <- at_ (r2_epsilons w) c;
                 Ok (finv (l - e)));
      do x <- r2_minor w (other r rows) cols' d;
      r2_col_loop w eps c rows cols' t (val + x)
  end.
(** rank2_approx.py:146-236 compute_permanent *)
Definition r2_compute (w : gem K) (cols : list nat) (deriv : option Z) : res K :=
  let rows := seq 0 (gm_ngem w) in
  match deriv with
  | None => r2_perm w rows cols
  | Some d =>
      if negb ((0 <=? d) && (d <? Z.of_nat (length (gm_params w))))%Z then Err ValueError
      else if ((0 <=? d) && (d <? gm_nelec w / 2))%Z then r2_row_loop w (Z.to_nat d) rows cols cols 0
      else
        let c := Z.to_nat ((d - Z.of_nat (gm_ngem w)) mod Z.of_nat (norbpair w)) in
        let cols' := other c cols in
        if Nat.eqb (length cols') (length cols) then Ok 0
        else
          let eps := ((Z.of_nat (gm_ngem w) <=? d) && (d <? Z.of_nat (gm_ngem w + norbpair w)))%Z in
          r2_col_loop w eps c rows cols' rows 0
  end.
(** base.py:433-464 _olp *)
Fixpoint r2_olp_loop (w : gem K) (l : list (scheme * Z)) (val : K) : res K :=
  match l with
  | [] => Ok val
  | (ps, sign) :: t =>
      match ps with
      | [] => r2_olp_loop w t val
      | _ =>
          do cols <- cols_of w ps;
          do p <- r2_compute w cols None;
          r2_olp_loop w t (val + sgnr sign * p)
      end
  end.
Definition r2_overlap (w : gem K) (sd : N) : res K :=
  do l <- gem_schemes w sd; r2_olp_loop w l 0.
(** rank2_approx.py:265-271 output[i] += sign * compute_permanent(col_inds, deriv=i), for a list of i *)
Fixpoint r2_fill (w : gem K) (cols : list nat) (sign : Z) (is : list nat) (output : list K) : res (list K) :=
  match is with
  | [] => Ok output
  | i :: t =>
      do old <- at_ output i;
      do p <- r2_compute w cols (Some (Z.of_nat i));
      r2_fill w cols sign t (upd output i (old + sgnr sign * p))
  end.
(** the indices in the order of the loops *)
Definition r2_indices (w : gem K) (cols : list nat) : list nat :=
  seq 0 (gm_ngem w) ++ flat_map (fun c => [(c + gm_ngem w)%nat; (c + gm_ngem w + norbpair w)%nat]) cols.
(** rank2_approx.py:238-272 _olp_deriv *)
Fixpoint r2_dolp_loop (w : gem K) (l : list (scheme * Z)) (output : list K) : res (list K) :=
  match l with
  | [] => Ok output
  | (ps, sign) :: t =>
      match ps with
      | [] => r2_dolp_loop w t output
      | _ =>
          do cols <- cols_of w ps;
          do o <- r2_fill w cols sign (r2_indices w cols) output;
          r2_dolp_loop w t o
      end
  end.
Definition r2_dolp (w : gem K) (sd : N) : res (list K) :=
  do l <- gem_schemes w sd; r2_dolp_loop w l (zeros (length (gm_params w))).
(** base.py:497-540 get_overlap with deriv *)
Definition r2_overlap_deriv (w : gem K) (sd : N) (deriv : list Z) : res (list K) :=
  do output <- r2_dolp w sd;
  mapM (fun d => do i <- np_index (length (gm_params w)) d; Ok (nth i output 0)) deriv.
(** base.py:563-574 normalize; [power x] is x ** (-0.5 / ngem).  The overlaps are those of get_overlap. *)
Definition r2_normalize (small : K -> bool) lstsq far (power : K -> K) (w : gem K) (pspace : list N) : res (gem K) :=
  do os <- mapM (r2_overlap w) pspace;
  let (w', r) := r2_assign small lstsq far w (RArray (map (fun x => x * power (psum (fun o => o * o) os)) (gm_params w))) in
  do _ <- r; Ok w'.

(** ** The cached instance (base.py:302-336, 386-401, 497-540): _olp and _olp_deriv are memoised by determinant, and
    a successful assign_params clears both caches *)
Definition r2_get (w : gem K) (a : arg) : prog N K N (list K) (ovalue K) :=
  match snd a with
  | None => CallO (fst a) (fun v => Ret (Ok (Scalar v)))
  | Some deriv => CallD (fst a) (fun output =>
      Ret (do l <- mapM (fun d => do i <- np_index (length (gm_params w)) d; Ok (nth i output 0)) deriv; Ok (Array l)))
  end.
(** a call of assign_params that does not raise *)
Definition r2_set_params (small : K -> bool) lstsq far (w : gem K) (ps : r2params) : res (gem K) :=
  let (w', r) := r2_assign small lstsq far w ps in do _ <- r; Ok w'.
(** one call on the instance; when assign_params raises, the parameters may have been replaced and the caches keep
    their contents *)
Definition r2_object := obj (gem K) N K N (list K).
Definition r2_event := event arg r2params (gem K -> res (gem K)).
Definition r2_step small lstsq far (o : r2_object) (e : r2_event) : answer (ovalue K) * r2_object :=
  let plain := step N.eqb N.eqb r2_overlap r2_dolp r2_get (r2_set_params small lstsq far) set_any gem_nparams o e in
  match e with
  | EAssign ps =>
      let (w', r) := r2_assign small lstsq far (o_cfg o) ps in
      match r with Ok _ => plain | Err x => (ARaise x, mkobj w' (o_memory o) (o_olp o) (o_dolp o) (o_fns o)) end
  | _ => plain
  end.
Fixpoint r2_run small lstsq far (o : r2_object) (h : list r2_event) : list (answer (ovalue K)) :=
  match h with
  | [] => []
  | e :: t => let (a, o') := r2_step small lstsq far o e in a :: r2_run small lstsq far o' t
  end.
End R2.
Arguments r2params : clear implicits.
