(** Model of fanpy/wfn/quasiparticle/det_ratio.py.

    Numbers are elements of a field, without rounding; numpy.linalg.det is the Leibniz formula and a quotient with
    denominator zero is the field's (numpy gives inf or nan and a warning).  The mask is one dimensional.  Noise,
    dtypes and argument types are not modelled. *)
From Coq Require Import List ZArith NArith Arith Bool.
From Verif Require Import Py Slater Alg MathTools WfnCI Geminal Composite Nonorth Cache WfnCached.
Import ListNotations.
Local Open Scope nat_scope.

Section DetRatio.
Context {K : CField}.
Local Open Scope cr_scope.
Record dratio := mkdr { dr_nelec : Z; dr_nspin : Z; dr_mask : list bool; dr_params : list K }.
(** the argument params: None, an array or another instance *)
Inductive drparams := DRDefault | DRArray (l : list K) | DROther (w : dratio).

(** det_ratio.py:98-124 assign_numerator_mask *)
Definition dr_assign_mask (m : option (list bool)) : res (list bool) :=
  match m with None => Ok [true; false] | Some [] => Err TypeError | Some m => Ok m end.
(** det_ratio.py:126-163 matrix_shape, matrix_size and num_matrices *)
Definition dr_rows (w : dratio) : nat := Z.to_nat (dr_nelec w).
Definition dr_cols (w : dratio) : nat := Z.to_nat (dr_nspin w).
Definition dr_size (w : dratio) : nat := (dr_rows w * dr_cols w)%nat.
Definition dr_num (w : dratio) : nat := length (dr_mask w).
(** det_ratio.py:167-184 get_columns *)
Definition dr_columns (sd : N) : list nat := occ_indices (Some sd).
(** det_ratio.py:186-214 get_matrix: reshape fails if the slice does not have the size of the matrix *)
Definition dr_matrix (w : dratio) (i : Z) : res (matrix K) :=
  if ((i <? 0) || (Z.of_nat (dr_num w) <=? i))%Z then Err ValueError
  else
    let k := Z.to_nat i in
    let flat := slice (dr_params w) (k * dr_size w)%nat ((k + 1) * dr_size w)%nat in
    if Nat.eqb (length flat) (dr_size w)
    then Ok (mkmat (dr_rows w) (dr_cols w) (fun r c => nth (r * dr_cols w + c)%nat flat 0))
    else Err ValueError.
(** det_ratio.py:216-239 decompose_index *)
Definition dr_decompose (w : dratio) (p : Z) : Z * Z * Z :=
  let size := (dr_nelec w * dr_nspin w)%Z in
  ((p / size)%Z, ((p mod size) / dr_nspin w)%Z, ((p mod size) mod dr_nspin w)%Z).

(** det_ratio.py:259-280 the default parameters; [rnd] are the normalised random columns of the denominators *)
Definition dr_default (rnd : nat -> nat -> K) (nelec nspin : Z) (mask : list bool) : res (list K) :=
  do ground_sd <- ground nelec nspin;
  let columns := dr_columns ground_sd in
  let rows := seq 0 (Z.to_nat nelec) in let cols := seq 0 (Z.to_nat nspin) in
  let at_one (r c : nat) : K := if match nth_error columns r with Some j => Nat.eqb j c | None => false end then 1 else 0 in
  let denom (r c : nat) : K := if existsb (Nat.eqb c) columns then at_one r c else rnd r c in
  let flatten (m : nat -> nat -> K) := flat_map (fun r => map (m r) cols) rows in
  Ok (flat_map (fun b : bool => flatten (if b then at_one else denom)) mask).
(** det_ratio.py:245-284 assign_params *)
Definition dr_assign_params (rnd : nat -> nat -> K) (w : dratio) (ps : drparams) : res dratio :=
  do l <- match ps with
          | DRDefault => dr_default rnd (dr_nelec w) (dr_nspin w) (dr_mask w)
          | DRArray l => Ok l
          | DROther o => Ok (dr_params o)
          end;
  Ok (mkdr (dr_nelec w) (dr_nspin w) (dr_mask w) l).
(** det_ratio.py:67-96 __init__ *)
Definition new_dratio (rnd : nat -> nat -> K) (nelec nspin : Z) (mask : option (list bool)) (ps : drparams) : res dratio :=
  do ne <- assign_nelec CIGeneral nelec;
  do ns <- assign_nspin nspin;
  do m <- dr_assign_mask mask;
  dr_assign_params rnd (mkdr ne ns m []) ps.

(** numpy.linalg.det(self.get_matrix(i)[:, self.get_columns(sd, i)]) *)
Definition dr_det (w : dratio) (sd : N) (i : nat) : res K :=
  do m <- dr_matrix w (Z.of_nat i); minor m (seq 0 (dr_rows w)) (dr_columns sd).
(** np.prod(l[mask]) *)
Definition masked (mask : list bool) (l : list K) : K := prodf snd (filter fst (combine mask l)).
(** det_ratio.py:286-307 _olp *)
Definition dr_olp (w : dratio) (sd : N) : res K :=
  do dets <- mapM (dr_det w sd) (seq 0 (dr_num w));
  Ok (masked (dr_mask w) dets * finv (masked (map negb (dr_mask w)) dets)).

(** np.where(np.logical_not(l != x))[0][0] *)
Fixpoint position (x : nat) (l : list nat) : nat :=
  match l with [] => 0%nat | y :: t => if Nat.eqb y x then 0%nat else S (position x t) end.
Definition without (x : nat) (l : list nat) : list nat := filter (fun y => negb (Nat.eqb y x)) l.
(** np.delete(mask, d) *)
Definition delete {A} (d : nat) (l : list A) : list A := firstn d l ++ skipn (S d) l.
(** det_ratio.py:347-370 the loops over the rows and the columns of matrix [d]; [numer] and [denom] are the products
    of the other determinants *)
Definition dr_write (w : dratio) (sd : N) (d : nat) (m : matrix K) (numer denom old : K) (rc : nat * nat) (output : list K) : res (list K) :=
  let '(row, col) := rc in
  let rows := seq 0 (m_rows m) in let cols := dr_columns sd in
  do mi <- minor m (without row rows) (without col cols);
  let deriv_determinant := m1pow (position row rows) * m1pow (position col cols) * mi in
  let index := (d * dr_size w + row * dr_cols w + col)%nat in
  let v := if nth d (dr_mask w) false then deriv_determinant * numer * finv denom
           else numer * finv denom * (- (1)) * finv (old * old) * deriv_determinant in
  if Nat.ltb index (length output) then Ok (upd output index v) else Err IndexError.
Fixpoint loop {A S} (f : A -> S -> res S) (l : list A) (s : S) : res S :=
  match l with [] => Ok s | x :: t => do s <- f x s; loop f t s end.
Definition dr_block (w : dratio) (sd : N) (d : nat) (output : list K) : res (list K) :=
  do dets <- mapM (dr_det w sd) (without d (seq 0 (dr_num w)));
  let mask := delete d (dr_mask w) in
  let numer := masked mask dets in let denom := masked (map negb mask) dets in
  do m <- dr_matrix w (Z.of_nat d);
  do old <- minor m (seq 0 (m_rows m)) (dr_columns sd);
  loop (dr_write w sd d m numer denom old) (flat_map (fun r => map (fun c => (r, c)) (dr_columns sd)) (seq 0 (dr_rows w))) output.
(** det_ratio.py:309-371 _olp_deriv *)
Definition dr_dolp (w : dratio) (sd : N) : res (list K) :=
  loop (dr_block w sd) (seq 0 (dr_num w)) (zeros (length (dr_params w))).

(** det_ratio.py:373-414 get_overlap *)
Definition dr_other (w : dratio) (sd : N) : bool := negb (Z.of_nat (total_occ (Some sd)) =? dr_nelec w)%Z.
Definition dr_select (w : dratio) (output : list K) (deriv : list Z) : res (list K) :=
  mapM (fun d => do i <- np_index (length output) d; Ok (nth i output 0)) deriv.
Definition dr_overlap (w : dratio) (sd : N) : res K := if dr_other w sd then Ok 0 else dr_olp w sd.
Definition dr_overlap_deriv (w : dratio) (sd : N) (deriv : list Z) : res (ovalue K) :=
  if dr_other w sd then Ok (Scalar 0) else do output <- dr_dolp w sd; do l <- dr_select w output deriv; Ok (Array l).

(** ** the instance: _olp and _olp_deriv are memoised, assign_params clears the caches *)
Definition dr_get (w : dratio) (a : arg) : prog N K N (list K) (ovalue K) :=
  if dr_other w (fst a) then Ret (Ok (Scalar 0))
  else match snd a with
       | None => CallO (fst a) (fun v => Ret (Ok (Scalar v)))
       | Some deriv => CallD (fst a) (fun output => Ret (do l <- dr_select w output deriv; Ok (Array l)))
       end.
Definition dr_nparams (w : dratio) : Z := Z.of_nat (length (dr_params w)).
Definition dr_run (rnd : nat -> nat -> K) := run N.eqb N.eqb dr_olp dr_dolp dr_get (dr_assign_params rnd) (set_any (Cfg := dratio)) dr_nparams.
(** assign_numerator_mask, which does not clear the caches *)
Definition dr_set_mask (m : option (list bool)) (w : dratio) : res dratio :=
  do m <- dr_assign_mask m; Ok (mkdr (dr_nelec w) (dr_nspin w) m (dr_params w)).
End DetRatio.
Arguments dratio : clear implicits.
Arguments drparams : clear implicits.
