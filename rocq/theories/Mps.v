(** Model of fanpy/wfn/network/mps.py (MatrixProductState).

    Parameters are elements of a commutative ring; the default parameters need a number [scale] with
    dimension * scale^nspatial = 1, which the code computes as a floating-point power.  Matrices are lists of
    rows.  The dimension and the number of spatial orbitals are naturals (positive after construction). *)
From Coq Require Import List ZArith NArith Arith Bool.
From Verif Require Import Py Slater Alg WfnCI.
Import ListNotations.

(** mps.py:177-215 get_matrix_shape: K spatial orbitals, dimension D *)
Definition matrix_shape (K D : nat) (index : Z) : res (nat * nat * nat) :=
  if negb ((0 <=? index) && (index <? Z.of_nat K))%Z then Err ValueError
  else if (index =? 0)%Z then Ok (4, 1, D)
  else if (index <? Z.of_nat K - 1)%Z then Ok (4, D, D)
  else Ok (4, D, 1).
Definition size3 (s : nat * nat * nat) : nat := let '(a, b, c) := s in a * b * c.
(** mps.py:217-239 get_matrix_indices *)
Definition matrix_indices (K D : nat) (index : Z) : res (nat * nat) :=
  do s <- matrix_shape K D index;
  if (index =? 0)%Z then Ok (0, size3 s)
  else
    do s0 <- matrix_shape K D 0;
    do s1 <- matrix_shape K D 1;
    let start := size3 s0 + size3 s1 * Z.to_nat (index - 1) in
    Ok (start, start + size3 s).
(** np.unravel_index for a three-dimensional shape, row-major *)
Definition unravel (p : Z) (s : nat * nat * nat) : res (nat * nat * nat) :=
  let '(a, b, c) := s in
  if ((0 <=? p) && (p <? Z.of_nat (a * b * c)))%Z
  then let p := Z.to_nat p in Ok (p / (b * c), (p / c) mod b, p mod c)
  else Err ValueError.
(** mps.py:259-291 decompose_index *)
Definition decompose_index (K D : nat) (p : Z) : res (Z * nat * nat * nat) :=
  do se <- matrix_indices K D 0;
  do ip <- (if ((Z.of_nat (fst se) <=? p) && (p <? Z.of_nat (snd se)))%Z then Ok (0%Z, p)
            else do s1 <- matrix_shape K D 1;
                 let i := ((p - Z.of_nat (snd se)) / Z.of_nat (size3 s1) + 1)%Z in
                 do be <- matrix_indices K D i;
                 Ok (i, (p - Z.of_nat (fst be))%Z));
  do s <- matrix_shape K D (fst ip);
  do nrc <- unravel (snd ip) s;
  let '(n, r, c) := nrc in Ok (fst ip, n, r, c).

Section Mps.
Context {R : CRing}.
Local Open Scope cr_scope.
Definition mat := list (list R).
Record mps := mkmps { mp_nelec : Z; mp_nspin : Z; mp_dim : nat; mp_params : list R }.
Definition mp_K (w : mps) : nat := Z.to_nat (mp_nspin w / 2).

(** mps.py:105-136 assign_dimension *)
Definition assign_dimension (nspin : Z) (dimension : option Z) : res nat :=
  let d := match dimension with None => nspin | Some d => d end in
  if (d <=? 0)%Z then Err ValueError else Ok (Z.to_nat d).
(** mps.py:138-175 get_occupation_indices; an orbital outside is an IndexError of numpy *)
Definition occupation_indices (w : mps) (sd : N) : res (list nat) :=
  do ab <- split_spin sd (mp_nspin w / 2);
  if forallb (fun i => Nat.ltb i (mp_K w)) (occ_indices (Some (fst ab)) ++ occ_indices (Some (snd ab)))
  then Ok (map (fun i => ((if occ (Some (fst ab)) i then 1 else 0) + (if occ (Some (snd ab)) i then 2 else 0))%nat) (seq 0%nat (mp_K w)))
  else Err IndexError.
(** mps.py:241-257 get_matrix, flat, with its shape; reshape fails if parameters are missing *)
Definition get_matrix (w : mps) (index : Z) : res (list R * (nat * nat * nat)) :=
  do se <- matrix_indices (mp_K w) (mp_dim w) index;
  do s <- matrix_shape (mp_K w) (mp_dim w) index;
  let block := slice (mp_params w) (fst se) (snd se) in
  if Nat.eqb (length block) (size3 s) then Ok (block, s) else Err ValueError.
(** get_matrix(index)[n, :, :] *)
Definition selected (w : mps) (i n : nat) : res mat :=
  do bs <- get_matrix w (Z.of_nat i);
  let '(block, (_, b, c)) := bs in
  Ok (map (fun r => slice block ((n * b + r) * c)%nat ((n * b + r) * c + c)%nat) (seq 0%nat b)).
(** numpy dot of matrices *)
Definition mdot (A B : mat) : mat :=
  map (fun row => map (fun c => sumf (fun k => nth k row 0 * nth c (nth k B []) 0) (seq 0%nat (length row)))
                      (seq 0%nat (length (hd [] B)))) A.
(** item() of an array with one element *)
Definition item (A : mat) : res R := match A with [[x]] => Ok x | _ => Err ValueError end.
(** mps.py:357-362 _olp *)
Definition mps_olp (w : mps) (sd : N) : res R :=
  do ns <- occupation_indices w sd;
  match ns with
  | [] => Err IndexError
  | n0 :: _ =>
      do m0 <- selected w 0 n0;
      do m <- fold_left (fun acc i => do t <- acc; do m <- selected w i (nth i ns 0%nat); Ok (mdot t m))
                        (seq 1%nat (length ns - 1)) (Ok m0);
      item m
  end.
(** mps.py:430-458 _olp_deriv_block, flattened as by np.ravel; with a single orbital a float has no .T *)
Definition mps_right (w : mps) (ns : list nat) (k : nat) : res mat :=
  do m <- selected w (S k) (nth (S k) ns 0%nat);
  fold_left (fun acc i => do t <- acc; do m <- selected w i (nth i ns 0%nat); Ok (mdot t m))
            (seq (S (S k)) (length ns - S (S k))) (Ok m).
Definition mps_left (w : mps) (ns : list nat) (k : nat) : res mat :=
  do m <- selected w (k - 1)%nat (nth (k - 1)%nat ns 0%nat);
  fold_left (fun acc i => do t <- acc; do m <- selected w i (nth i ns 0%nat); Ok (mdot m t))
            (rev (seq 0%nat (k - 1)%nat)) (Ok m).
Definition mps_block (w : mps) (sd : N) (k : nat) : res (list R) :=
  do ns <- occupation_indices w sd;
  do rt <- (if Nat.ltb k (length ns - 1) then do m <- mps_right w ns k; Ok (Some m) else Ok None);
  do lt <- (if Nat.ltb 0 k then do m <- mps_left w ns k; Ok (Some m) else Ok None);
  match lt, rt with
  | None, None => Err AttributeError
  | None, Some r => Ok (map (fun row => nth 0%nat row 0) r)                (* the transpose of a column *)
  | Some l, None => Ok (hd [] l)                                        (* the transpose of a row *)
  | Some l, Some r => Ok (flat_map (fun x => map (fun row => x * nth 0%nat row 0) r) (hd [] l))
  end.
(** mps.py:499-517: where the block of orbital k is written *)
Definition block_start (K D : nat) (k n : nat) : nat :=
  if Nat.eqb k 0 then (D * n)%nat
  else if Nat.ltb k (K - 1) then (4 * D + 4 * (D * D) * (k - 1) + D * D * n)%nat
  else (4 * D + 4 * (D * D) * (k - 1) + D * n)%nat.
(** output[start:start+length] = block; ValueError if it does not fit *)
Definition write (output : list R) (start size : nat) (block : list R) : res (list R) :=
  if Nat.eqb (length (slice output start (start + size)%nat)) (length block)
  then Ok (firstn start output ++ block ++ skipn (start + size)%nat output) else Err ValueError.
Definition mps_gradient (w : mps) (sd : N) : res (list R) :=
  do ns <- occupation_indices w sd;
  fold_left (fun acc k => do out <- acc; do b <- mps_block w sd k;
      let D := mp_dim w in
      write out (block_start (mp_K w) D k (nth k ns 0%nat))
            (if (Nat.ltb 0 k && Nat.ltb k (mp_K w - 1))%bool then (D * D)%nat else D) b)
    (seq 0%nat (mp_K w)) (Ok (repeat 0 (length (mp_params w)))).
(** mps.py:460-517 get_overlap *)
Definition mps_overlap (w : mps) (sd : N) : res R := mps_olp w sd.
Definition mps_overlap_deriv (w : mps) (sd : N) (deriv : list Z) : res (list R) :=
  do out <- mps_gradient w sd;
  mapM (fun d => do i <- np_index (length (mp_params w)) d; Ok (nth i out 0)) deriv.
(** mps.py:364-409 _olp_deriv, the derivative with respect to one parameter (not used by get_overlap) *)
Definition mps_olp_deriv (w : mps) (sd : N) (deriv : Z) : res R :=
  do d <- decompose_index (mp_K w) (mp_dim w) deriv;
  let '(k, _, r, c) := d in
  let k := Z.to_nat k in
  do ns <- occupation_indices w sd;
  do rt <- (if Nat.ltb k (length ns - 1) then do m <- mps_right w ns k; Ok (nth 0%nat (nth c m []) 0) else Ok 1);
  do lt <- (if Nat.ltb 0 k then do m <- mps_left w ns k; Ok (nth r (hd [] m) 0) else Ok 1);
  if Nat.leb (length ns) 1 then Err AttributeError else Ok (lt * rt).

(** mps.py:298-340 assign_params (no noise); parameters given as an array are not checked *)
Inductive mpsparams := MPNone | MPArray (l : list R) | MPWfn (other : mps).
Definition set_at (l : list R) (ps : list nat) (x : R) : list R := fold_left (fun l p => upd l p x) ps l.
Definition default_block (D n b c : nat) (diagonal : bool) (scale : R) : list R :=
  set_at (repeat 0 (4 * b * c)%nat)
         (map (fun i => if diagonal then ((n * b + i) * c + i)%nat else (n * b * c + i)%nat) (seq 0%nat D)) scale.
Definition default_params (w : mps) (scale : R) : res (list R) :=
  let K := mp_K w in let D := mp_dim w in
  do _s0 <- matrix_shape K D 0;
  do _mid <- (if Nat.leb K 2 then Ok tt else do _s <- matrix_shape K D 1; Ok tt);
  do _sl <- matrix_shape K D (Z.of_nat K - 1);
  do g <- ground (mp_nelec w) (mp_nspin w);
  do ns <- occupation_indices w g;
  let first := default_block D (nth 0%nat ns 0%nat) 1 D false scale in
  let middle := flat_map (fun i => default_block D (nth i ns 0%nat) D D true scale) (seq 1%nat (K - 2)) in
  (* for a single orbital the last matrix has the shape of the first, and [:, 0] sets one entry *)
  let last := if Nat.eqb K 1 then default_block 1 (nth 0%nat ns 0%nat) 1 D false scale
              else default_block D (nth (K - 1)%nat ns 0%nat) D 1 false scale in
  Ok (first ++ middle ++ last).
Definition mps_assign_params (w : mps) (ps : mpsparams) (scale : R) : res mps :=
  do l <- match ps with MPNone => default_params w scale | MPArray l => Ok l | MPWfn other => Ok (mp_params other) end;
  Ok (mkmps (mp_nelec w) (mp_nspin w) (mp_dim w) l).
(** mps.py:75-102 __init__ *)
Definition new_mps (nelec nspin : Z) (dimension : option Z) (ps : mpsparams) (scale : R) : res mps :=
  do ne <- assign_nelec CIGeneral nelec;
  do ns <- assign_nspin nspin;
  do d <- assign_dimension ns dimension;
  mps_assign_params (mkmps ne ns d []) ps scale.
End Mps.
Arguments mps : clear implicits.
Arguments mpsparams : clear implicits.
