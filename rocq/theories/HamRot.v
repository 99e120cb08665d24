(** Model of the orbital rotations of the Hamiltonians: fanpy/ham/generalized_base.py, generalized_chemical.py
    (inherited by restricted_chemical.py), unrestricted_base.py, unrestricted_chemical.py, and
    math_tools.unitary_matrix.

    Arrays are functions of their indices together with the dimension; only indices below the dimension are
    meaningful.  Types of arguments (numpy arrays, tuples, ints) are not modelled, sizes are. *)
From Coq Require Import List ZArith NArith Bool Arith.
From Verif Require Import Py Slater Alg HamGen HamRes.
Import ListNotations.

(** ** The layout of the parameters *)

(** generalized_chemical.py:419-422, restricted_chemical.py:253-256  the loop that finds the row; x is the last value
    of the loop variable.  (x + 1) * (x + 2) / 2 is a float with an integral value, exact below 2^53 *)
Fixpoint find_row (n ind : Z) (ks : list nat) (x : Z) : Z :=
  match ks with
  | [] => x
  | k :: t =>
      let x := Z.of_nat k in
      if (ind - n * (x + 1) + (x + 1) * (x + 2) / 2 <? 0)%Z then x else find_row n ind t x
  end.
(** generalized_chemical.py:376-428 (n = nspin), restricted_chemical.py:210-262 (n = nspatial) *)
Definition param_ind_to_rowcol_ind (n : nat) (ind : Z) : res (Z * Z) :=
  let x := find_row (Z.of_nat n) ind (seq 0 (n + 1)) 0 in
  if Nat.eqb n 0 then Err ZeroDivisionError
  else Ok (x, ((ind + (x + 1) * (x + 2) / 2) mod Z.of_nat n)%Z).
(** unrestricted_chemical.py:476-534 *)
Definition u_param_ind_to_rowcol_ind (n : nat) (ind : Z) : res (nat * Z * Z) :=
  let half := (Z.of_nat n * (Z.of_nat n - 1) / 2)%Z in
  let '(spin, ind) := if (ind <? half)%Z then (0%nat, ind) else (1%nat, (ind - half)%Z) in
  do xy <- param_ind_to_rowcol_ind n ind; Ok (spin, fst xy, snd xy).

(** np.triu_indices(n, k=1) *)
Definition triu_indices (n : nat) : list (nat * nat) :=
  flat_map (fun x => map (fun y => (x, y)) (seq (x + 1) (n - (x + 1)))) (seq 0 n).

(** math_tools.py:361-363  dim from the number of elements *)
Definition dim_of_size (s : nat) : res nat :=
  let r := Nat.sqrt (1 + 8 * s) in
  if Nat.eqb (r * r) (1 + 8 * s) then Ok ((1 + r) / 2)%nat else Err ValueError.

Section Rot.
Context {K : CField}.
Local Open Scope cr_scope.
Notation mat := (nat -> nat -> K).

Definition upd2 (m : mat) (x y : nat) (v : K) : mat :=
  fun i j => if (Nat.eqb i x && Nat.eqb j y)%bool then v else m i j.
(** math_tools.py:366-367  antiherm[np.triu_indices(dim, k=1)] = antiherm_elements *)
Definition fill_triu (n : nat) (el : list K) : mat :=
  fold_left (fun m p => upd2 m (fst (fst p)) (snd (fst p)) (snd p)) (combine (triu_indices n) el) (fun _ _ => 0).
(** math_tools.py:368  antiherm -= np.triu(antiherm).T *)
Definition antiherm (n : nat) (el : list K) : mat :=
  let a := fill_triu n el in
  fun i j => a i j - (if Nat.leb j i then a j i else 0).

Definition ident : mat := fun i j => if Nat.eqb i j then 1 else 0.
Definition madd (a b : mat) : mat := fun i j => a i j + b i j.
(** A.dot(B) for n inner indices *)
Definition mdot (n : nat) (a b : mat) : mat := fun i j => psum (fun k => a i k * b k j) (seq 0 n).

(** [big n m]: the Frobenius norm of the n by n matrix m exceeds 1e-8; [huge n m]: it exceeds 1e10; [expm n m] is
    scipy.linalg.expm *)
Variables (big huge : nat -> mat -> bool) (expm : nat -> mat -> mat).

(** math_tools.py:374-380  the loop; [fuel] is num_threshold - n *)
Fixpoint unitary_loop (dim : nat) (a : mat) (fuel n : nat) (unitary cache : mat) : mat :=
  match fuel with
  | O => unitary
  | S fuel =>
      if big dim cache then
        let unitary := madd unitary cache in
        let n := S n in
        let cache := fun i j => mdot dim cache a i j * finv (nat_r n) in
        if huge dim cache then expm dim a else unitary_loop dim a fuel n unitary cache
      else unitary
  end.
(** math_tools.py:317-382  unitary_matrix with the default thresholds; returns the dimension and the matrix *)
Definition unitary_matrix (el : list K) : res (nat * mat) :=
  do dim <- dim_of_size (length el);
  let a := antiherm dim el in
  Ok (dim, unitary_loop dim a 99 1 ident a).

(** ** Rotation of the integrals *)
Notation tens := (nat -> nat -> nat -> nat -> K).
Record ints := mkints { i_n : nat; i_one : mat; i_two : tens }.

(** generalized_base.py:224-225 *)
Definition rot1 (n : nat) (h ma mb : mat) : mat :=
  let h1 := fun a j => psum (fun i => h i j * ma i a) (seq 0 n) in
  fun a b => psum (fun j => h1 a j * mb j b) (seq 0 n).
(** generalized_base.py:227-230, unrestricted_base.py:319-335  one matrix for each index *)
Definition rot2 (n : nat) (g : tens) (ma mb mc md : mat) : tens :=
  let g1 := fun a j k l => psum (fun i => g i j k l * ma i a) (seq 0 n) in
  let g2 := fun a b k l => psum (fun j => g1 a j k l * mb j b) (seq 0 n) in
  let g3 := fun a b c l => psum (fun k => g2 a b k l * mc k c) (seq 0 n) in
  fun a b c d => psum (fun l => g3 a b c l * md l d) (seq 0 n).

(** generalized_base.py:197-230  orb_rotate_matrix with a matrix of r rows and c columns *)
Definition orb_rotate_matrix (t : ints) (r c : nat) (m : mat) : res ints :=
  if negb (Nat.eqb r (i_n t)) then Err ValueError
  else Ok (mkints c (rot1 (i_n t) (i_one t) m m) (rot2 (i_n t) (i_two t) m m m m)).

(** one assignment (a[..., p, ...], a[..., q, ...]) = (cos * p - sin * q, sin * p + cos * q) on one index of an array:
    the right hand sides are evaluated before the assignment *)
Definition jac (p q : nat) (co si : K) (f : nat -> K) : nat -> K :=
  fun i => if Nat.eqb i q then si * f p + co * f q
           else if Nat.eqb i p then co * f p - si * f q else f i.
Definition jac_1 (p q : nat) (co si : K) (h : mat) : mat := fun i j => jac p q co si (fun x => h x j) i.
Definition jac_2 (p q : nat) (co si : K) (h : mat) : mat := fun i j => jac p q co si (fun x => h i x) j.
Definition jac4_1 (p q : nat) (co si : K) (g : tens) : tens := fun i j k l => jac p q co si (fun x => g x j k l) i.
Definition jac4_2 (p q : nat) (co si : K) (g : tens) : tens := fun i j k l => jac p q co si (fun x => g i x k l) j.
Definition jac4_3 (p q : nat) (co si : K) (g : tens) : tens := fun i j k l => jac p q co si (fun x => g i j x l) k.
Definition jac4_4 (p q : nat) (co si : K) (g : tens) : tens := fun i j k l => jac p q co si (fun x => g i j k x) l.

(** generalized_base.py:110-195  orb_rotate_jacobi; [co] and [si] are the cosine and sine of the angle *)
Definition orb_rotate_jacobi (t : ints) (p q : Z) (co si : K) : res ints :=
  let n := Z.of_nat (i_n t) in
  if (p =? q)%Z then Err ValueError
  else if negb ((0 <=? p) && (p <? n) && ((0 <=? q) && (q <? n)))%Z then Err ValueError
  else
    let '(p, q) := if (q <? p)%Z then (q, p) else (p, q) in
    let p := Z.to_nat p in
    let q := Z.to_nat q in
    Ok (mkints (i_n t)
          (jac_1 p q co si (jac_2 p q co si (i_one t)))
          (jac4_1 p q co si (jac4_2 p q co si (jac4_3 p q co si (jac4_4 p q co si (i_two t)))))).

(** ** The chemical Hamiltonian as an object *)

(** attributes one_int/two_int, the caches, the reference integrals, params, (_prev_params, _prev_unitary) or None, and
    update_prev_params *)
Record hobj := mkhobj {
  o_ints : ints; o_ijij : mat; o_ijji : mat; o_ref : ints;
  o_params : list K; o_prev : option (list K * (nat * mat)); o_upd : bool }.

(** generalized_chemical.py:96-99  set_ref_ints *)
Definition set_ref_ints (o : hobj) : hobj :=
  mkhobj (o_ints o) (o_ijij o) (o_ijji o) (o_ints o) (o_params o) (o_prev o) (o_upd o).
(** generalized_chemical.py:101-106  cache_two_ints *)
Definition obj_cache (o : hobj) : hobj :=
  mkhobj (o_ints o) (fun i j => i_two (o_ints o) i j i j) (fun i j => i_two (o_ints o) i j j i)
    (o_ref o) (o_params o) (o_prev o) (o_upd o).
Definition set_ints (o : hobj) (t : ints) : hobj :=
  mkhobj t (o_ijij o) (o_ijji o) (o_ref o) (o_params o) (o_prev o) (o_upd o).

(** numpy subtraction of two vectors: the lengths must agree or one of them is one *)
Definition vsub (a b : list K) : res (list K) :=
  if Nat.eqb (length a) (length b) then Ok (map (fun p => fst p - snd p) (combine a b))
  else match a, b with
       | [x], _ => Ok (map (fun y => x - y) b)
       | _, [y] => Ok (map (fun x => x - y) a)
       | _, _ => Err ValueError
       end.
(** A.dot(B): the inner dimensions must agree (the matrices are square) *)
Definition dotc (a b : nat * mat) : res (nat * mat) :=
  if Nat.eqb (fst a) (fst b) then Ok (fst a, mdot (fst a) (snd a) (snd b)) else Err ValueError.

(** generalized_chemical.py:108-165  assign_params; the object and the exception, if any, are returned: changes made
    before an exception persist *)
Definition assign_params (o : hobj) (params : option (list K)) : hobj * res unit :=
  let n := i_n (o_ints o) in
  let num_params := (n * (n - 1) / 2)%nat in
  let params := match params with None => repeat (0 : K) num_params | Some p => p end in
  if negb (Nat.eqb (length params) num_params) then (o, Err ValueError)
  else
    let o := mkhobj (o_ints o) (o_ijij o) (o_ijji o) (o_ref o) params (o_prev o) (o_upd o) in
    match (match o_prev o with
           | Some p => Ok p
           | None => let z := repeat (0 : K) (length params) in do u <- unitary_matrix z; Ok (z, u)
           end) with
    | Err e => (o, Err e)
    | Ok (prev, u_prev) =>
        let o := mkhobj (o_ints o) (o_ijij o) (o_ijji o) (o_ref o) params (Some (prev, u_prev)) (o_upd o) in
        match vsub params prev with
        | Err e => (o, Err e)
        | Ok diff =>
            let o := set_ints o (o_ref o) in
            match (do u_diff <- unitary_matrix diff;
                   do u <- dotc u_prev u_diff;
                   do t <- orb_rotate_matrix (o_ints o) (fst u) (fst u) (snd u);
                   Ok (u, t)) with
            | Err e => (o, Err e)
            | Ok (u, t) =>
                let o := set_ints o t in
                let o := if o_upd o
                         then mkhobj (o_ints o) (o_ijij o) (o_ijji o) (o_ref o) params (Some (params, u)) (o_upd o)
                         else o in
                (obj_cache o, Ok tt)
            end
        end
    end.

(** generalized_chemical.py:68-82  __init__ *)
Definition new_ham (t : ints) (params : option (list K)) (upd : bool) : hobj * res unit :=
  assign_params (obj_cache (mkhobj t (fun _ _ => 0) (fun _ _ => 0) t [] None upd)) params.

(** generalized_chemical.py:167-185  save_params: the parameters and the unitary matrix that are written *)
Definition save_params (o : hobj) : res (list K * (nat * mat)) :=
  match o_prev o with
  | None => Err AttributeError
  | Some (prev, u_prev) =>
      do d <- vsub (o_params o) prev;
      do u <- unitary_matrix d;
      do w <- dotc u_prev u;
      Ok (o_params o, w)
  end.

(** rotation methods called on the object: they change the integrals but not the caches *)
Definition obj_jacobi (o : hobj) (p q : Z) (co si : K) : hobj * res unit :=
  match orb_rotate_jacobi (o_ints o) p q co si with Err e => (o, Err e) | Ok t => (set_ints o t, Ok tt) end.
Definition obj_rotate (o : hobj) (r c : nat) (m : mat) : hobj * res unit :=
  match orb_rotate_matrix (o_ints o) r c m with Err e => (o, Err e) | Ok t => (set_ints o t, Ok tt) end.

(** the Hamiltonians of HamGen.v and HamRes.v that an object represents: their integration functions read the
    attributes one_int, two_int and the caches *)
Definition obj_gham (o : hobj) : gham K :=
  mkgham (i_n (o_ints o)) (i_one (o_ints o)) (i_two (o_ints o)) (o_ijij o) (o_ijji o).
Definition obj_rham (o : hobj) : rham K :=
  mkrham (i_n (o_ints o)) (i_one (o_ints o)) (i_two (o_ints o)) (o_ijij o) (o_ijji o).

(** ** Unrestricted integrals *)
Record uints := mkuints { ui_n : nat; ui_one0 : mat; ui_one1 : mat; ui_two0 : tens; ui_two1 : tens; ui_two2 : tens }.

(** unrestricted_base.py:261-337  orb_rotate_matrix with two matrices *)
Definition u_orb_rotate_matrix (t : uints) (r0 c0 : nat) (m0 : mat) (r1 c1 : nat) (m1 : mat) : res uints :=
  let n := ui_n t in
  if negb (Nat.eqb r0 n && Nat.eqb r1 n) then Err ValueError
  else Ok (mkuints c0 (rot1 n (ui_one0 t) m0 m0) (rot1 n (ui_one1 t) m1 m1)
             (rot2 n (ui_two0 t) m0 m0 m0 m0) (rot2 n (ui_two1 t) m0 m1 m0 m1) (rot2 n (ui_two2 t) m1 m1 m1 m1)).

(** unrestricted_base.py:137-259  orb_rotate_jacobi *)
Definition u_orb_rotate_jacobi (t : uints) (p q : Z) (co si : K) : res uints :=
  let n := Z.of_nat (ui_n t) in
  if (p =? q)%Z then Err ValueError
  else if negb ((0 <=? p) && (p <? n + n) && ((0 <=? q) && (q <? n + n)))%Z then Err ValueError
  else if negb (p / n =? q / n)%Z then Err ValueError
  else
    let '(p, q) := if (q <? p)%Z then (q, p) else (p, q) in
    let spin := (p / n)%Z in
    let p := Z.to_nat (p mod n) in
    let q := Z.to_nat (q mod n) in
    let j1 := fun h => jac_1 p q co si (jac_2 p q co si h) in
    let j2 := fun g => jac4_1 p q co si (jac4_2 p q co si (jac4_3 p q co si (jac4_4 p q co si g))) in
    if (spin =? 0)%Z then
      Ok (mkuints (ui_n t) (j1 (ui_one0 t)) (ui_one1 t) (j2 (ui_two0 t))
            (jac4_1 p q co si (jac4_3 p q co si (ui_two1 t))) (ui_two2 t))
    else
      Ok (mkuints (ui_n t) (ui_one0 t) (j1 (ui_one1 t)) (ui_two0 t)
            (jac4_2 p q co si (jac4_4 p q co si (ui_two1 t))) (j2 (ui_two2 t))).

(** ** The unrestricted object *)
Record uobj := mkuobj {
  uo_ints : uints; uo_cache : mat * mat * mat * mat * mat; uo_ref : uints;
  uo_params : list K; uo_prev : option (list K * (nat * mat) * (nat * mat)); uo_upd : bool }.
(** unrestricted_chemical.py:96-103 *)
Definition u_set_ref_ints (o : uobj) : uobj :=
  mkuobj (uo_ints o) (uo_cache o) (uo_ints o) (uo_params o) (uo_prev o) (uo_upd o).
(** unrestricted_chemical.py:105-113 *)
Definition u_obj_cache (o : uobj) : uobj :=
  let t := uo_ints o in
  mkuobj t (fun i j => ui_two0 t i j i j, fun i j => ui_two1 t i j i j, fun i j => ui_two2 t i j i j,
            fun i j => ui_two0 t i j j i, fun i j => ui_two2 t i j j i)
    (uo_ref o) (uo_params o) (uo_prev o) (uo_upd o).
Definition u_set_ints (o : uobj) (t : uints) : uobj :=
  mkuobj t (uo_cache o) (uo_ref o) (uo_params o) (uo_prev o) (uo_upd o).
(** unrestricted_chemical.py:115-182  assign_params *)
Definition u_assign_params (o : uobj) (params : option (list K)) : uobj * res unit :=
  let n := ui_n (uo_ints o) in
  let num_params := (n * (n - 1))%nat in
  let half := (num_params / 2)%nat in
  let params := match params with None => repeat (0 : K) num_params | Some p => p end in
  if negb (Nat.eqb (length params) num_params) then (o, Err ValueError)
  else
    let o := mkuobj (uo_ints o) (uo_cache o) (uo_ref o) params (uo_prev o) (uo_upd o) in
    match (match uo_prev o with
           | Some p => Ok p
           | None => let z := repeat (0 : K) (length params) in
                     do ua <- unitary_matrix (firstn half z); do ub <- unitary_matrix (skipn half z); Ok (z, ua, ub)
           end) with
    | Err e => (o, Err e)
    | Ok (prev, a_prev, b_prev) =>
        let o := mkuobj (uo_ints o) (uo_cache o) (uo_ref o) params (Some (prev, a_prev, b_prev)) (uo_upd o) in
        match vsub params prev with
        | Err e => (o, Err e)
        | Ok diff =>
            let o := u_set_ints o (uo_ref o) in
            match (do da <- unitary_matrix (firstn half diff);
                   do ua <- dotc a_prev da;
                   do db <- unitary_matrix (skipn half diff);
                   do ub <- dotc b_prev db;
                   do t <- u_orb_rotate_matrix (uo_ints o) (fst ua) (fst ua) (snd ua) (fst ub) (fst ub) (snd ub);
                   Ok (ua, ub, t)) with
            | Err e => (o, Err e)
            | Ok (ua, ub, t) =>
                let o := u_set_ints o t in
                let o := if uo_upd o
                         then mkuobj (uo_ints o) (uo_cache o) (uo_ref o) params (Some (params, ua, ub)) (uo_upd o)
                         else o in
                (u_obj_cache o, Ok tt)
            end
        end
    end.
(** unrestricted_chemical.py:64-77  __init__ *)
Definition u_new_ham (t : uints) (params : option (list K)) (upd : bool) : uobj * res unit :=
  let z := fun _ _ => 0 : K in
  u_assign_params (u_obj_cache (mkuobj t (z, z, z, z, z) t [] None upd)) params.
(** unrestricted_chemical.py:184-209  save_params *)
Definition u_save_params (o : uobj) : res (list K * (nat * mat) * (nat * mat)) :=
  match uo_prev o with
  | None => Err AttributeError
  | Some (prev, a_prev, b_prev) =>
      let n := ui_n (uo_ints o) in
      let half := (n * (n - 1) / 2)%nat in
      do d <- vsub (uo_params o) prev;
      do da <- unitary_matrix (firstn half d);
      do db <- unitary_matrix (skipn half d);
      do wa <- dotc a_prev da;
      do wb <- dotc b_prev db;
      Ok (uo_params o, wa, wb)
  end.
Definition obj_uham (o : uobj) : uham K :=
  let t := uo_ints o in
  let '(c0, c1, c2, e0, e2) := uo_cache o in
  mkuham (ui_n t) (ui_one0 t) (ui_one1 t) (ui_two0 t) (ui_two1 t) (ui_two2 t) c0 c1 c2 e0 e2.
End Rot.
Arguments ints K : clear implicits.
Arguments hobj K : clear implicits.
Arguments uints K : clear implicits.
Arguments uobj K : clear implicits.
