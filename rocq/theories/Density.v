(** Model of fanpy/ham/density.py (whole file): reduced density matrices of a CI vector.
    Arrays are functions together with one common dimension; spin orbital indices are naturals (they
    come from slater.shared_orbs and slater.diff_orbs).  The isinstance / shape checks (55-62,
    140-147) and the dtype of the arrays are not modelled.  The order on coefficients ([lt], [ab]) is
    a parameter: it is only used for sorting and for the truncation tests. *)
From Coq Require Import List ZArith NArith Arith Bool.
From Verif Require Import Py Slater Alg HamGen HamRes.
Import ListNotations.

(** the [orbtype] strings: the three accepted words or anything else *)
Inductive orbtype := Restricted | Unrestricted | Generalized | OtherOrb.


Section Model.
Context {K : CRing} (lt : K -> K -> bool) (ab : K -> K).
Local Open Scope cr_scope.

Definition dm1 := nat -> nat -> K.
Definition dm2 := nat -> nat -> nat -> nat -> K.

(** matrices[w][i, j] += val : IndexError when the indices are outside the array *)
Definition bump1 (dim : nat) (i j : nat) (v : K) (m : dm1) : res dm1 :=
  if (Nat.ltb i dim && Nat.ltb j dim)%bool
  then Ok (fun p q => if (Nat.eqb p i && Nat.eqb q j)%bool then m p q + v else m p q)
  else Err IndexError.
Definition bump2 (dim : nat) (i j k l : nat) (v : K) (m : dm2) : res dm2 :=
  if (Nat.ltb i dim && Nat.ltb j dim && Nat.ltb k dim && Nat.ltb l dim)%bool
  then Ok (fun p q r s => if (Nat.eqb p i && Nat.eqb q j && Nat.eqb r k && Nat.eqb s l)%bool
                          then m p q r s + v else m p q r s)
  else Err IndexError.

(** matrices[w] is updated in place; the list has been checked to have that entry *)
Fixpoint upd {A} (w : nat) (f : A -> res A) (ms : list A) : res (list A) :=
  match ms, w with
  | [], _ => Err IndexError
  | m :: ms, O => do m' <- f m; Ok (m' :: ms)
  | m :: ms, S w => do ms' <- upd w f ms; Ok (m :: ms')
  end.

(** density.py:64-72 / 149-159: the orbital type, then the number of matrices *)
Definition orb_check {A} (o : orbtype) (unres : nat) (ms : list A) : res unit :=
  match o with
  | OtherOrb => Err ValueError
  | Restricted | Generalized => if Nat.eqb (length ms) 1 then Ok tt else Err ValueError
  | Unrestricted => if Nat.eqb (length ms) unres then Ok tt else Err ValueError
  end.

(** density.py:21-94  add_one_density *)
Definition add_one_density (o : orbtype) (dim : nat) (i j : nat) (v : K) (ms : list dm1) : res (list dm1) :=
  do _ <- orb_check o 2 ms;
  match o with
  | Restricted =>
      do si <- spatial dim i; do sj <- spatial dim j;
      do ai <- alpha dim i; do aj <- alpha dim j;
      if Bool.eqb ai aj then upd 0 (bump1 dim si sj v) ms else Ok ms
  | Unrestricted =>
      do si <- spatial dim i; do sj <- spatial dim j;
      do ai <- alpha dim i; do aj <- alpha dim j;
      if (ai && aj)%bool then upd 0 (bump1 dim si sj v) ms
      else if (negb ai && negb aj)%bool then upd 1 (bump1 dim si sj v) ms
      else Ok ms
  | _ => upd 0 (bump1 dim i j v) ms
  end.

(** density.py:98-205  add_two_density *)
Definition add_two_density (o : orbtype) (dim : nat) (i j k l : nat) (v : K) (ms : list dm2) : res (list dm2) :=
  do _ <- orb_check o 3 ms;
  match o with
  | Restricted =>
      do si <- spatial dim i; do sj <- spatial dim j; do sk <- spatial dim k; do sl <- spatial dim l;
      do ai <- alpha dim i; do ak <- alpha dim k; do aj <- alpha dim j; do al <- alpha dim l;
      if (Bool.eqb ai ak && Bool.eqb aj al)%bool then upd 0 (bump2 dim si sj sk sl v) ms else Ok ms
  | Unrestricted =>
      do si <- spatial dim i; do sj <- spatial dim j; do sk <- spatial dim k; do sl <- spatial dim l;
      do ai <- alpha dim i; do ak <- alpha dim k; do aj <- alpha dim j; do al <- alpha dim l;
      if (ai && ak && aj && al)%bool then upd 0 (bump2 dim si sj sk sl v) ms
      else if (ai && ak && negb aj && negb al)%bool then upd 1 (bump2 dim si sj sk sl v) ms
      else if (negb ai && negb ak && negb aj && negb al)%bool then upd 2 (bump2 dim si sj sk sl v) ms
      else Ok ms
  | _ => upd 0 (bump2 dim i j k l v) ms
  end.

(** one call of add_one_density / add_two_density *)
Inductive dcall := One (i j : nat) (v : K) | Two (i j k l : nat) (v : K).
Definition dstate := (list dm1 * list dm2)%type.
Definition do_call (o : orbtype) (dim : nat) (e : dcall) (st : dstate) : res dstate :=
  match e with
  | One i j v => do a <- add_one_density o dim i j v (fst st); Ok (a, snd st)
  | Two i j k l v => do b <- add_two_density o dim i j k l v (snd st); Ok (fst st, b)
  end.
Fixpoint do_calls (o : orbtype) (dim : nat) (es : list dcall) (st : dstate) : res dstate :=
  match es with [] => Ok st | e :: es => do st' <- do_call o dim e st; do_calls o dim es st' end.

(** density.py:300-301  np.sum(shared_indices[:, np.newaxis] < np.array(diff)) *)
Definition transpositions (shared diff : list nat) : nat :=
  length (filter (fun p => Nat.ltb (fst p) (snd p)) (list_prod shared diff)).

(** density.py:315-321: determinant with itself *)
Fixpoint same_calls (v : K) (shared : list nat) : list dcall :=
  match shared with
  | [] => []
  | i :: rest =>
      One i i v ::
      flat_map (fun j => [Two i j i j v; Two j i j i v; Two i j j i (- v); Two j i i j (- v)]) rest
      ++ same_calls v rest
  end.

(** density.py:324-336: one orbital differs *)
Definition single_calls (v : K) (shared : list nat) (i k : nat) : list dcall :=
  One i k v :: One k i v ::
  flat_map (fun j => [Two i j k j v; Two j i j k v; Two k j i j v; Two j k j i v;
                      Two i j j k (- v); Two j i k j (- v); Two j k i j (- v); Two k j j i (- v)]) shared.

(** density.py:339-348: two orbitals differ *)
Definition double_calls (v : K) (i j k l : nat) : list dcall :=
  [Two i j k l v; Two j i l k v; Two k l i j v; Two l k j i v;
   Two i j l k (- v); Two j i k l (- v); Two l k i j (- v); Two k l j i (- v)].

(** density.py:295-348: the calls made for one pair of determinants *)
Definition pair_calls (x1 x2 : K) (sd1 sd2 : N) : list dcall :=
  let left := fst (diff_orbs sd1 sd2) in
  let right := snd (diff_orbs sd1 sd2) in
  let shared := shared_orbs sd1 sd2 in
  let num := (transpositions shared left + transpositions shared right)%nat in
  let v := x1 * x2 * (if Nat.odd num then - (1) else 1) in
  if negb (Nat.eqb (length right) (length left)) then []
  else match left, right with
       | [], _ => same_calls v shared
       | [i], [k] => single_calls v shared i k
       | [i; j], [k; l] => double_calls v i j k l
       | _, _ => []
       end.

(** density.py:265: sorted(zip(sd_coeffs, civec), key=lambda x: abs(x[0]), reverse=True): stable,
    largest first *)
Fixpoint ins (x : K * N) (l : list (K * N)) : list (K * N) :=
  match l with
  | [] => [x]
  | y :: l' => if lt (ab (fst x)) (ab (fst y)) then y :: ins x l' else x :: l
  end.
Definition sort_civec (l : list (K * N)) : list (K * N) := fold_right ins [] l.

(** density.py:288-348: the inner loop; [rem] is num_sds - count1 *)
Fixpoint inner_loop (o : orbtype) (dim : nat) (thr : K) (rem : nat) (x1 : K) (sd1 : N)
    (l : list (K * N)) (st : dstate) : res dstate :=
  match l with
  | [] => Ok st
  | (x2, sd2) :: l' =>
      if lt (ab (x1 * x2) * (nat_r rem * nat_r rem)) thr then Ok st
      else do st' <- do_calls o dim (pair_calls x1 x2 sd1 sd2) st;
           inner_loop o dim thr rem x1 sd1 l' st'
  end.
(** density.py:284-348: the outer loop; num_sds - count1 is the length of the remaining list *)
Fixpoint outer_loop (o : orbtype) (dim : nat) (thr : K) (l : list (K * N)) (st : dstate) : res dstate :=
  match l with
  | [] => Ok st
  | (x1, sd1) :: l' =>
      let rem := length l in
      if lt ((x1 * nat_r rem) * (x1 * nat_r rem)) thr then Ok st
      else do st' <- inner_loop o dim thr rem x1 sd1 l st;
           outer_loop o dim thr l' st'
  end.

(** density.py:272-282: number of arrays and their dimension *)
Definition n_one (o : orbtype) : nat := match o with Unrestricted => 2 | _ => 1 end.
Definition n_two (o : orbtype) : nat := match o with Unrestricted => 3 | _ => 1 end.
Definition dm_dim (o : orbtype) (nspatial : nat) : nat :=
  match o with Restricted | Unrestricted => nspatial | _ => 2 * nspatial end.

(** density.py:351: np.einsum("ijkl->iklj", m) *)
Definition to_chemist (m : dm2) : dm2 := fun i k l j => m i j k l.

(** density.py:211-352  density_matrix *)
Definition density_matrix (coeffs : list K) (civec : list N) (nspatial : nat) (chemist : bool) (thr : K)
    (o : orbtype) : res dstate :=
  match sort_civec (combine coeffs civec) with
  | [] => Err ValueError
  | l =>
      match o with
      | OtherOrb => Err ValueError
      | _ =>
          do st <- outer_loop o (dm_dim o nspatial) thr l
                     (repeat (fun _ _ => 0) (n_one o), repeat (fun _ _ _ _ => 0) (n_two o));
          Ok (fst st, if chemist then map to_chemist (snd st) else snd st)
      end
  end.
End Model.
Arguments dm1 : clear implicits.
Arguments dm2 : clear implicits.
Arguments dcall : clear implicits.
Arguments dstate : clear implicits.
