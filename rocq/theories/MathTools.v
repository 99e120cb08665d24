(** Model of the permanents of fanpy/tools/math_tools.py.

    A matrix is given by its shape and its entries as a function of row and column.  Numbers are the
    elements of a commutative ring (field, where the code divides); rounding is not modelled. *)
From Coq Require Import List ZArith Bool Arith.
From Verif Require Import Py Slater Alg Graphs.
Import ListNotations.

(** every element of a list together with the remaining elements, in order *)
Fixpoint picks {A} (l : list A) : list (A * list A) :=
  match l with
  | [] => []
  | x :: t => (x, t) :: map (fun p => (fst p, x :: snd p)) (picks t)
  end.
(** [itertools.permutations(l, k)], in the order of itertools *)
Fixpoint permutations {A} (l : list A) (k : nat) : list (list A) :=
  match k with
  | O => [[]]
  | S k' => flat_map (fun p => map (cons (fst p)) (permutations (snd p) k')) (picks l)
  end.

(** number of pairs in the wrong order *)
Fixpoint inversions (l : list nat) : nat :=
  match l with
  | [] => 0
  | x :: t => length (filter (fun y => Nat.ltb y x) t) + inversions t
  end.

Section Permanent.
Context {K : CRing}.
Local Open Scope cr_scope.

(** numpy.linalg.det of an [n] by [n] matrix: modelled by the Leibniz formula (exact) *)
Definition det (n : nat) (m : nat -> nat -> K) : K :=
  sumf (fun p => m1pow (inversions p) * prodf (fun i => m i (nth i p 0%nat)) (seq 0 n))
       (permutations (seq 0 n) n).

(** math_tools.py:99-145  permanent_combinatoric *)
Definition permanent_combinatoric (nrow ncol : nat) (m : nat -> nat -> K) : res K :=
  if (Nat.eqb nrow 0 || Nat.eqb ncol 0)%bool then Err ValueError
  else
    let swap := Nat.ltb ncol nrow in
    let r := if swap then ncol else nrow in
    let c := if swap then nrow else ncol in
    let m := if swap then fun i j => m j i else m in
    Ok (psum (fun perm => pprod (fun i => m i (nth i perm 0%nat)) (seq 0 r))
             (permutations (seq 0 c) r)).
End Permanent.

Section Ryser.
Context {K : CField}.
Local Open Scope cr_scope.

(** math_tools.py:216-230  the loop that updates the Gray code: [g] is graycode, [pos]
    cur_position, [val] cur_value (the last two are unbound before the first iteration of the
    while loop, where graycode[0] is False and both are set before they are read) *)
Fixpoint gray_for (n : nat) (is : list nat) (g : list bool) (pos : nat) (val : bool)
  : list bool * nat * bool :=
  match is with
  | [] => (g, pos, val)
  | i :: t =>
      let '(g, pos, flag) :=
        if negb (nth i g false) then (upd g i true, i, true) else (upd g i false, pos, false) in
      let val := if Nat.eqb pos (n - 1) then nth (n - 1) g false
                 else negb (nth pos g false && nth (pos + 1) g false) in
      if flag then (g, pos, val) else gray_for n t g pos val
  end.

(** math_tools.py:212-244  the while loop; [None]: out of fuel *)
Fixpoint ryser_while (n fuel : nat) (m : nat -> nat -> K) (g : list bool) (pos : nat) (val : bool)
  (rowsums : nat -> K) (sign : bool) (permanent : K) : option K :=
  match fuel with
  | O => None
  | S f =>
      if forallb (fun b => b) g then Some permanent
      else
        let '(g, pos, val) := gray_for n (seq 0 n) g pos val in
        let rowsums := if val then fun i => rowsums i + m i pos else fun i => rowsums i - m i pos in
        if sign then ryser_while n f m g pos val rowsums false
                       (permanent + pprod rowsums (seq 0 n))
        else ryser_while n f m g pos val rowsums true (permanent - pprod rowsums (seq 0 n))
  end.

(** math_tools.py:200  np.pad with rows of ones below *)
Definition pad_ones (nrow : nat) (m : nat -> nat -> K) : nat -> nat -> K :=
  fun i j => if Nat.ltb i nrow then m i j else 1.

(** math_tools.py:149-246  permanent_ryser; [Exc 0] stands for running out of fuel, which never
    happens *)
Definition permanent_ryser (nrow ncol : nat) (m : nat -> nat -> K) : res K :=
  if (Nat.eqb nrow 0 || Nat.eqb ncol 0)%bool then Err ValueError
  else
    let rect := negb (Nat.eqb nrow ncol) in
    let swap := (rect && Nat.ltb ncol nrow)%bool in
    let m := if swap then fun i j => m j i else m in
    let r := if swap then ncol else nrow in
    let c := if swap then nrow else ncol in
    let m := if rect then pad_ones r m else m in
    let factor := if rect then finv (nat_r (factorial (c - r))) else 1 in
    match ryser_while c (2 ^ c) m (repeat false c) 0 false (fun _ => 0) (Nat.odd c) 0 with
    | None => Err (Exc 0)
    | Some p => Ok (p * factor)
    end.

(** math_tools.py:249-314  permanent_borchardt.  Division by zero (a singular submatrix, or equal
    lambda and epsilon) gives inf or nan in numpy; here it gives whatever [finv 0] is. *)
Definition permanent_borchardt (nrow ncol nzetas : nat) (lambdas epsilons zetas : nat -> K)
  (etas : option (nat * (nat -> K))) : res K :=
  if negb (Nat.eqb nzetas ncol) then Err ValueError
  else if match etas with Some e => negb (Nat.eqb (fst e) nrow) | None => false end
  then Err ValueError
  else
    let etas := match etas with Some e => snd e | None => fun _ => 1 end in
    let cauchy := fun i j => finv (lambdas i - epsilons j) in
    let swap := Nat.ltb ncol nrow in
    let r := if swap then ncol else nrow in
    let c := if swap then nrow else ncol in
    let ze := if swap then etas else zetas in
    let et := if swap then zetas else etas in
    let cauchy := if swap then fun i j => cauchy j i else cauchy in
    let perm_cauchy :=
      psum (fun indices =>
              let sub := fun i k => cauchy i (nth k indices 0%nat) in
              (det r (fun i k => sub i k * sub i k) * finv (det r sub))
              * pprod ze indices)
           (combinations (seq 0 c) r) in
    Ok (perm_cauchy * pprod et (seq 0 r)).
End Ryser.
