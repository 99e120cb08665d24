(** Small Python vocabulary used by all model files: exceptions as values,
    slices, itertools, sorted, digit strings.  Nothing here is specific to Fanpy. *)
From Coq Require Import List ZArith NArith Bool Lia.
Import ListNotations.

(** Python exceptions that the modelled functions can raise. *)
Inductive exn := ValueError | TypeError | IndexError | KeyError | AttributeError
               | NotImplementedError | OverflowError | ZeroDivisionError | Exc (n : nat).

Inductive res (A : Type) := Ok (a : A) | Err (e : exn).
Arguments Ok {A} a.
Arguments Err {A} e.

Lemma Ok_inj : forall {A} (a b : A), Ok a = Ok b -> a = b.
Proof. congruence. Qed.

Definition bind {A B} (x : res A) (f : A -> res B) : res B :=
  match x with Ok a => f a | Err e => Err e end.
Notation "'do' x <- e ; f" := (bind e (fun x => f))
  (at level 200, x pattern, e at level 100, f at level 200).

(** sequential evaluation of a list of computations (list comprehension that may raise) *)
Fixpoint mapM {A B} (f : A -> res B) (l : list A) : res (list B) :=
  match l with
  | [] => Ok []
  | x :: t => do y <- f x; do ys <- mapM f t; Ok (y :: ys)
  end.

(** [range(n)] for a possibly negative [n] *)
Definition range (n : Z) : list nat := seq 0 (Z.to_nat n).

(** [c * k] for a one-character string/list and a possibly negative [k] *)
Definition py_repeat {A} (x : A) (k : Z) : list A := repeat x (Z.to_nat k).

(** [l[a:b]] for nonnegative a, b *)
Definition slice {A} (l : list A) (a b : nat) : list A := firstn (b - a) (skipn a l).

(** [enumerate(l)] *)
Definition enumerate {A} (l : list A) : list (nat * A) := combine (seq 0 (length l)) l.

(** [l.count(x)] for booleans/digits *)
Definition count_true (l : list bool) : nat := length (filter (fun b => b) l).

(** [sorted(l)] on integers (insertion sort; the order of equal integers is not observable) *)
Fixpoint insert_Z (x : Z) (l : list Z) : list Z :=
  match l with
  | [] => [x]
  | y :: t => if (x <=? y)%Z then x :: y :: t else y :: insert_Z x t
  end.
Definition sorted_Z (l : list Z) : list Z := fold_right insert_Z [] l.

(** [sorted(l, key=f)]: stable insertion sort by an integer key *)
Fixpoint insert_key {A} (f : A -> Z) (x : A) (l : list A) : list A :=
  match l with
  | [] => [x]
  | y :: t => if (f x <=? f y)%Z then x :: y :: t else y :: insert_key f x t
  end.
Definition sorted_key {A} (f : A -> Z) (l : list A) : list A := fold_right (insert_key f) [] l.

(** [sorted(l, key=f, reverse=True)]: stable, so equal keys keep their original order *)
Definition sorted_key_rev {A} (f : A -> Z) (l : list A) : list A :=
  sorted_key (fun x => (- f x)%Z) l.

(** [itertools.combinations(l, k)] *)
Fixpoint combinations {A} (l : list A) (k : nat) : list (list A) :=
  match l, k with
  | _, O => [[]]
  | [], S _ => []
  | x :: t, S k' => map (cons x) (combinations t k') ++ combinations t k
  end.

(** [itertools.product(l1, l2)] is the standard [list_prod]. *)

(** [bin(n)] without the "0b" prefix, for n >= 0: digits, most significant first; [bin(0)] is "0".
    Python's [bin(sd)[:1:-1]] (skip the prefix and reverse) is [bin_lsb]. *)
Fixpoint pdigits (p : positive) : list bool :=
  match p with
  | xH => [true]
  | xO q => false :: pdigits q
  | xI q => true :: pdigits q
  end.
Definition bin_lsb (n : N) : list bool :=
  match n with N0 => [false] | Npos p => pdigits p end.
Definition bin_msb (n : N) : list bool := rev (bin_lsb n).

(** [int("0b" + digits, 2)]: raises ValueError on the empty digit string *)
Definition digits_to_N (l : list bool) : N :=
  fold_left (fun acc (b : bool) => (2 * acc + (if b then 1 else 0))%N) l 0%N.
Definition int_of_bin (l : list bool) : res N :=
  match l with [] => Err ValueError | _ => Ok (digits_to_N l) end.

(** sign of a parity *)
Definition sgn (odd : bool) : Z := if odd then (-1)%Z else 1%Z.
