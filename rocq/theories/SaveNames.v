(** Model of the files written by save_params: fanpy/eqn/base.py:277-300, eqn/utils.py:89-97, wfn/base.py:292-300,
    wfn/composite/lincomb.py:146-172 (also used by product wavefunctions and embeddings),
    wfn/composite/base_one.py:121-137, ham/generalized_chemical.py:167-189, ham/unrestricted_chemical.py:184-210,
    with os.path.splitext (on POSIX) and the ".npy" that np.save adds to a name.

    A string is a list of characters.  Only the names of the files are modelled, not their contents. *)
From Coq Require Import Ascii String Arith Bool Decimal DecimalString DecimalNat List.
From Verif Require Import Py.
Import ListNotations.
Local Open Scope char_scope.

Definition str := list ascii.
Definition str_eqb (a b : str) : bool := if list_eq_dec ascii_dec a b then true else false.
(** str.rfind *)
Fixpoint rindex (c : ascii) (p : str) : option nat :=
  match p with
  | [] => None
  | x :: t => match rindex c t with Some i => Some (S i) | None => if ascii_dec x c then Some O else None end
  end.
(** posixpath.splitext: the last dot, if it is after the last slash and not one of the leading dots of the name *)
Definition splitext (p : str) : str * str :=
  match rindex "." p with
  | None => (p, [])
  | Some d =>
      let start := match rindex "/" p with None => O | Some s => S s end in
      if (Nat.leb start d && existsb (fun c => negb (if ascii_dec c "." then true else false)) (slice p start d))%bool
      then (firstn d p, skipn d p) else (p, [])
  end.
(** np.save *)
Definition npy : str := ["."; "n"; "p"; "y"].
Definition npy_name (p : str) : str := if str_eqb (skipn (length p - 4) p) npy then p else p ++ npy.
(** str of a natural number *)
Definition dec (n : nat) : str := list_ascii_of_string (NilEmpty.string_of_uint (Nat.to_uint n)).
Definition count_name (n : str) (l : list str) : nat := length (filter (str_eqb n) l).
(** base.py:289-297, lincomb.py:162-170: a name that occurs more than once is followed by a counter *)
Fixpoint number (all seen l : list str) : list str :=
  match l with
  | [] => []
  | n :: t => (if Nat.ltb 1 (count_name n all) then n ++ dec (S (count_name n seen)) else n) :: number all (n :: seen) t
  end.
Definition numbered (l : list str) : list str := number l [] l.

(** components: with parameters only (most wavefunctions, ParamContainer), with a unitary matrix (Hamiltonians), made
    of another wavefunction, made of several wavefunctions; with the name of the class *)
Inductive ptree := Plain (nm : str) | Rot (nm : str) | One (nm : str) (t : ptree) | Comb (nm : str) (l : list ptree).
Definition tname (t : ptree) : str := match t with Plain n => n | Rot n => n | One n _ => n | Comb n _ => n end.
(** "{}_{}{}".format(root, name, ext) *)
Definition joined (r n e : str) : str := r ++ "_" :: n ++ e.
(** the names given to np.save by component.save_params(filename) *)
Fixpoint files (fn : str) (t : ptree) {struct t} : list str :=
  let (r, e) := splitext fn in
  match t with
  | Plain _ => [fn]
  | Rot _ => [fn; joined r ["u"; "m"] e]
  | One _ t' => fn :: files (joined r (tname t') e) t'
  | Comb _ l =>
      fn :: (fix go (ns : list str) (l : list ptree) {struct l} : list str :=
               match ns, l with n :: ns', t' :: l' => files (joined r n e) t' ++ go ns' l' | _, _ => [] end)
              (numbered (map tname l)) l
  end.
(** base.py:277-300 save_params of the objective: the names of the files written *)
Definition save_files (tmpfile : str) (comps : list ptree) : list str :=
  match tmpfile with
  | [] => []
  | _ => let (r, e) := splitext tmpfile in
         map npy_name (flat_map (fun nt => files (joined r (fst nt) e) (snd nt)) (combine (numbered (map tname comps)) comps))
  end.
