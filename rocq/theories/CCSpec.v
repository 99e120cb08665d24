(** Specification for C47: the exponential of a sum of operator products acting on a determinant, as the
    power series over lists of weighted determinants.  Independent of the model. *)
From Coq Require Import List ZArith NArith Arith Bool Sorted.
From Verif Require Import Py Fock Alg.
Import ListNotations.

Section Exp.
Context {F : CField}.
Local Open Scope cr_scope.
Definition vec := list (F * N).
(** a product of creation and annihilation operators, the head acting first, on a vector *)
Definition apply_ops (os : list op) (v : vec) : vec :=
  flat_map (fun p => match applys os (Some (false, snd p)) with
                     | None => []
                     | Some (b, m) => [(sgnr (sgn b) * fst p, m)]
                     end) v.
(** a linear combination of such products *)
Definition apply_sum (T : list (F * list op)) (v : vec) : vec :=
  flat_map (fun t => map (fun p => (fst t * fst p, snd p)) (apply_ops (snd t) v)) T.
Definition coeff (sd : N) (v : vec) : F := sumf (fun p => if N.eqb (snd p) sd then fst p else 0) v.
(** the coefficient of |sd> in sum_(k <= n) T^k/k! |ref> *)
Definition exp_coeff (n : nat) (T : list (F * list op)) (ref sd : N) : F :=
  sumf (fun k => finv (nat_r (fact k)) * coeff sd (Nat.iter k (apply_sum T) [(1, ref)])) (seq 0%nat (S n)).
End Exp.

(** an excitation operator from its tuple: the orbitals of the first half are emptied, in this order,
    then those of the second half are filled *)
Definition excitation (e : list Z) : list op :=
  map (fun z => Ann (Z.to_nat z)) (firstn (length e / 2) e) ++ map (fun z => Cre (Z.to_nat z)) (skipn (length e / 2) e).
(** no orbital is emptied by one operator and filled by one *)
Definition separated (keys : list (list Z)) : Prop :=
  forall e e' z, In e keys -> In e' keys -> In z (firstn (length e / 2) e) -> ~ In z (skipn (length e' / 2) e').

(** the tuple of an excitation: orbitals emptied, orbitals filled, equally many of both, each in
    increasing order, the number being one of the ranks *)
Definition exop_shape (ranks e ann cre : list Z) : Prop :=
  e = ann ++ cre /\ length ann = length cre /\ In (Z.of_nat (length ann)) ranks /\
  StronglySorted Z.lt ann /\ StronglySorted Z.lt cre.
