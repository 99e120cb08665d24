(** Specifications for the geminals with a rank-two coefficient matrix *)
From Coq Require Import List ZArith NArith Arith Bool.
From Verif Require Import Py Slater Alg WfnCI Geminal Rank2.
Import ListNotations.
Local Open Scope nat_scope.

Section Spec.
Context {K : CField}.
Local Open Scope cr_scope.
(** a one-dimensional array of lambdas, epsilons and zetas, in this order *)
Definition lam (p : list K) (i : nat) : K := nth i p 0.
Definition eps (ngem : nat) (p : list K) (j : nat) : K := nth (ngem + j)%nat p 0.
Definition zet (ngem norb : nat) (p : list K) (j : nat) : K := nth (ngem + norb + j)%nat p 0.
(** the coefficient of pair j in geminal i *)
Definition rank2 (ngem norb : nat) (p : list K) (i j : nat) : K := zet ngem norb p j * finv (lam p i - eps ngem p j).
(** the formula of Borchardt applies: different lambdas, different epsilons, no zero denominators *)
Record admissible (ngem norb : nat) (p : list K) : Prop := mkadm {
  ad_len : length p = (ngem + norb + norb)%nat;
  ad_lam : forall i i', (i < ngem)%nat -> (i' < ngem)%nat -> lam p i = lam p i' -> i = i';
  ad_eps : forall j j', (j < norb)%nat -> (j' < norb)%nat -> eps ngem p j = eps ngem p j' -> j = j';
  ad_diff : forall i j, (i < ngem)%nat -> (j < norb)%nat -> lam p i <> eps ngem p j }.
(** the derivative of the coefficient (i, j) with respect to parameter k *)
Definition rank2_deriv (ngem norb : nat) (p : list K) (k i j : nat) : K :=
  let d := lam p i - eps ngem p j in
  if Nat.ltb k ngem then if Nat.eqb i k then - zet ngem norb p j * finv (d * d) else 0
  else if Nat.ltb k (ngem + norb) then if Nat.eqb j (k - ngem) then zet ngem norb p j * finv (d * d) else 0
  else if Nat.eqb j (k - ngem - norb) then finv d else 0.
(** derivatives do not depend on the values of a function at finitely many other points *)
Definition local (Der : (K -> K) -> K -> K -> Prop) : Prop :=
  forall f f' x g l, ~ In x l -> (forall y, ~ In y l -> f y = f' y) -> Der f x g -> Der f' x g.
(** x solves the linear equations with the rows [A] and the right hand sides [b] *)
Definition dot (n : nat) (r x : list K) : K := sumf (fun k => nth k r 0 * nth k x 0) (seq 0 n).
Definition solves (n : nat) (A : list (list K)) (b x : list K) : Prop :=
  length x = n /\ forall r v, In (r, v) (combine A b) -> dot n r x = v.
(** a matrix, by rows, is the matrix of coefficients of [p] *)
Definition has_rank2 (ngem norb : nat) (C p : list K) : Prop :=
  forall i j, (i < ngem)%nat -> (j < norb)%nat -> nth (i * norb + j)%nat C 0 = rank2 ngem norb p i j.
End Spec.
