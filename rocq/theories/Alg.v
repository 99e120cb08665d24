(** Commutative rings and fields (Leibniz equality), finite sums and products over lists.
    Numbers of the Python code (floats, complex numbers) are modelled by the elements of an
    arbitrary commutative ring or field: rounding is not modelled. *)
From Coq Require Import List ZArith Bool Lia Ring_theory Ring Permutation Arith QArith Qcanon.
Import ListNotations.

Record CRing := mkCRing {
  rcar :> Type; rO : rcar; rI : rcar;
  radd : rcar -> rcar -> rcar; rmul : rcar -> rcar -> rcar;
  rsub : rcar -> rcar -> rcar; ropp : rcar -> rcar;
  rth : ring_theory rO rI radd rmul rsub ropp (@eq rcar) }.
Arguments rO {_}. Arguments rI {_}. Arguments radd {_} _ _. Arguments rmul {_} _ _.
Arguments rsub {_} _ _. Arguments ropp {_} _.
Declare Scope cr_scope.
Delimit Scope cr_scope with cr.
Notation "x + y" := (radd x y) : cr_scope.
Notation "x * y" := (rmul x y) : cr_scope.
Notation "x - y" := (rsub x y) : cr_scope.
Notation "- x" := (ropp x) : cr_scope.
Notation "0" := rO : cr_scope.
Notation "1" := rI : cr_scope.

Definition Z_ring : CRing := mkCRing Z 0%Z 1%Z Z.add Z.mul Z.sub Z.opp InitialRing.Zth.
Definition Qc_ring : CRing :=
  mkCRing Qc (Q2Qc 0) (Q2Qc 1) Qcplus Qcmult Qcminus Qcopp Qcrt.

(** a field: a ring with a (total) inverse function that inverts every element but 0 *)
Record CField := mkCField {
  fring :> CRing; finv : fring -> fring;
  f_one : (@rI fring) <> rO;
  f_inv : forall x : fring, x <> rO -> rmul (finv x) x = rI }.
Arguments finv {_} _.
Lemma Qc_one : (@rI Qc_ring) <> rO.
Proof. intros H. discriminate. Qed.
Lemma Qc_inv : forall x : Qc_ring, x <> rO -> rmul (Qcinv x : Qc_ring) x = rI.
Proof. intros x H. simpl. rewrite Qcmult_comm. now apply Qcmult_inv_r. Qed.
Definition Qc_field : CField := mkCField Qc_ring Qcinv Qc_one Qc_inv.

Section Sums.
Context {K : CRing}.
Local Open Scope cr_scope.
Add Ring K_ring : (rth K).

Definition sumf {A} (f : A -> K) (l : list A) : K := fold_right (fun x s => f x + s) 0 l.
Definition prodf {A} (f : A -> K) (l : list A) : K := fold_right (fun x s => f x * s) 1 l.

(** Python's [s = 0; for x in l: s += f(x)] and [p = 1; for x in l: p *= f(x)] *)
Definition psum {A} (f : A -> K) (l : list A) : K := fold_left (fun s x => s + f x) l 0.
Definition pprod {A} (f : A -> K) (l : list A) : K := fold_left (fun s x => s * f x) l 1.

Lemma fold_add : forall {A} (f : A -> K) l s, fold_left (fun s x => s + f x) l s = s + sumf f l.
Proof. induction l as [|x l IH]; intros s; simpl; [ring|]. rewrite IH. ring. Qed.
Lemma psum_sumf : forall {A} (f : A -> K) l, psum f l = sumf f l.
Proof. intros. unfold psum. rewrite fold_add. ring. Qed.
Lemma fold_mul : forall {A} (f : A -> K) l s, fold_left (fun s x => s * f x) l s = s * prodf f l.
Proof. induction l as [|x l IH]; intros s; simpl; [ring|]. rewrite IH. ring. Qed.
Lemma pprod_prodf : forall {A} (f : A -> K) l, pprod f l = prodf f l.
Proof. intros. unfold pprod. rewrite fold_mul. ring. Qed.

Lemma sumf_cons : forall {A} (f : A -> K) x l, sumf f (x :: l) = f x + sumf f l.
Proof. reflexivity. Qed.
Lemma prodf_cons : forall {A} (f : A -> K) x l, prodf f (x :: l) = f x * prodf f l.
Proof. reflexivity. Qed.
Lemma sumf_ext : forall {A} (f g : A -> K) l, (forall x, In x l -> f x = g x) -> sumf f l = sumf g l.
Proof.
  induction l as [|x l IH]; intros H; simpl; auto. rewrite (H x), IH; auto; [|now left].
  intros; apply H; now right.
Qed.
Lemma prodf_ext : forall {A} (f g : A -> K) l, (forall x, In x l -> f x = g x) -> prodf f l = prodf g l.
Proof.
  induction l as [|x l IH]; intros H; simpl; auto. rewrite (H x), IH; auto; [|now left].
  intros; apply H; now right.
Qed.
Lemma sumf_app : forall {A} (f : A -> K) a b, sumf f (a ++ b) = sumf f a + sumf f b.
Proof. induction a as [|x a IH]; intros b; simpl; [ring|]. rewrite IH. ring. Qed.
Lemma prodf_app : forall {A} (f : A -> K) a b, prodf f (a ++ b) = prodf f a * prodf f b.
Proof. induction a as [|x a IH]; intros b; simpl; [ring|]. rewrite IH. ring. Qed.
Lemma sumf_map : forall {A B} (f : B -> K) (g : A -> B) l, sumf f (map g l) = sumf (fun x => f (g x)) l.
Proof. induction l as [|x l IH]; simpl; auto. now rewrite IH. Qed.
Lemma prodf_map : forall {A B} (f : B -> K) (g : A -> B) l, prodf f (map g l) = prodf (fun x => f (g x)) l.
Proof. induction l as [|x l IH]; simpl; auto. now rewrite IH. Qed.
Lemma sumf_perm : forall {A} (f : A -> K) a b, Permutation a b -> sumf f a = sumf f b.
Proof. induction 1; simpl; try congruence; ring. Qed.
Lemma prodf_perm : forall {A} (f : A -> K) a b, Permutation a b -> prodf f a = prodf f b.
Proof. induction 1; simpl; try congruence; ring. Qed.
Lemma sumf_zero : forall {A} (f : A -> K) l, (forall x, In x l -> f x = 0) -> sumf f l = 0.
Proof.
  induction l as [|x l IH]; intros H; simpl; auto. rewrite (H x), IH; [ring| |now left].
  intros; apply H; now right.
Qed.
Lemma prodf_one : forall {A} (f : A -> K) l, (forall x, In x l -> f x = 1) -> prodf f l = 1.
Proof.
  induction l as [|x l IH]; intros H; simpl; auto. rewrite (H x), IH; [ring| |now left].
  intros; apply H; now right.
Qed.
Lemma prodf_zero : forall {A} (f : A -> K) l x, In x l -> f x = 0 -> prodf f l = 0.
Proof.
  induction l as [|y l IH]; intros x Hx H; [destruct Hx|]. simpl. destruct Hx as [->|Hx].
  - rewrite H. ring.
  - rewrite (IH x); auto. ring.
Qed.
Lemma sumf_add : forall {A} (f g : A -> K) l, sumf (fun x => f x + g x) l = sumf f l + sumf g l.
Proof. induction l as [|x l IH]; simpl; [ring|]. rewrite IH. ring. Qed.
Lemma sumf_sub : forall {A} (f g : A -> K) l, sumf (fun x => f x - g x) l = sumf f l - sumf g l.
Proof. induction l as [|x l IH]; simpl; [ring|]. rewrite IH. ring. Qed.
Lemma sumf_opp : forall {A} (f : A -> K) l, sumf (fun x => - f x) l = - sumf f l.
Proof. induction l as [|x l IH]; simpl; [ring|]. rewrite IH. ring. Qed.
Lemma sumf_mul_l : forall {A} (f : A -> K) c l, sumf (fun x => c * f x) l = c * sumf f l.
Proof. induction l as [|x l IH]; simpl; [ring|]. rewrite IH. ring. Qed.
Lemma sumf_mul_r : forall {A} (f : A -> K) c l, sumf (fun x => f x * c) l = sumf f l * c.
Proof. induction l as [|x l IH]; simpl; [ring|]. rewrite IH. ring. Qed.
Lemma prodf_mul : forall {A} (f g : A -> K) l, prodf (fun x => f x * g x) l = prodf f l * prodf g l.
Proof. induction l as [|x l IH]; simpl; [ring|]. rewrite IH. ring. Qed.
Lemma sumf_flat_map : forall {A B} (f : B -> K) (g : A -> list B) l,
  sumf f (flat_map g l) = sumf (fun x => sumf f (g x)) l.
Proof. induction l as [|x l IH]; simpl; auto. now rewrite sumf_app, IH. Qed.
Lemma sumf_concat : forall {B} (f : B -> K) (l : list (list B)),
  sumf f (concat l) = sumf (fun x => sumf f x) l.
Proof. induction l as [|x l IH]; simpl; auto. now rewrite sumf_app, IH. Qed.
Lemma sumf_prod : forall {A B} (f : A * B -> K) a b,
  sumf f (list_prod a b) = sumf (fun x => sumf (fun y => f (x, y)) b) a.
Proof. induction a as [|x a IH]; intros b; simpl; auto. now rewrite sumf_app, IH, sumf_map. Qed.
Lemma sumf_swap : forall {A B} (f : A -> B -> K) a b,
  sumf (fun x => sumf (fun y => f x y) b) a = sumf (fun y => sumf (fun x => f x y) a) b.
Proof.
  induction a as [|x a IH]; intros b; simpl.
  - symmetry. apply sumf_zero. auto.
  - rewrite IH, <- sumf_add. reflexivity.
Qed.
Lemma sumf_filter : forall {A} (f : A -> K) (p : A -> bool) l,
  sumf f (filter p l) = sumf (fun x => if p x then f x else 0) l.
Proof. induction l as [|x l IH]; simpl; auto. destruct (p x); simpl; rewrite IH; ring. Qed.
Lemma sumf_split : forall {A} (f : A -> K) (p : A -> bool) l,
  sumf f l = sumf f (filter p l) + sumf f (filter (fun x => negb (p x)) l).
Proof. induction l as [|x l IH]; simpl; [ring|]. rewrite IH. destruct (p x); simpl; ring. Qed.
(** only one term of the sum is not zero *)
Lemma sumf_single : forall {A} (f : A -> K) l x, NoDup l -> In x l ->
  (forall y, In y l -> y <> x -> f y = 0) -> sumf f l = f x.
Proof.
  induction l as [|z l IH]; intros x N H Z; [destruct H|]. inversion N; subst. simpl.
  destruct H as [->|H].
  - rewrite (sumf_zero f l); [ring|]. intros y Hy. apply Z; [now right|]. congruence.
  - rewrite (IH x); auto.
    + rewrite (Z z); [ring|now left|]. congruence.
    + intros y Hy. apply Z. now right.
Qed.
Lemma sumf_same : forall {A} (f : A -> K) a b, NoDup a -> NoDup b -> (forall x, In x a <-> In x b) ->
  sumf f a = sumf f b.
Proof. intros. apply sumf_perm. now apply NoDup_Permutation. Qed.

(** signs *)
Definition sgnr (s : Z) : K := if (s =? 1)%Z then 1 else if (s =? -1)%Z then - (1) else 0.
Definition m1pow (n : nat) : K := if Nat.even n then 1 else - (1).
Lemma m1pow_S : forall n, m1pow (S n) = - m1pow n.
Proof. intros n. unfold m1pow. rewrite Nat.even_succ, <- Nat.negb_even. destruct (Nat.even n); simpl; ring. Qed.
Lemma m1pow_add : forall n m, m1pow (n + m) = m1pow n * m1pow m.
Proof. induction n as [|n IH]; intros m; [unfold m1pow at 2; simpl; ring|]. simpl plus. rewrite !m1pow_S, IH. ring. Qed.
Lemma m1pow_sq : forall n, m1pow n * m1pow n = 1.
Proof. intros n. unfold m1pow. destruct (Nat.even n); ring. Qed.
Lemma opp_opp : forall x : K, - - x = x.
Proof. intros. ring. Qed.
(** natural numbers as ring elements *)
Fixpoint nat_r (n : nat) : K := match n with O => 0 | S n => 1 + nat_r n end.
Lemma nat_r_add : forall a b, nat_r (a + b) = nat_r a + nat_r b.
Proof. induction a as [|a IH]; intros b; simpl; [ring|]. rewrite IH. ring. Qed.
Lemma nat_r_mul : forall a b, nat_r (a * b) = nat_r a * nat_r b.
Proof. induction a as [|a IH]; intros b; simpl; [ring|]. rewrite nat_r_add, IH. ring. Qed.
Lemma sumf_const : forall {A} (c : K) (l : list A), sumf (fun _ => c) l = nat_r (length l) * c.
Proof. induction l as [|x l IH]; simpl; [ring|]. rewrite IH. ring. Qed.
End Sums.

(** [v] is the sum of [f] over the (finite) set of all [x] with [P x] *)
Definition sum_over {K : CRing} {A} (P : A -> Prop) (f : A -> K) (v : K) : Prop :=
  exists l, NoDup l /\ (forall x, In x l <-> P x) /\ v = sumf f l.
Lemma sum_over_unique : forall {K : CRing} {A} (P : A -> Prop) (f : A -> K) v w,
  sum_over P f v -> sum_over P f w -> v = w.
Proof.
  intros K A P f v w (l & N & I & ->) (m & N' & I' & ->). apply sumf_same; auto.
  intros x. now rewrite I, I'.
Qed.

Section FieldLemmas.
Context {F : CField}.
Local Open Scope cr_scope.
Add Ring F_ring : (rth F).
Lemma f_inv_r : forall x : F, x <> 0 -> x * finv x = 1.
Proof. intros x H. rewrite <- (f_inv F x H). ring. Qed.
Lemma f_cancel : forall a x y : F, a <> 0 -> a * x = a * y -> x = y.
Proof.
  intros a x y H E. transitivity (finv a * (a * x)).
  - transitivity ((finv a * a) * x); [rewrite (f_inv F a H)|]; ring.
  - rewrite E. transitivity ((finv a * a) * y); [|rewrite (f_inv F a H)]; ring.
Qed.
Lemma f_mul_nz : forall x y : F, x <> 0 -> y <> 0 -> x * y <> 0.
Proof. intros x y Hx Hy E. apply Hy. apply (f_cancel x); auto. rewrite E. ring. Qed.
Lemma f_inv_nz : forall x : F, x <> 0 -> finv x <> 0.
Proof. intros x H E. apply (f_one F). rewrite <- (f_inv F x H), E. ring. Qed.
Lemma f_opp_nz : forall x : F, x <> 0 -> - x <> 0.
Proof. intros x H E. apply H. transitivity (- - x); [ring|]. rewrite E. ring. Qed.
Lemma f_sub_nz : forall x y : F, x <> y -> x - y <> 0.
Proof. intros x y H E. apply H. transitivity ((x - y) + y); [ring|]. rewrite E. ring. Qed.
Lemma f_prod_nz : forall {A} (f : A -> F) l, (forall x, In x l -> f x <> 0) -> prodf f l <> 0.
Proof.
  induction l as [|x l IH]; intros H; simpl; [apply f_one|].
  apply f_mul_nz; [apply H; now left|]. apply IH. intros; apply H; now right.
Qed.
Lemma f_inv_unique : forall x y : F, x <> 0 -> y * x = 1 -> y = finv x.
Proof. intros x y H E. apply (f_cancel x); auto. rewrite f_inv_r by auto. rewrite <- E. ring. Qed.
End FieldLemmas.
