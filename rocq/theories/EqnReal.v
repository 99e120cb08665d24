(** The real numbers as a field, and the derivatives of functions of a real variable. *)
From Coq Require Import Reals Lra Ring.
From Verif Require Import Py Alg EqnSpec.
Local Open Scope R_scope.

Lemma R_rth : ring_theory 0 1 Rplus Rmult Rminus Ropp (@eq R).
Proof. constructor; intros; ring. Qed.
Definition R_ring : CRing := mkCRing R 0 1 Rplus Rmult Rminus Ropp R_rth.
Lemma R_one : (@rI R_ring) <> rO.
Proof. exact R1_neq_R0. Qed.
Lemma R_inv : forall x : R_ring, x <> rO -> rmul (Rinv x : R_ring) x = rI.
Proof. intros x H. apply Rinv_l. auto. Qed.
Definition R_field : CField := mkCField R_ring Rinv R_one R_inv.

Definition real_der : (R_field -> R_field) -> R_field -> R_field -> Prop := derivable_pt_lim.

Lemma real_ext : forall (f f' : R_field -> R_field) x g, (forall y, f y = f' y) -> real_der f x g -> real_der f' x g.
Proof.
  intros f f' x g E H. change (derivable_pt_lim f' x g). change (derivable_pt_lim f x g) in H. intros eps Pe. destruct (H eps Pe) as [d Hd]. exists d. intros h N B. rewrite <- !E. apply Hd; auto.
Qed.

(** Derivatives of functions of a real variable satisfy the laws. *)
Theorem real_calculus : calculus (K := R_field) real_der.
Proof.
  constructor.
  - exact real_ext.
  - intros a x. apply (derivable_pt_lim_const a x).
  - intros x. apply derivable_pt_lim_id.
  - intros f1 f2 x g1 g2 H1 H2. apply (derivable_pt_lim_plus f1 f2 x g1 g2 H1 H2).
  - intros f1 f2 x g1 g2 H1 H2. apply (derivable_pt_lim_mult f1 f2 x g1 g2 H1 H2).
  - intros f x g N H. change (f x <> 0) in N.
    apply (real_ext (div_fct (fct_cte 1) f)).
    { intros y. unfold div_fct, fct_cte. simpl. unfold Rdiv. apply Rmult_1_l. }
    replace (ropp (rmul g (rmul (finv (f x)) (finv (f x)))) : R_field) with ((0 * f x - g * fct_cte 1 x) / Rsqr (f x)).
    + apply derivable_pt_lim_div; auto. apply (derivable_pt_lim_const 1 x).
    + simpl. unfold fct_cte, Rsqr. field. auto.
Qed.
Lemma real_unique : forall f (x a b : R_field), real_der f x a -> real_der f x b -> a = b.
Proof. intros f x a b H1 H2. exact (uniqueness_limite f x a b H1 H2). Qed.
