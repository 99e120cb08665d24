(** Rotations of integrals as matrix products, and the assignment of parameters. *)
From Coq Require Import List ZArith NArith Bool Lia Arith Setoid Morphisms.
From Verif Require Import Py Slater Combos Alg PermLemmas HamGen HamRes FockInner HamRot HamRotLemmas.
Import ListNotations.

Section Mat.
Context {K : CField}.
Local Open Scope cr_scope.
Add Ring K_ring23 : (rth K).
Notation mat := (nat -> nat -> K).
Notation tens := (nat -> nat -> nat -> nat -> K).

(** contraction of one index *)
Definition ctr (n : nat) (f : nat -> K) (m : mat) (a : nat) : K := sumf (fun i => f i * m i a) (seq 0 n).
Lemma ctr_ext : forall n f g (m : mat) a, (forall i, (i < n)%nat -> f i = g i) -> ctr n f m a = ctr n g m a.
Proof. intros n f g m a H. apply sumf_ext. intros i Hi. apply in_seq in Hi. rewrite H by lia. reflexivity. Qed.
Lemma ctr_ext_m : forall n f (m m' : mat) a, (forall i, (i < n)%nat -> m i a = m' i a) -> ctr n f m a = ctr n f m' a.
Proof. intros n f m m' a H. apply sumf_ext. intros i Hi. apply in_seq in Hi. rewrite H by lia. reflexivity. Qed.
Lemma ctr_comm : forall n k (f : nat -> nat -> K) A B a b,
  ctr n (fun i => ctr k (fun j => f i j) B b) A a = ctr k (fun j => ctr n (fun i => f i j) A a) B b.
Proof.
  intros. unfold ctr. rewrite (sumf_ext _ (fun i => sumf (fun j => f i j * B j b * A i a) (seq 0 k))) by (intros; now rewrite sumf_mul_r).
  rewrite sumf_swap. apply sumf_ext. intros j _. rewrite <- sumf_mul_r. apply sumf_ext. intros i _. ring.
Qed.
Lemma ctr_dot : forall n k f (A B : mat) b, ctr k (fun a => ctr n f A a) B b = ctr n f (mdot k A B) b.
Proof.
  intros. unfold ctr, mdot. rewrite (sumf_ext _ (fun a => sumf (fun i => f i * A i a * B a b) (seq 0 n))) by (intros; now rewrite sumf_mul_r).
  rewrite sumf_swap. apply sumf_ext. intros i _. rewrite psum_sumf, <- sumf_mul_l. apply sumf_ext. intros a _. ring.
Qed.
Lemma ctr_ident : forall n f a, (a < n)%nat -> ctr n f ident a = f a.
Proof.
  intros n f a L. unfold ctr, ident. rewrite (sumf_single _ _ a); [rewrite Nat.eqb_refl; ring|apply seq_NoDup|apply in_seq; lia|].
  intros y _ Hy. destruct (Nat.eqb_spec y a); [congruence|ring].
Qed.

(** ** contraction of each index of a tensor *)
Definition E1 n (g : tens) (m : mat) : tens := fun a j k l => ctr n (fun i => g i j k l) m a.
Definition E2 n (g : tens) (m : mat) : tens := fun a b k l => ctr n (fun j => g a j k l) m b.
Definition E3 n (g : tens) (m : mat) : tens := fun a b c l => ctr n (fun k => g a b k l) m c.
Definition E4 n (g : tens) (m : mat) : tens := fun a b c d => ctr n (fun l => g a b c l) m d.
Lemma rot2_E : forall n g ma mb mc md a b c d, rot2 n g ma mb mc md a b c d = E4 n (E3 n (E2 n (E1 n g ma) mb) mc) md a b c d.
Proof.
  intros. unfold rot2, E4, E3, E2, E1, ctr. rewrite psum_sumf. apply sumf_ext. intros l _. f_equal.
  rewrite psum_sumf. apply sumf_ext. intros k _. f_equal. rewrite psum_sumf. apply sumf_ext. intros j _. f_equal.
  apply psum_sumf.
Qed.
Lemma rot1_E : forall n h ma mb a b, rot1 n h ma mb a b = ctr n (fun j => ctr n (fun i => h i j) ma a) mb b.
Proof. intros. unfold rot1, ctr. rewrite psum_sumf. apply sumf_ext. intros l _. f_equal. apply psum_sumf. Qed.

Definition teq (f g : tens) : Prop := forall i j k l, f i j k l = g i j k l.
Global Instance teq_equiv : Equivalence teq.
Proof. split; unfold teq; intros; [intros|intros ? **|intros ? **]; try congruence; red; congruence. Qed.
Global Instance E1_proper n : Proper (teq ==> eq ==> teq) (E1 n).
Proof. intros f g H m m' <- a j k l. apply ctr_ext. intros; apply H. Qed.
Global Instance E2_proper n : Proper (teq ==> eq ==> teq) (E2 n).
Proof. intros f g H m m' <- a j k l. apply ctr_ext. intros; apply H. Qed.
Global Instance E3_proper n : Proper (teq ==> eq ==> teq) (E3 n).
Proof. intros f g H m m' <- a j k l. apply ctr_ext. intros; apply H. Qed.
Global Instance E4_proper n : Proper (teq ==> eq ==> teq) (E4 n).
Proof. intros f g H m m' <- a j k l. apply ctr_ext. intros; apply H. Qed.
Lemma E12 : forall n k g A B, teq (E1 n (E2 k g B) A) (E2 k (E1 n g A) B).
Proof. intros; intros a b c d. apply ctr_comm. Qed.
Lemma E13 : forall n k g A B, teq (E1 n (E3 k g B) A) (E3 k (E1 n g A) B).
Proof. intros; intros a b c d. apply ctr_comm. Qed.
Lemma E14 : forall n k g A B, teq (E1 n (E4 k g B) A) (E4 k (E1 n g A) B).
Proof. intros; intros a b c d. apply ctr_comm. Qed.
Lemma E23 : forall n k g A B, teq (E2 n (E3 k g B) A) (E3 k (E2 n g A) B).
Proof. intros; intros a b c d. apply ctr_comm. Qed.
Lemma E24 : forall n k g A B, teq (E2 n (E4 k g B) A) (E4 k (E2 n g A) B).
Proof. intros; intros a b c d. apply ctr_comm. Qed.
Lemma E34 : forall n k g A B, teq (E3 n (E4 k g B) A) (E4 k (E3 n g A) B).
Proof. intros; intros a b c d. apply ctr_comm. Qed.
Lemma E11 : forall n k g A B, teq (E1 k (E1 n g A) B) (E1 n g (mdot k A B)).
Proof. intros; intros a b c d. apply ctr_dot. Qed.
Lemma E22 : forall n k g A B, teq (E2 k (E2 n g A) B) (E2 n g (mdot k A B)).
Proof. intros; intros a b c d. apply ctr_dot. Qed.
Lemma E33 : forall n k g A B, teq (E3 k (E3 n g A) B) (E3 n g (mdot k A B)).
Proof. intros; intros a b c d. apply ctr_dot. Qed.
Lemma E44 : forall n k g A B, teq (E4 k (E4 n g A) B) (E4 n g (mdot k A B)).
Proof. intros; intros a b c d. apply ctr_dot. Qed.

Lemma rot2_comp : forall n k (g : tens) (A1 A2 A3 A4 B1 B2 B3 B4 : mat),
  teq (rot2 k (rot2 n g A1 A2 A3 A4) B1 B2 B3 B4) (rot2 n g (mdot k A1 B1) (mdot k A2 B2) (mdot k A3 B3) (mdot k A4 B4)).
Proof.
  intros. assert (R : forall n g A B C D, teq (rot2 n g A B C D) (E4 n (E3 n (E2 n (E1 n g A) B) C) D)) by (intros; intros a b c d; apply rot2_E).
  rewrite !R. rewrite E14, E13, E12, E11. rewrite E24, E23, E22. rewrite E34, E33. rewrite E44. reflexivity.
Qed.
Lemma rot1_comp : forall n k (h A1 A2 B1 B2 : mat) a b,
  rot1 k (rot1 n h A1 A2) B1 B2 a b = rot1 n h (mdot k A1 B1) (mdot k A2 B2) a b.
Proof.
  intros. rewrite !rot1_E.
  rewrite (ctr_ext _ _ (fun j => ctr n (fun y => ctr n (fun x => h x y) (mdot k A1 B1) a) A2 j)).
  - apply ctr_dot.
  - intros j _. rewrite (ctr_ext _ _ (fun i => ctr n (fun y => ctr n (fun x => h x y) A1 i) A2 j)) by (intros; apply rot1_E).
    rewrite ctr_comm. apply ctr_ext. intros y _. apply ctr_dot.
Qed.

(** ** agreement below the dimension *)
Definition meq (n : nat) (a b : mat) : Prop := forall i j, (i < n)%nat -> (j < n)%nat -> a i j = b i j.
Definition teqn (n : nat) (f g : tens) : Prop :=
  forall i j k l, (i < n)%nat -> (j < n)%nat -> (k < n)%nat -> (l < n)%nat -> f i j k l = g i j k l.

Lemma rot1_meq : forall n h h' A A' B B', meq n h h' -> meq n A A' -> meq n B B' -> meq n (rot1 n h A B) (rot1 n h' A' B').
Proof.
  intros n h h' A A' B B' H HA HB a b La Lb. rewrite !rot1_E.
  rewrite (ctr_ext_m _ _ B B') by (intros; apply HB; auto). apply ctr_ext. intros j Lj.
  rewrite (ctr_ext_m _ _ A A') by (intros; apply HA; auto). apply ctr_ext. intros i Li. now apply H.
Qed.
Lemma rot2_teqn : forall n g g' A A' B B' C C' D D', teqn n g g' -> meq n A A' -> meq n B B' -> meq n C C' -> meq n D D' ->
  teqn n (rot2 n g A B C D) (rot2 n g' A' B' C' D').
Proof.
  intros n g g' A A' B B' C C' D D' H HA HB HC HD a b c d La Lb Lc Ld. rewrite !rot2_E.
  unfold E4. rewrite (ctr_ext_m _ _ D D') by (intros; apply HD; auto). apply ctr_ext. intros l Ll.
  unfold E3. rewrite (ctr_ext_m _ _ C C') by (intros; apply HC; auto). apply ctr_ext. intros k Lk.
  unfold E2. rewrite (ctr_ext_m _ _ B B') by (intros; apply HB; auto). apply ctr_ext. intros j Lj.
  unfold E1. rewrite (ctr_ext_m _ _ A A') by (intros; apply HA; auto). apply ctr_ext. intros i Li. now apply H.
Qed.
Lemma rot1_ident : forall n (h : mat), meq n (rot1 n h ident ident) h.
Proof. intros n h a b La Lb. rewrite rot1_E, ctr_ident, ctr_ident by auto. reflexivity. Qed.
Lemma rot2_ident : forall n (g : tens), teqn n (rot2 n g ident ident ident ident) g.
Proof. intros n g a b c d La Lb Lc Ld. rewrite rot2_E. unfold E4, E3, E2, E1. now rewrite !ctr_ident. Qed.

(** the values as sums over all indices *)
Lemma rot1_value : forall n (h A B : mat) a b, rot1 n h A B a b = sumf (fun i => sumf (fun j => A i a * h i j * B j b) (seq 0 n)) (seq 0 n).
Proof.
  intros. rewrite rot1_E. unfold ctr. rewrite sumf_swap. apply sumf_ext. intros j _. rewrite <- sumf_mul_r. apply sumf_ext. intros i _. ring.
Qed.
Lemma rot2_value : forall n (g : tens) (A B C D : mat) a b c d, rot2 n g A B C D a b c d =
  sumf (fun i => sumf (fun j => sumf (fun k => sumf (fun l => A i a * B j b * g i j k l * C k c * D l d) (seq 0 n)) (seq 0 n)) (seq 0 n)) (seq 0 n).
Proof.
  intros. rewrite rot2_E.
  assert (T : forall n g A B C D a b c d, E4 n (E3 n (E2 n (E1 n g A) B) C) D a b c d = E1 n (E2 n (E3 n (E4 n g D) C) B) A a b c d).
  { intros. assert (X : teq (E1 n0 (E2 n0 (E3 n0 (E4 n0 g0 D0) C0) B0) A0) (E4 n0 (E3 n0 (E2 n0 (E1 n0 g0 A0) B0) C0) D0)); [|symmetry; apply X].
    rewrite E34, E24, E14, E23, E13, E12. reflexivity. }
  rewrite T. unfold E1 at 1, ctr. apply sumf_ext. intros i _. unfold E2 at 1, ctr. rewrite <- sumf_mul_r. apply sumf_ext. intros j _.
  unfold E3 at 1, ctr. rewrite <- sumf_mul_r, <- sumf_mul_r. apply sumf_ext. intros k _. unfold E4 at 1, ctr. rewrite <- !sumf_mul_r.
  apply sumf_ext. intros l _. ring.
Qed.

(** ** Jacobi rotations *)
(** the identity with the entries of rows and columns p and q replaced *)
Definition givens (p q : nat) (co si : K) : mat := fun x y =>
  if Nat.eqb x p && Nat.eqb y p then co else if Nat.eqb x q && Nat.eqb y q then co
  else if Nat.eqb x p && Nat.eqb y q then si else if Nat.eqb x q && Nat.eqb y p then - si
  else if Nat.eqb x y then 1 else 0.
Lemma jac_ctr : forall n p q co si f i, (p < n)%nat -> (q < n)%nat -> p <> q -> (i < n)%nat ->
  jac p q co si f i = ctr n f (givens p q co si) i.
Proof.
  intros n p q co si f i Lp Lq N Li. unfold jac, ctr. destruct (Nat.eqb_spec i q) as [->|Nq]; [|destruct (Nat.eqb_spec i p) as [->|Np]].
  - rewrite (sumf_support _ [p; q] (seq 0 n)).
    + cbn [sumf fold_right]. unfold givens. rewrite !Nat.eqb_refl, (proj2 (Nat.eqb_neq p q) N), (proj2 (Nat.eqb_neq q p)) by congruence. cbn [andb]. ring.
    + apply seq_NoDup.
    + constructor; [intros [H|[]]; congruence|constructor; auto; constructor].
    + intros x [<-|[<-|[]]]; apply in_seq; lia.
    + intros x _. destruct (Nat.eq_dec x p) as [->|]; [right; now left|]. destruct (Nat.eq_dec x q) as [->|]; [right; right; now left|].
      left. unfold givens. rewrite (proj2 (Nat.eqb_neq x p)), (proj2 (Nat.eqb_neq x q)) by auto. cbn [andb]. ring.
  - rewrite (sumf_support _ [p; q] (seq 0 n)).
    + cbn [sumf fold_right]. unfold givens. rewrite !Nat.eqb_refl, (proj2 (Nat.eqb_neq p q) N), (proj2 (Nat.eqb_neq q p)) by congruence. cbn [andb]. ring.
    + apply seq_NoDup.
    + constructor; [intros [H|[]]; congruence|constructor; auto; constructor].
    + intros x [<-|[<-|[]]]; apply in_seq; lia.
    + intros x _. destruct (Nat.eq_dec x p) as [->|]; [right; now left|]. destruct (Nat.eq_dec x q) as [->|]; [right; right; now left|].
      left. unfold givens. rewrite (proj2 (Nat.eqb_neq x p)), (proj2 (Nat.eqb_neq x q)) by auto. cbn [andb]. ring.
  - rewrite (sumf_single _ _ i); [|apply seq_NoDup|apply in_seq; lia|].
    + unfold givens. rewrite (proj2 (Nat.eqb_neq i p)), (proj2 (Nat.eqb_neq i q)), Nat.eqb_refl by auto. cbn [andb]. ring.
    + intros x _ Hx. unfold givens. rewrite (proj2 (Nat.eqb_neq i p)), (proj2 (Nat.eqb_neq i q)), (proj2 (Nat.eqb_neq x i)) by auto.
      rewrite !andb_false_r. ring.
Qed.
Section Jac.
Variables (n p q : nat) (co si : K).
Hypotheses (Lp : (p < n)%nat) (Lq : (q < n)%nat) (N : p <> q).
Notation G := (givens p q co si).
Lemma jac_ext : forall f g i, (forall x, (x < n)%nat -> f x = g x) -> (i < n)%nat -> jac p q co si f i = jac p q co si g i.
Proof. intros f g i H L. unfold jac. destruct (Nat.eqb i q), (Nat.eqb i p); rewrite ?(H p), ?(H q), ?(H i) by auto; auto. Qed.
Lemma jac_one : forall h, meq n (jac_1 p q co si (jac_2 p q co si h)) (rot1 n h G G).
Proof.
  intros h a b La Lb. rewrite rot1_E, ctr_comm. unfold jac_1, jac_2. rewrite (jac_ctr n) by auto. apply ctr_ext. intros i Li.
  now rewrite (jac_ctr n) by auto.
Qed.
Lemma j1 : forall g g', teqn n g g' -> teqn n (jac4_1 p q co si g) (E1 n g' G).
Proof. intros g g' H a b c d La Lb Lc Ld. unfold jac4_1, E1. rewrite (jac_ctr n) by auto. apply ctr_ext. intros; now apply H. Qed.
Lemma j2 : forall g g', teqn n g g' -> teqn n (jac4_2 p q co si g) (E2 n g' G).
Proof. intros g g' H a b c d La Lb Lc Ld. unfold jac4_2, E2. rewrite (jac_ctr n) by auto. apply ctr_ext. intros; now apply H. Qed.
Lemma j3 : forall g g', teqn n g g' -> teqn n (jac4_3 p q co si g) (E3 n g' G).
Proof. intros g g' H a b c d La Lb Lc Ld. unfold jac4_3, E3. rewrite (jac_ctr n) by auto. apply ctr_ext. intros; now apply H. Qed.
Lemma j4 : forall g g', teqn n g g' -> teqn n (jac4_4 p q co si g) (E4 n g' G).
Proof. intros g g' H a b c d La Lb Lc Ld. unfold jac4_4, E4. rewrite (jac_ctr n) by auto. apply ctr_ext. intros; now apply H. Qed.
Lemma teqn_refl : forall g, teqn n g g.
Proof. intros g a b c d **. reflexivity. Qed.
Lemma jac_two : forall g, teqn n (jac4_1 p q co si (jac4_2 p q co si (jac4_3 p q co si (jac4_4 p q co si g)))) (rot2 n g G G G G).
Proof.
  intros g a b c d La Lb Lc Ld. rewrite (j1 _ _ (j2 _ _ (j3 _ _ (j4 _ _ (teqn_refl g))))) by auto. rewrite rot2_E.
  assert (X : teq (E1 n (E2 n (E3 n (E4 n g G) G) G) G) (E4 n (E3 n (E2 n (E1 n g G) G) G) G)); [|apply X].
  rewrite E34, E24, E14, E23, E13, E12. reflexivity.
Qed.
Lemma jac_alpha : forall g, teqn n (jac4_1 p q co si (jac4_3 p q co si g)) (rot2 n g G ident G ident).
Proof.
  intros g a b c d La Lb Lc Ld. rewrite (j1 _ _ (j3 _ _ (teqn_refl g))) by auto. rewrite rot2_E.
  unfold E4. rewrite ctr_ident by auto. assert (X := E13 n n g G G a b c d). rewrite X. unfold E3.
  apply ctr_ext. intros i Li. unfold E2. now rewrite ctr_ident.
Qed.
Lemma jac_beta : forall g, teqn n (jac4_2 p q co si (jac4_4 p q co si g)) (rot2 n g ident G ident G).
Proof.
  intros g a b c d La Lb Lc Ld. rewrite (j2 _ _ (j4 _ _ (teqn_refl g))) by auto. rewrite rot2_E.
  assert (X := E24 n n g G G a b c d). rewrite X. unfold E4. apply ctr_ext. intros i Li. unfold E3. rewrite ctr_ident by auto.
  unfold E2. apply ctr_ext. intros j Lj. unfold E1. now rewrite ctr_ident.
Qed.
End Jac.

(** the Givens matrices of opposite angles are inverse to each other *)
Lemma givens_inv : forall n p q co si, (p < n)%nat -> (q < n)%nat -> p <> q -> co * co + si * si = 1 ->
  meq n (mdot n (givens p q co si) (givens p q co (- si))) ident.
Proof.
  intros n p q co si Lp Lq N U x y Lx Ly. unfold mdot. rewrite psum_sumf.
  change (ctr n (givens p q co si x) (givens p q co (- si)) y = ident x y). rewrite <- jac_ctr by auto.
  unfold jac, givens, ident.
  rewrite !Nat.eqb_refl, (proj2 (Nat.eqb_neq p q) N), (proj2 (Nat.eqb_neq q p)) by congruence.
  destruct (Nat.eqb_spec x p) as [->|Xp]; [rewrite ?(proj2 (Nat.eqb_neq p q) N)|destruct (Nat.eqb_spec x q) as [->|Xq]];
  (destruct (Nat.eqb_spec y q) as [->|Yq]; [|destruct (Nat.eqb_spec y p) as [->|Yp]]); cbn [andb];
  rewrite ?(proj2 (Nat.eqb_neq p q) N), ?Nat.eqb_refl, ?(proj2 (Nat.eqb_neq q p) (not_eq_sym N)); cbn [andb];
  rewrite ?(proj2 (Nat.eqb_neq _ _) Xp), ?(proj2 (Nat.eqb_neq _ _) Xq), ?(proj2 (Nat.eqb_neq _ _) Yp), ?(proj2 (Nat.eqb_neq _ _) Yq); cbn [andb];
  try ring; try (rewrite <- U; ring).
Qed.
End Mat.
