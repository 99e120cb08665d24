From Coq Require Import List ZArith NArith Arith Bool Lia.
From Verif Require Import Py BitSpec BitLemmas Fock FockLemmas Slater SlaterBits SlaterBits2 SignLemmas Alg FockInner OrbSpec OrbLemmas.
Import ListNotations.

Section Rot.
Context {K : CRing}.
Local Open Scope cr_scope.
Add Ring K_ring85 : (rth K).
(** the creation operator of the orbital [sum_j C k j phi_j] acting on the overlaps *)
Definition rowf (C : nat -> nat -> K) (cols : list nat) (k : nat) (f : N -> K) : N -> K :=
  fun n => sumf (fun j => C k j * opf (Cre j) f n) cols.
Lemma through_det_cons : forall C cols k t f, through f (det_of C cols (k :: t)) = through (rowf C cols k f) (det_of C cols t).
Proof.
  intros. unfold det_of. cbn [fold_right]. rewrite through_comb. apply through_ext. intros n. unfold combf, rowf. rewrite sumf_map. apply sumf_ext. intros j _. reflexivity.
Qed.
Definition ofrows (rows : list nat) : N := fold_right (fun k n => flip n k) 0%N rows.
Lemma ofrows_bit : forall rows i, NoDup rows -> bit (ofrows rows) i = existsb (Nat.eqb i) rows.
Proof.
  induction rows as [|k rows IH]; intros i D; [cbn [ofrows fold_right existsb]; unfold bit; apply N.bits_0|]. inversion D as [|? ? D1 D2]; subst. cbn [ofrows fold_right existsb]. fold (ofrows rows).
  rewrite bit_flip, IH by auto. rewrite (Nat.eqb_sym i k). destruct (Nat.eqb_spec k i) as [->|]; [|now destruct (existsb _ _)].
  assert (X : existsb (Nat.eqb i) rows = false); [|now rewrite X].
  apply not_true_is_false. intros X. apply existsb_exists in X as (y & Hy & E). apply Nat.eqb_eq in E. subst. auto.
Qed.
Lemma occupies_NoDup : forall sd rows, occupies sd rows -> NoDup rows.
Proof.
  intros sd rows [_ H]. apply (NoDup_nth rows 0%nat). intros i j Hi Hj E. destruct (Nat.lt_trichotomy i j) as [L|[L|L]]; auto; [specialize (H i j)|specialize (H j i)]; lia.
Qed.
Lemma occupies_ofrows : forall sd rows, occupies sd rows -> ofrows rows = sd.
Proof.
  intros sd rows H. apply bit_ext. intros i. rewrite ofrows_bit by (eapply occupies_NoDup; eauto). destruct H as [H _].
  destruct (existsb (Nat.eqb i) rows) eqn:E.
  - apply existsb_exists in E as (y & Hy & E). apply Nat.eqb_eq in E. subst. symmetry. now apply H.
  - symmetry. apply not_true_is_false. intros B. apply H in B. assert (existsb (Nat.eqb i) rows = true); [|congruence]. apply existsb_exists. exists i. split; auto. apply Nat.eqb_refl.
Qed.
Definition ascending (rows : list nat) : Prop := forall a b, (a < b < length rows)%nat -> (nth a rows 0 < nth b rows 0)%nat.
Lemma ascending_cons : forall k t, ascending (k :: t) -> ascending t /\ forall i, In i t -> (k < i)%nat.
Proof.
  intros k t H. split.
  - intros a b L. specialize (H (S a) (S b)). cbn [nth length] in H. apply H. lia.
  - intros i Hi. apply (In_nth _ _ 0%nat) in Hi as (x & Hx & <-). specialize (H 0%nat (S x)). cbn [nth length] in H. apply H. lia.
Qed.
Lemma ascending_NoDup : forall rows, ascending rows -> NoDup rows.
Proof.
  intros rows H. apply (NoDup_nth rows 0%nat). intros i j Hi Hj E. destruct (Nat.lt_trichotomy i j) as [L|[L|L]]; auto; [specialize (H i j)|specialize (H j i)]; lia.
Qed.
Lemma par_above : forall n k, (forall j, (j < k)%nat -> bit n j = false) -> par n k = false.
Proof.
  intros n k H. unfold par, nbelow. assert (E : filter (bit n) (seq 0 k) = []); [|now rewrite E].
  assert (G : forall l, (forall j, In j l -> bit n j = false) -> filter (bit n) l = []).
  { induction l as [|a l IH]; intros G; [reflexivity|]. cbn [filter]. rewrite (G a) by (now left). apply IH. intros. apply G. now right. }
  apply G. intros j Hj. apply in_seq in Hj. apply H. lia.
Qed.
(** a transformation of the overlaps that turns creation operators into those of the new orbitals *)
Lemma intertwine : forall (U : (N -> K) -> N -> K) C cols rows,
  (forall f, U f 0%N = f 0%N) ->
  (forall k f n, In k rows -> opf (Cre k) (U f) n = U (rowf C cols k f) n) ->
  ascending rows -> forall f, through f (det_of C cols rows) = U f (ofrows rows).
Proof.
  intros U C cols rows U0 UC A. revert U0 UC A. induction rows as [|k t IH]; intros U0 UC A f.
  - cbn [det_of fold_right ofrows]. rewrite through_one. symmetry. apply U0.
  - apply ascending_cons in A as [A L]. rewrite through_det_cons, IH; auto; [|intros k' f' n Hk; apply UC; now right].
    rewrite <- UC by (now left). unfold opf, Cre. cbn [fst snd].
    assert (B : forall i, (i <= k)%nat -> bit (ofrows t) i = false).
    { intros i Hi. rewrite ofrows_bit by (now apply ascending_NoDup). apply not_true_is_false. intros X. apply existsb_exists in X as (y & Hy & E). apply Nat.eqb_eq in E. apply L in Hy. lia. }
    rewrite B by lia. cbn [Bool.eqb]. rewrite par_above by (intros; apply B; lia). cbn [sg ofrows fold_right]. fold (ofrows t). ring.
Qed.

(** commutation of operators *)
Lemma opf_anti : forall d e i j (f : N -> K) n, i <> j -> opf (d, i) (opf (e, j) f) n = - opf (e, j) (opf (d, i) f) n.
Proof.
  intros d e i j f n H. unfold opf. cbn [fst snd]. rewrite !bit_flip_neq, !par_flip by auto. rewrite (flip_comm n j i).
  destruct (Bool.eqb (bit n i) d), (Bool.eqb (bit n j) e); try ring.
  destruct (Nat.ltb_spec i j), (Nat.ltb_spec j i); try lia; destruct (par n i), (par n j); cbn [xorb sg]; ring.
Qed.
Lemma opf_neg : forall o (f : N -> K) n, opf o (fun m => - f m) n = - opf o f n.
Proof. intros. unfold opf. destruct (Bool.eqb _ _); ring. Qed.
Lemma opf_sub : forall o (f g : N -> K) n, opf o (fun m => f m - g m) n = opf o f n - opf o g n.
Proof. intros. unfold opf. destruct (Bool.eqb _ _); ring. Qed.
Lemma opf_lin : forall o (f g h : N -> K) a b n, opf o (fun m => f m + a * g m + b * h m) n = opf o f n + a * opf o g n + b * opf o h n.
Proof. intros. unfold opf. destruct (Bool.eqb _ _); ring. Qed.
(** an even operator commutes *)
Lemma opf_gen : forall d k p q (f : N -> K) n, k <> p -> k <> q -> opf (d, k) (gen p q f) n = gen p q (opf (d, k) f) n.
Proof.
  intros d k p q f n Hp Hq. unfold gen. rewrite opf_sub.
  assert (G : forall a b, k <> a -> k <> b -> opf (d, k) (opf (Ann a) (opf (Cre b) f)) n = opf (Ann a) (opf (Cre b) (opf (d, k) f)) n).
  { intros a b Ha Hb. unfold Ann, Cre. rewrite opf_anti by auto. rewrite <- opf_neg. apply opf_ext. intros m. rewrite opf_anti by auto. ring. }
  now rewrite !G by auto.
Qed.
Lemma opf_rotf : forall d k p q c s (f : N -> K) n, k <> p -> k <> q -> opf (d, k) (rotf p q c s f) n = rotf p q c s (opf (d, k) f) n.
Proof.
  intros d k p q c s f n Hp Hq. unfold rotf. rewrite opf_lin, !opf_gen by auto. do 2 f_equal. apply gen_ext. intros. now apply opf_gen.
Qed.
Lemma gen_lin : forall p q (f g : N -> K) a b n, gen p q (fun m => a * f m + b * g m) n = a * gen p q f n + b * gen p q g n.
Proof. intros. unfold gen, opf. cbn [fst snd Ann Cre]. repeat destruct (Bool.eqb _ _); ring. Qed.
Lemma rotf_lin : forall p q c s (f g : N -> K) a b n, rotf p q c s (fun m => a * f m + b * g m) n = a * rotf p q c s f n + b * rotf p q c s g n.
Proof.
  intros. unfold rotf. rewrite (gen_ext p q (gen p q (fun m => a * f m + b * g m)) (fun m => a * gen p q f m + b * gen p q g m)) by (intros; apply gen_lin).
  rewrite !gen_lin. ring.
Qed.
(** the rotated creation operators *)
Lemma rotf_cre : forall p q c s (f : N -> K) n, (p < q)%nat -> c * c + s * s = 1 ->
  opf (Cre p) (rotf p q c s f) n = rotf p q c s (fun m => c * opf (Cre p) f m + s * opf (Cre q) f m) n /\
  opf (Cre q) (rotf p q c s f) n = rotf p q c s (fun m => - s * opf (Cre p) f m + c * opf (Cre q) f m) n.
Proof.
  intros p q c s f n H N1.
  assert (Lpq : Nat.ltb p q = true) by (apply Nat.ltb_lt; auto). assert (Lqp : Nat.ltb q p = false) by (apply Nat.ltb_ge; lia).
  assert (Lp : Nat.ltb p p = false) by apply Nat.ltb_irrefl. assert (Lq : Nat.ltb q q = false) by apply Nat.ltb_irrefl.
  assert (E1 : Nat.eqb p q = false) by (apply Nat.eqb_neq; lia). assert (E2 : Nat.eqb q p = false) by (apply Nat.eqb_neq; lia).
  assert (E3 : Nat.eqb p p = true) by apply Nat.eqb_refl. assert (E4 : Nat.eqb q q = true) by apply Nat.eqb_refl.
  split; unfold opf at 1; unfold Cre; cbn [fst snd]; rewrite !rotf_value by auto; unfold opf; cbn [fst snd]; rewrite !par_flip, !bit_flip;
    rewrite Lpq, Lqp, Lp, Lq, E1, E2, E3, E4; rewrite ?(flip_comm n q p), ?flip_flip, ?(flip_comm (flip n p) q p), ?flip_flip;
    destruct (bit n p), (bit n q), (par n p), (par n q); cbn [xorb Bool.eqb negb sg];
    first [ring | match goal with |- ?e * ?x = _ => transitivity (e * (c * c + s * s) * x); [rewrite N1; ring|ring] end].
Qed.
(** rows of the rotation matrix *)
Lemma rowf_single : forall (C : nat -> nat -> K) m k (f : N -> K) n, (k < m)%nat -> (forall j, (j < m)%nat -> C k j = if Nat.eqb k j then 1 else 0) ->
  rowf C (seq 0 m) k f n = opf (Cre k) f n.
Proof.
  intros C m k f n H E. unfold rowf. rewrite (sumf_single _ _ k); [rewrite E, Nat.eqb_refl by auto; ring|apply seq_NoDup|apply in_seq; lia|].
  intros y Hy Hk. apply in_seq in Hy. rewrite E by lia. rewrite (proj2 (Nat.eqb_neq k y)) by auto. ring.
Qed.
Lemma rowf_pair : forall (C : nat -> nat -> K) m k a b x y (f : N -> K) n, (a < m)%nat -> (b < m)%nat -> a <> b ->
  (forall j, (j < m)%nat -> C k j = if Nat.eqb j a then x else if Nat.eqb j b then y else 0) ->
  rowf C (seq 0 m) k f n = x * opf (Cre a) f n + y * opf (Cre b) f n.
Proof.
  intros C m k a b x y f n Ha Hb D E. unfold rowf. rewrite (sumf_support _ [a; b]).
  - rewrite !sumf_cons. rewrite !E by auto. rewrite !Nat.eqb_refl. rewrite (proj2 (Nat.eqb_neq b a)) by auto. cbn [sumf fold_right]. unfold sumf; cbn. ring.
  - apply seq_NoDup.
  - repeat constructor; cbn [In]; intuition.
  - intros z [<-|[<-|[]]]; apply in_seq; lia.
  - intros z Hz. apply in_seq in Hz. rewrite E by lia. cbn [In]. destruct (Nat.eqb_spec z a); [auto|]. destruct (Nat.eqb_spec z b); [auto|]. left. ring.
Qed.
Lemma rotf_0 : forall p q c s (f : N -> K), (p < q)%nat -> rotf p q c s f 0%N = f 0%N.
Proof. intros. rewrite rotf_value by auto. assert (E : forall i, bit 0 i = false) by (intros; unfold bit; apply N.bits_0). now rewrite !E. Qed.
(** two rotations of different orbitals *)
Lemma gen_comm : forall p q p' q' (f : N -> K) n, p <> p' -> p <> q' -> q <> p' -> q <> q' -> gen p q (gen p' q' f) n = gen p' q' (gen p q f) n.
Proof.
  intros p q p' q' f n H1 H2 H3 H4.
  transitivity (opf (false, p) (opf (true, q) (gen p' q' f)) n - opf (false, q) (opf (true, p) (gen p' q' f)) n); [reflexivity|].
  rewrite (opf_ext (false, p) (opf (true, q) (gen p' q' f)) (gen p' q' (opf (true, q) f))) by (intros; apply opf_gen; auto).
  rewrite (opf_ext (false, q) (opf (true, p) (gen p' q' f)) (gen p' q' (opf (true, p) f))) by (intros; apply opf_gen; auto).
  rewrite !opf_gen by auto.
  rewrite (gen_ext p' q' (gen p q f) (fun m => 1 * opf (false, p) (opf (true, q) f) m + - (1) * opf (false, q) (opf (true, p) f) m)) by (intros; unfold gen, Ann, Cre; ring).
  rewrite gen_lin. ring.
Qed.
Lemma gen_sum3 : forall p q (f g h : N -> K) a b n, gen p q (fun m => f m + a * g m + b * h m) n = gen p q f n + a * gen p q g n + b * gen p q h n.
Proof.
  intros. rewrite (gen_ext p q _ (fun m => 1 * f m + 1 * (a * g m + b * h m))) by (intros; ring). rewrite gen_lin, gen_lin. ring.
Qed.
Lemma rotf_gen : forall p q c s p' q' (f : N -> K) n, p <> p' -> p <> q' -> q <> p' -> q <> q' -> rotf p q c s (gen p' q' f) n = gen p' q' (rotf p q c s f) n.
Proof.
  intros. unfold rotf. rewrite gen_sum3. rewrite (gen_comm p q p' q' f) by auto. do 2 f_equal.
  rewrite (gen_ext p q (gen p q (gen p' q' f)) (gen p' q' (gen p q f))) by (intros; apply gen_comm; auto). now apply gen_comm.
Qed.
Lemma rotf_comm : forall p q p' q' c s c' s' (f : N -> K) n, p <> p' -> p <> q' -> q <> p' -> q <> q' ->
  rotf p q c s (rotf p' q' c' s' f) n = rotf p' q' c' s' (rotf p q c s f) n.
Proof.
  intros. unfold rotf at 2.
  rewrite (rotf_ext p q c s _ (fun m => 1 * f m + 1 * (s' * gen p' q' f m + (1 - c') * gen p' q' (gen p' q' f) m))) by (intros; ring).
  rewrite !rotf_lin. rewrite !rotf_gen by auto. rewrite (gen_ext p' q' (rotf p q c s (gen p' q' f)) (gen p' q' (rotf p q c s f))) by (intros; apply rotf_gen; auto).
  unfold rotf at 4. ring.
Qed.
(** angles add *)
Lemma rotf_rotf : forall p q c s c' s' (f : N -> K) n, (p < q)%nat ->
  rotf p q c s (rotf p q c' s' f) n = rotf p q (c * c' - s * s') (s * c' + c * s') f n.
Proof.
  intros p q c s c' s' f n H.
  assert (Lpq : Nat.ltb p q = true) by (apply Nat.ltb_lt; auto). assert (Lqp : Nat.ltb q p = false) by (apply Nat.ltb_ge; lia).
  assert (Lp : Nat.ltb p p = false) by apply Nat.ltb_irrefl. assert (Lq : Nat.ltb q q = false) by apply Nat.ltb_irrefl.
  assert (E1 : Nat.eqb p q = false) by (apply Nat.eqb_neq; lia). assert (E2 : Nat.eqb q p = false) by (apply Nat.eqb_neq; lia).
  assert (E3 : Nat.eqb p p = true) by apply Nat.eqb_refl. assert (E4 : Nat.eqb q q = true) by apply Nat.eqb_refl.
  rewrite !rotf_value by auto. rewrite !par_flip, !bit_flip. rewrite Lpq, Lqp, Lp, Lq, E1, E2, E3, E4.
  rewrite ?(flip_comm (flip n p) q p), ?flip_flip.
  destruct (bit n p), (bit n q), (par n p), (par n q); cbn [xorb Bool.eqb negb sg]; ring.
Qed.
End Rot.
