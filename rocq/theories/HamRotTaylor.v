(** unitary_matrix as a truncated power series. *)
From Coq Require Import Ring_theory List ZArith NArith Bool Lia Arith.
From Verif Require Import Py Slater Alg PermLemmas HamSpec HamGen HamRes HamRot HamRotLemmas HamRotMat HamRotAssign HamRotHist.
Import ListNotations.

Section Taylor.
Context {K : CField}.
Local Open Scope cr_scope.
Add Ring K_ring27 : (rth K).
Notation mat := (nat -> nat -> K).

(** powers and terms of the exponential series of an n by n matrix *)
Fixpoint mpow (n : nat) (a : mat) (k : nat) : mat := match k with O => ident | S k => mdot n (mpow n a k) a end.
Definition term (n : nat) (a : mat) (k : nat) : mat := fun i j => mpow n a k i j * finv (nat_r (fact k)).
Definition partial (n : nat) (a : mat) (m : nat) : mat := fun i j => sumf (fun k => term n a k i j) (seq 0 m).
Definition mtr (a : mat) : mat := fun i j => a j i.

Hypothesis char0 : forall k, nat_r (K := K) (S k) <> 0.
Lemma finv_unique : forall a b : K, a * b = 1 -> finv a = b.
Proof.
  intros a b H. assert (N : a <> 0). { intros ->. apply (f_one K). rewrite <- H. ring. }
  assert (I := f_inv K a N). replace (finv a) with (finv a * (a * b)) by (rewrite H; ring).
  replace (finv a * (a * b)) with ((finv a * a) * b) by ring. rewrite I. ring.
Qed.
Lemma nat_r_add : forall a b, nat_r (K := K) (a + b) = nat_r a + nat_r b.
Proof. induction a as [|a IH]; intros b; cbn [nat_r Nat.add]; [ring|]. rewrite IH. ring. Qed.
Lemma nat_r_mul : forall a b, nat_r (K := K) (a * b) = nat_r a * nat_r b.
Proof. induction a as [|a IH]; intros b; cbn [nat_r Nat.mul]; [ring|]. rewrite nat_r_add, IH. ring. Qed.
Lemma nat_r_pos : forall k, (0 < k)%nat -> nat_r (K := K) k <> 0.
Proof. intros [|k] P; [lia|apply char0]. Qed.
Lemma fact_step : forall k, finv (nat_r (K := K) (fact (S k))) = finv (nat_r (fact k)) * finv (nat_r (S k)).
Proof.
  intros k. apply finv_unique. change (fact (S k)) with (S k * fact k)%nat. rewrite nat_r_mul.
  assert (A := f_inv K _ (char0 k)). assert (B := f_inv K _ (nat_r_pos _ (lt_O_fact k))).
  transitivity ((finv (nat_r (K := K) (S k)) * nat_r (S k)) * (finv (nat_r (K := K) (fact k)) * nat_r (fact k))); [ring|]. rewrite A, B. ring.
Qed.
Lemma term_step : forall n a k i j, mdot n (term n a k) a i j * finv (nat_r (S k)) = term n a (S k) i j.
Proof.
  intros n a k i j. unfold term at 2. cbn [mpow]. rewrite fact_step. unfold mdot, term. rewrite !psum_sumf.
  rewrite <- sumf_mul_r, <- sumf_mul_r. apply sumf_ext. intros x _. ring.
Qed.
Lemma term_1 : forall n a, meq n (term n a 1) a.
Proof.
  intros n a i j Hi Hj. unfold term. cbn [mpow fact Nat.mul Nat.add]. rewrite mdot_ident_l by auto.
  replace (finv (nat_r (K := K) 1)) with (1 : K); [ring|]. symmetry. apply finv_unique. cbn [nat_r]. ring.
Qed.
Lemma partial_step : forall n a m i j, partial n a (S m) i j = partial n a m i j + term n a m i j.
Proof. intros. unfold partial. rewrite seq_S, sumf_app. cbn [Nat.add]. rewrite sumf_cons. cbn. ring. Qed.

Variables (big huge : nat -> mat -> bool) (expm : nat -> mat -> mat).
(** the tests depend on the entries of the matrix only *)
Hypothesis big_ext : forall n a b, meq n a b -> big n a = big n b.
Hypothesis huge_ext : forall n a b, meq n a b -> huge n a = huge n b.

Lemma loop_taylor : forall n a fuel k u c, (1 <= k)%nat -> meq n u (partial n a k) -> meq n c (term n a k) ->
  (exists m, (k < m <= k + fuel)%nat /\ unitary_loop big huge expm n a fuel k u c = expm n a /\ huge n (term n a m) = true /\
             (forall j, (k <= j < m)%nat -> big n (term n a j) = true)) \/
  (exists m, (k <= m <= k + fuel)%nat /\ meq n (unitary_loop big huge expm n a fuel k u c) (partial n a m) /\
             (m = k + fuel \/ big n (term n a m) = false)%nat /\
             (forall j, (k <= j < m)%nat -> big n (term n a j) = true) /\ (forall j, (k < j <= m)%nat -> huge n (term n a j) = false)).
Proof.
  intros n a. induction fuel as [|fuel IH]; intros k u c P Hu Hc.
  - right. exists k. repeat split; auto; try lia. 
  - cbn [unitary_loop]. rewrite (big_ext n c _ Hc). destruct (big n (term n a k)) eqn:B.
    2:{ right. exists k. repeat split; auto; try lia. }
    assert (Hc' : meq n (fun i j => mdot n c a i j * finv (nat_r (S k))) (term n a (S k))).
    { intros i j Hi Hj. rewrite <- term_step. f_equal. apply mdot_meq; auto. apply meq_refl. }
    assert (Hu' : meq n (madd u c) (partial n a (S k))).
    { intros i j Hi Hj. unfold madd. rewrite Hu, Hc, partial_step by auto. reflexivity. }
    rewrite (huge_ext n _ _ Hc'). destruct (huge n (term n a (S k))) eqn:G.
    + left. exists (S k). repeat split; auto; try lia. intros j Hj. replace j with k by lia. auto.
    + destruct (IH (S k) (madd u c) _ ltac:(lia) Hu' Hc') as [(m & A1 & A2 & A3 & A4)|(m & A1 & A2 & A3 & A4 & A5)].
      * left. exists m. split; [lia|]. split; auto. split; auto. intros j Hj. destruct (Nat.eq_dec j k) as [->|]; auto. apply A4. lia.
      * right. exists m. split; [lia|]. split; auto. split; [destruct A3; [left; lia|auto]|]. split.
        -- intros j Hj. destruct (Nat.eq_dec j k) as [->|]; auto. apply A4. lia.
        -- intros j Hj. destruct (Nat.eq_dec j (S k)) as [->|]; auto. apply A5. lia.
Qed.

(** the whole function *)
Lemma U_taylor : forall n el,
  (exists m, (1 < m <= 100)%nat /\ U big huge expm n el = expm n (antiherm n el) /\ huge n (term n (antiherm n el) m) = true /\
             (forall j, (1 <= j < m)%nat -> big n (term n (antiherm n el) j) = true)) \/
  (exists m, (1 <= m <= 100)%nat /\ meq n (U big huge expm n el) (partial n (antiherm n el) m) /\
             (m = 100 \/ big n (term n (antiherm n el) m) = false)%nat /\
             (forall j, (1 <= j < m)%nat -> big n (term n (antiherm n el) j) = true) /\
             (forall j, (1 < j <= m)%nat -> huge n (term n (antiherm n el) j) = false)).
Proof.
  intros n el. unfold U. apply (loop_taylor n (antiherm n el) 99 1); auto.
  - intros i j _ _. unfold partial. cbn [seq]. rewrite sumf_cons. cbn. unfold term. cbn [mpow fact].
    replace (finv (nat_r (K := K) 1)) with (1 : K); [ring|]. symmetry. apply finv_unique. cbn [nat_r]. ring.
  - apply meq_sym, term_1.
Qed.

(** opposite parameters give the transposed matrix *)
Hypothesis big_tr : forall n a, big n (mtr a) = big n a.
Hypothesis huge_tr : forall n a, huge n (mtr a) = huge n a.
Hypothesis expm_tr : forall n a b, meq n b (mtr a) -> meq n (expm n b) (mtr (expm n a)).

Lemma mdot_tr : forall n a b i j, mtr (mdot n a b) i j = mdot n (mtr b) (mtr a) i j.
Proof. intros. unfold mtr, mdot. rewrite !psum_sumf. apply sumf_ext. intros. ring. Qed.
Lemma mdot_comm_pow : forall n a k, meq n (mdot n a (mpow n a k)) (mdot n (mpow n a k) a).
Proof.
  intros n a. induction k as [|k IH].
  - cbn [mpow]. eapply meq_trans; [apply mdot_ident_r|]. apply meq_sym, mdot_ident_l.
  - cbn [mpow]. intros i j Hi Hj. rewrite <- mdot_assoc. apply mdot_meq; auto. apply meq_refl.
Qed.
Lemma mpow_tr : forall n a b k, meq n b (mtr a) -> meq n (mpow n b k) (mtr (mpow n a k)).
Proof.
  intros n a b k E. induction k as [|k IH].
  - intros i j Hi Hj. unfold mtr. cbn [mpow]. unfold ident. now rewrite Nat.eqb_sym.
  - cbn [mpow]. apply meq_trans with (mtr (mdot n a (mpow n a k))).
    + intros i j Hi Hj. rewrite mdot_tr. apply mdot_meq; auto.
    + intros i j Hi Hj. unfold mtr. now apply mdot_comm_pow.
Qed.
Lemma loop_tr : forall n a b fuel k u c u' c', meq n b (mtr a) -> meq n c (term n a k) ->
  meq n u' (mtr u) -> meq n c' (mtr c) ->
  meq n (unitary_loop big huge expm n b fuel k u' c') (mtr (unitary_loop big huge expm n a fuel k u c)).
Proof.
  intros n a b. induction fuel as [|fuel IH]; intros k u c u' c' E T Hu Hc; auto.
  cbn [unitary_loop]. rewrite (big_ext n c' _ Hc), big_tr. destruct (big n c); auto.
  assert (T' : meq n (fun i j => mdot n c a i j * finv (nat_r (S k))) (term n a (S k))).
  { intros i j Hi Hj. rewrite <- term_step. f_equal. apply mdot_meq; auto. apply meq_refl. }
  assert (Hc' : meq n (fun i j => mdot n c' b i j * finv (nat_r (S k))) (mtr (fun i j => mdot n c a i j * finv (nat_r (S k))))).
  { intros i j Hi Hj. unfold mtr. f_equal. transitivity (mdot n (mtr c) (mtr a) i j); [apply mdot_meq; auto|].
    rewrite <- mdot_tr. unfold mtr.
    transitivity (mdot n a (term n a k) j i); [apply mdot_meq; auto; apply meq_refl|].
    transitivity (mdot n (term n a k) a j i); [|symmetry; apply mdot_meq; auto; apply meq_refl].
    assert (Q := mdot_comm_pow n a k j i Hj Hi). unfold mdot, term in *. rewrite psum_sumf in *. rewrite psum_sumf in *.
    rewrite (sumf_ext _ (fun x => (a j x * mpow n a k x i) * finv (nat_r (fact k)))) by (intros; ring).
    rewrite sumf_mul_r, Q, <- sumf_mul_r. apply sumf_ext. intros. ring. }
  rewrite (huge_ext n _ _ Hc'), huge_tr. destruct (huge n _).
  - now apply expm_tr.
  - apply IH; auto. intros i j Hi Hj. unfold madd, mtr. rewrite Hu, Hc by auto. reflexivity.
Qed.
Lemma fill_opp : forall n el x y, fill_triu n (map ropp el) x y = - fill_triu (K := K) n el x y.
Proof.
  intros n el. unfold fill_triu. generalize (triu_indices n). intros l.
  assert (X : forall l el (m m' : mat), (forall x y, m' x y = - m x y) -> forall x y,
    fold_left (fun m p => upd2 m (fst (fst p)) (snd (fst p)) (snd p)) (combine l (map ropp el)) m' x y
    = - fold_left (fun m p => upd2 m (fst (fst p)) (snd (fst p)) (snd p)) (combine l el) m x y).
  { clear. induction l as [|p l IH]; intros [|e el] m m' H x y; cbn [combine map fold_left]; auto.
    apply IH. intros i j. unfold upd2. cbn [fst snd]. destruct (_ && _)%bool; auto. }
  apply X. intros. ring.
Qed.
Lemma antiherm_opp : forall n el, meq n (antiherm n (map ropp el)) (mtr (antiherm (K := K) n el)).
Proof.
  intros n el i j _ _. unfold mtr. rewrite (antiherm_anti n el i j). unfold antiherm. rewrite fill_opp.
  destruct (Nat.leb j i); [rewrite fill_opp|]; ring.
Qed.
Lemma U_tr : forall n el, meq n (U big huge expm n (map ropp el)) (mtr (U big huge expm n el)).
Proof.
  intros n el. unfold U. apply (loop_tr n (antiherm n el) (antiherm n (map ropp el)) 99 1).
  - apply antiherm_opp.
  - apply meq_sym, term_1.
  - intros i j _ _. unfold mtr, ident. now rewrite Nat.eqb_sym.
  - apply antiherm_opp.
Qed.
End Taylor.
