From Coq Require Import List ZArith NArith Arith Lia Bool Permutation.
From Verif Require Import Py BitSpec BitLemmas Slater SlaterBits SlaterBits2 Fock FockLemmas SignLemmas SignVec Alg Combos
  PermLemmas HamSpec HamGen HamRes FockInner HamLemmas HamSC SpinSpec HamSpin Density DensSpec.
Import ListNotations.

(** ** signs *)
Lemma transp_one : forall sh a, transpositions sh [a] = rank sh a.
Proof.
  intros sh a. unfold transpositions, rank. induction sh as [|x sh IH]; auto. cbn [list_prod map app filter fst snd].
  destruct (Nat.ltb x a); cbn [length]; auto.
Qed.
Lemma transp_two : forall sh a b, transpositions sh [a; b] = rank sh a + rank sh b.
Proof.
  intros sh a b. unfold transpositions, rank. induction sh as [|x sh IH]; auto. cbn [list_prod map app filter fst snd].
  destruct (Nat.ltb x a), (Nat.ltb x b); cbn [length]; lia.
Qed.
Lemma rank_par : forall m n a, Nat.odd (rank (shared_orbs m n) a) = par (N.land m n) a.
Proof. intros. unfold shared_orbs, par. change (shared_sd m n) with (N.land m n). now rewrite rank_occ_nbelow. Qed.
Lemma odd_plus : forall a b, Nat.odd (a + b) = xorb (Nat.odd a) (Nat.odd b).
Proof. intros. apply Nat.odd_add. Qed.

Lemma V_sign : forall m n a b, fst (diff_orbs m n) = [a] -> snd (diff_orbs m n) = [b] ->
  V m n a b = sgn (Nat.odd (transpositions (shared_orbs m n) [a] + transpositions (shared_orbs m n) [b])).
Proof.
  intros m n a b E1 E2.
  assert (D1 : forall x, bit m x = true -> bit n x = false -> x = a).
  { intros x P Q. assert (I : In x (fst (diff_orbs m n))) by (apply diff_orbs_In1; auto). rewrite E1 in I. destruct I as [->|[]]; auto. }
  assert (D2 : forall x, bit n x = true -> bit m x = false -> x = b).
  { intros x P Q. assert (I : In x (snd (diff_orbs m n))) by (apply diff_orbs_In2; auto). rewrite E2 in I. destruct I as [->|[]]; auto. }
  assert (A : bit m a = true /\ bit n a = false) by (apply diff_orbs_In1; rewrite E1; now left).
  assert (B : bit n b = true /\ bit m b = false) by (apply diff_orbs_In2; rewrite E2; now left).
  assert (LL : forall x, bit (N.land m n) x = (bit m x && bit n x)%bool) by (intros; apply N.land_spec).
  rewrite !transp_one, odd_plus, !rank_par. unfold V.
  change (applys [Ann a] ?s) with (apply1 (Ann a) s). change (applys [Ann b] ?s) with (apply1 (Ann b) s).
  rewrite !apply1_ann. destruct A as [A A'], B as [B B']. rewrite A, B, !xorb_false_l. cbn [inner].
  rewrite (par_ext m (N.land m n) a), (par_ext n (N.land m n) b).
  - replace (flip m a) with (flip n b); [now rewrite N.eqb_refl|].
    apply bit_ext. intros x. rewrite !bit_flip.
    destruct (Nat.eqb_spec b x), (Nat.eqb_spec a x); subst; rewrite ?A, ?B, ?A', ?B'; try congruence; auto.
    rewrite !xorb_false_r. destruct (bit m x) eqn:P, (bit n x) eqn:Q; auto.
    + specialize (D1 x P Q). congruence.
    + specialize (D2 x Q P). congruence.
  - intros j L. rewrite LL. destruct (bit n j) eqn:Q; [|now rewrite andb_false_r]. destruct (bit m j) eqn:P; auto.
    specialize (D2 j Q P). lia.
  - intros j L. rewrite LL. destruct (bit m j) eqn:P; [|reflexivity]. destruct (bit n j) eqn:Q; auto.
    specialize (D1 j P Q). lia.
Qed.

Lemma ann_pair : forall m r a b, a < b -> bit m a = true -> bit m b = true ->
  (forall x, x <> a -> x <> b -> bit m x = bit r x) -> bit r a = false -> bit r b = false ->
  applys [Ann a; Ann b] (Some (false, m)) = Some (xorb (par r a) (par r b), r).
Proof.
  intros m r a b L A B H Ra Rb.
  change (applys [Ann a; Ann b] ?s) with (apply1 (Ann b) (apply1 (Ann a) s)).
  rewrite (apply1_ann a), A, xorb_false_l. rewrite apply1_ann, bit_flip, B, (proj2 (Nat.eqb_neq a b)) by lia. cbn [xorb].
  rewrite (par_ext m r a), (par_ext (flip m a) r b).
  - do 2 f_equal. apply bit_ext. intros x. rewrite !bit_flip.
    destruct (Nat.eqb_spec a x), (Nat.eqb_spec b x); subst; try lia; rewrite ?A, ?B, ?Ra, ?Rb; auto.
    rewrite !xorb_false_r. apply H; auto.
  - intros j Lj. rewrite bit_flip. destruct (Nat.eqb_spec a j); subst; [now rewrite A, Ra|].
    rewrite xorb_false_r. apply H; lia.
  - intros j Lj. apply H; lia.
Qed.

Lemma diff1_lt : forall m n a b, fst (diff_orbs m n) = [a; b] -> a < b.
Proof.
  intros m n a b E. pose proof (occ_indices_increasing (Some (N.land (N.lxor m n) m))) as I.
  change (increasing (fst (diff_orbs m n))) in I. rewrite E in I. inversion I as [|? ? _ F]; subst.
  inversion F; auto.
Qed.
Lemma diff2_lt : forall m n a b, snd (diff_orbs m n) = [a; b] -> a < b.
Proof.
  intros m n a b E. pose proof (occ_indices_increasing (Some (N.land (N.lxor m n) n))) as I.
  change (increasing (snd (diff_orbs m n))) in I. rewrite E in I. inversion I as [|? ? _ F]; subst.
  inversion F; auto.
Qed.
Lemma W_sign : forall m n a b c d, fst (diff_orbs m n) = [a; b] -> snd (diff_orbs m n) = [c; d] ->
  W m n a b c d = sgn (Nat.odd (transpositions (shared_orbs m n) [a; b] + transpositions (shared_orbs m n) [c; d])).
Proof.
  intros m n a b c d E1 E2.
  assert (D1 : forall x, (bit m x = true /\ bit n x = false) <-> x = a \/ x = b).
  { intros x. rewrite <- diff_orbs_In1, E1. cbn [In]. intuition congruence. }
  assert (D2 : forall x, (bit n x = true /\ bit m x = false) <-> x = c \/ x = d).
  { intros x. rewrite <- diff_orbs_In2, E2. cbn [In]. intuition congruence. }
  assert (L : forall x, bit (N.land m n) x = (bit m x && bit n x)%bool) by (intros; apply N.land_spec).
  rewrite !transp_two, !odd_plus, !rank_par. unfold W.
  rewrite (ann_pair m (N.land m n) a b), (ann_pair n (N.land m n) c d).
  - cbn [inner]. rewrite N.eqb_refl. f_equal.
  - eapply diff2_lt; eauto.
  - apply D2; auto.
  - apply D2; auto.
  - intros x H1 H2. rewrite L. destruct (bit n x) eqn:Q; [|now rewrite andb_false_r]. destruct (bit m x) eqn:P; auto.
    assert (x = c \/ x = d) by (apply D2; auto). tauto.
  - rewrite L. destruct (proj2 (D2 c) (or_introl eq_refl)) as [_ ->]. auto.
  - rewrite L. destruct (proj2 (D2 d) (or_intror eq_refl)) as [_ ->]. auto.
  - eapply diff1_lt; eauto.
  - apply D1; auto.
  - apply D1; auto.
  - intros x H1 H2. rewrite L. destruct (bit m x) eqn:P; [|reflexivity]. destruct (bit n x) eqn:Q; auto.
    assert (x = a \/ x = b) by (apply D1; auto). tauto.
  - rewrite L. destruct (proj2 (D1 a) (or_introl eq_refl)) as [_ ->]. apply andb_false_r.
  - rewrite L. destruct (proj2 (D1 b) (or_intror eq_refl)) as [_ ->]. apply andb_false_r.
Qed.

Section Ev.
Context {K : CRing}.
Local Open Scope cr_scope.
Add Ring K_ring37 : (rth K).

Lemma sgnr_sgn : forall b, sgnr (K := K) (sgn b) = if b then - (1) else 1.
Proof. now intros []. Qed.

(** a two-body sum as a sum over ordered pairs, without assuming any symmetry *)
Definition sym2 (two : nat -> nat -> nat -> nat -> K) i j p q := two i j p q + two j i q p.
Lemma sym2_sym : forall two, two_sym (sym2 two).
Proof. intros two i j p q. unfold sym2. ring. Qed.
Lemma two_body_sym2 : forall k (two : nat -> nat -> nat -> nat -> K) m n,
  two_body k two m n = pair_body k (sym2 two) m n.
Proof.
  intros k two m n. unfold two_body.
  assert (E1 : forall i j, sumf (fun p => sumf (fun q => two i j p q * sgnr (melem m [Ann p; Ann q; Cre j; Cre i] n)) (seq 0 k)) (seq 0 k)
     = sumf (fun pq => G two m n i j (fst pq) (snd pq)) (pairs (seq 0 k))).
  { intros i j. rewrite (sum2_pairs (fun p q => two i j p q * sgnr (melem m [Ann p; Ann q; Cre j; Cre i] n))).
    rewrite (sumf_zero (fun i0 => two i j i0 i0 * _)).
    2:{ intros p _. rewrite melem2_inner, inner_twice_r, sgnr_0. ring. }
    transitivity (sumf (fun pq => G two m n i j (fst pq) (snd pq)) (pairs (seq 0 k)) + 0); [|ring].
    f_equal. apply sumf_ext. intros [p q] Hp. apply pairs_In in Hp as (_ & _ & L); [|apply increasing_seq].
    cbn [fst snd]. rewrite !melem2_inner. unfold G, W. rewrite (inner_swap_r p q) by lia.
    rewrite sgnr_opp by apply inner_values. ring. }
  transitivity (sumf (fun i => sumf (fun j => sumf (fun pq => G two m n i j (fst pq) (snd pq)) (pairs (seq 0 k))) (seq 0 k)) (seq 0 k)).
  { apply sumf_ext. intros i _. apply sumf_ext. intros j _. apply E1. }
  rewrite (sum2_pairs (fun i j => sumf (fun pq => G two m n i j (fst pq) (snd pq)) (pairs (seq 0 k)))).
  rewrite (sumf_zero (fun i => sumf _ _)).
  2:{ intros i _. apply sumf_zero. intros pq _. apply G_zero. apply inner_twice_l. }
  unfold pair_body, quads. rewrite Alg.sumf_prod.
  match goal with |- ?a + 0 = ?b => transitivity a; [ring|] end.
  apply sumf_ext. intros [i j] Hp. apply pairs_In in Hp as (_ & _ & L); [|apply increasing_seq].
  unfold Gq. cbn [fst snd]. rewrite <- sumf_add. apply sumf_ext. intros [p q] _. cbn [fst snd].
  unfold G, sym2. replace (W m n j i p q) with (- W m n i j p q)%Z by (symmetry; apply inner_swap_l; lia).
  rewrite sgnr_opp by apply W_values. ring.
Qed.
End Ev.
