From Coq Require Import List ZArith NArith Arith Lia Bool Permutation.
From Verif Require Import Py BitSpec BitLemmas Slater SlaterBits SlaterBits2 Fock FockLemmas SignLemmas SignVec Alg Combos
  PermLemmas HamSpec HamGen HamRes FockInner HamLemmas HamSC HamMain Density DensSpec DensLemmas.
Import ListNotations.

Section Calls.
Context {K : CRing}.
Local Open Scope cr_scope.
Add Ring K_ring38 : (rth K).

(** total weight added by a list of calls, seen through a linear functional *)
Definition ev1 (w : nat -> nat -> K) (es : list (dcall K)) : K :=
  sumf (fun e => match e with One i j v => w i j * v | Two _ _ _ _ _ => 0 end) es.
Definition ev2 (w : nat -> nat -> nat -> nat -> K) (es : list (dcall K)) : K :=
  sumf (fun e => match e with One _ _ _ => 0 | Two i j k l v => w i j k l * v end) es.

Lemma ev1_app : forall w a b, ev1 w (a ++ b) = ev1 w a + ev1 w b.
Proof. intros. unfold ev1. apply sumf_app. Qed.
Lemma ev2_app : forall w a b, ev2 w (a ++ b) = ev2 w a + ev2 w b.
Proof. intros. unfold ev2. apply sumf_app. Qed.
Lemma ev1_cons : forall w e es, ev1 w (e :: es) = ev1 w [e] + ev1 w es.
Proof. intros. apply (ev1_app w [e] es). Qed.
Lemma ev2_cons : forall w e es, ev2 w (e :: es) = ev2 w [e] + ev2 w es.
Proof. intros. apply (ev2_app w [e] es). Qed.

Lemma same_ev1 : forall w v sh, ev1 w (same_calls v sh) = sumf (fun i => w i i) sh * v.
Proof.
  intros w v sh. induction sh as [|i sh IH]; [cbn; ring|]. cbn [same_calls]. rewrite ev1_cons, ev1_app, IH, sumf_cons.
  replace (ev1 w (flat_map _ sh)) with (0 : K).
  - unfold ev1. cbn [sumf fold_right]. ring.
  - symmetry. unfold ev1. rewrite sumf_flat_map. apply sumf_zero. intros j _. cbn. ring.
Qed.
Lemma same_ev2 : forall w v sh, ev2 w (same_calls v sh)
  = (sumf (fun p => sym2 w (fst p) (snd p) (fst p) (snd p)) (pairs sh)
     - sumf (fun p => sym2 w (fst p) (snd p) (snd p) (fst p)) (pairs sh)) * v.
Proof.
  intros w v sh. induction sh as [|i sh IH]; [cbn; ring|]. cbn [same_calls pairs]. rewrite ev2_cons, ev2_app, IH, !sumf_app, !sumf_map.
  replace (ev2 w (flat_map _ sh))
    with ((sumf (fun x => sym2 w i x i x) sh - sumf (fun x => sym2 w i x x i) sh) * v).
  - unfold ev2. cbn [sumf fold_right fst snd]. ring.
  - rewrite <- sumf_sub, <- sumf_mul_r. unfold ev2. rewrite sumf_flat_map. apply sumf_ext. intros j _. cbn. unfold sym2. ring.
Qed.
Lemma single_ev1 : forall w v sh a b, ev1 w (single_calls v sh a b) = (w a b + w b a) * v.
Proof.
  intros. unfold single_calls. rewrite ev1_cons, (ev1_cons w (One b a v)).
  replace (ev1 w (flat_map _ sh)) with (0 : K).
  - unfold ev1. cbn [sumf fold_right]. ring.
  - symmetry. unfold ev1. rewrite sumf_flat_map. apply sumf_zero. intros j _. cbn. ring.
Qed.
Lemma single_ev2 : forall w v sh a b, ev2 w (single_calls v sh a b)
  = ((sumf (fun x => sym2 w x a x b) sh - sumf (fun x => sym2 w x a b x) sh)
     + (sumf (fun x => sym2 w x b x a) sh - sumf (fun x => sym2 w x b a x) sh)) * v.
Proof.
  intros. unfold single_calls. rewrite ev2_cons, (ev2_cons w (One b a v)).
  rewrite <- !sumf_sub, <- sumf_add, <- sumf_mul_r.
  match goal with |- _ + (_ + ?e) = _ => transitivity e; [unfold ev2; cbn [sumf fold_right]; ring|] end.
  unfold ev2. rewrite sumf_flat_map. apply sumf_ext. intros j _. cbn. unfold sym2. ring.
Qed.
Lemma double_ev1 : forall w v a b c d, ev1 w (double_calls v a b c d) = 0.
Proof. intros. unfold ev1. cbn. ring. Qed.
Lemma double_ev2 : forall w v a b c d, ev2 w (double_calls v a b c d)
  = ((sym2 w a b c d - sym2 w a b d c) + (sym2 w c d a b - sym2 w c d b a)) * v.
Proof. intros. unfold ev2, sym2. cbn. ring. Qed.

Lemma diff_swap : forall m n, diff_orbs n m = (snd (diff_orbs m n), fst (diff_orbs m n)).
Proof. intros. unfold diff_orbs. cbn [fst snd]. now rewrite (N.lxor_comm n m). Qed.
Lemma shared_swap : forall m n, shared_orbs n m = shared_orbs m n.
Proof. intros. unfold shared_orbs. now rewrite N.land_comm. Qed.
Lemma V_swap : forall m n a b, V n m b a = V m n a b.
Proof. intros. apply inner_sym. Qed.
Lemma W_swap : forall m n a b c d, W n m c d a b = W m n a b c d.
Proof. intros. apply inner_sym. Qed.

Lemma pair_calls_far : forall (x1 x2 : K) m n,
  length (fst (diff_orbs m n)) <> length (snd (diff_orbs m n)) \/ (2 < length (fst (diff_orbs m n)))%nat ->
  pair_calls x1 x2 m n = [].
Proof.
  intros x1 x2 m n H. unfold pair_calls. destruct (Nat.eqb_spec (length (snd (diff_orbs m n))) (length (fst (diff_orbs m n)))) as [E|E]; auto.
  cbn [negb]. destruct H as [H|H]; [congruence|]. destruct (fst (diff_orbs m n)) as [|a [|b [|]]]; cbn [length] in H; try lia.
  destruct (snd (diff_orbs m n)) as [|c [|d [|]]]; auto.
Qed.

(** weight of the calls made for one pair of determinants *)
Theorem pair_ev1 : forall k w (x1 x2 : K) m n, fits m k -> fits n k ->
  ev1 w (pair_calls x1 x2 m n)
  = if N.eqb m n then x1 * x2 * one_body k w m m
    else x1 * x2 * one_body k w m n + x2 * x1 * one_body k w n m.
Proof.
  intros k w x1 x2 m n Fm Fn. destruct (diff_cases m n) as [->|[(a & b & D)|[(a & b & c & d & D)|H]]].
  - rewrite N.eqb_refl. unfold pair_calls. rewrite diff_same. cbn [fst snd length Nat.eqb negb].
    rewrite same_ev1, one_same by auto. rewrite shared_same.
    assert (T : transpositions (occ_indices (Some n)) [] = 0%nat).
    { unfold transpositions. induction (occ_indices (Some n)); auto. }
    rewrite T. cbn. ring.
  - destruct (N.eqb_spec m n) as [->|Ne]; [rewrite diff_same in D; discriminate|].
    rewrite (one_single k w m n a b), (one_single k w n m b a) by (auto; rewrite ?(diff_swap m n), ?D; auto).
    rewrite (V_swap m n a b), (V_sign m n a b) by (rewrite D; auto). rewrite sgnr_sgn.
    unfold pair_calls. rewrite D. cbn [fst snd length Nat.eqb negb]. rewrite single_ev1. ring.
  - destruct (N.eqb_spec m n) as [->|Ne]; [rewrite diff_same in D; discriminate|].
    rewrite (one_far k w m n), (one_far k w n m) by (rewrite ?(diff_swap m n), ?D; right; cbn; lia).
    unfold pair_calls. rewrite D. cbn [fst snd length Nat.eqb negb]. rewrite double_ev1. ring.
  - destruct (N.eqb_spec m n) as [->|Ne].
    { rewrite diff_same in H. cbn in H. destruct H as [H|H]; [congruence|lia]. }
    rewrite pair_calls_far by auto.
    rewrite (one_far k w m n) by lia. rewrite (one_far k w n m).
    + unfold ev1. cbn. ring.
    + rewrite (diff_swap m n). cbn [fst snd]. destruct H as [H|H]; [left; congruence|].
      destruct (Nat.eq_dec (length (fst (diff_orbs m n))) (length (snd (diff_orbs m n)))); [right; lia|left; congruence].
Qed.

Theorem pair_ev2 : forall k w (x1 x2 : K) m n, fits m k -> fits n k ->
  ev2 w (pair_calls x1 x2 m n)
  = if N.eqb m n then x1 * x2 * two_body k w m m
    else x1 * x2 * two_body k w m n + x2 * x1 * two_body k w n m.
Proof.
  intros k w x1 x2 m n Fm Fn. rewrite !two_body_sym2. pose proof (sym2_sym w) as S.
  destruct (diff_cases m n) as [->|[(a & b & D)|[(a & b & c & d & D)|H]]].
  - rewrite N.eqb_refl. unfold pair_calls. rewrite diff_same. cbn [fst snd length Nat.eqb negb].
    rewrite same_ev2, pair_same by auto. rewrite shared_same.
    assert (T : transpositions (occ_indices (Some n)) [] = 0%nat).
    { unfold transpositions. induction (occ_indices (Some n)); auto. }
    rewrite T. cbn [Nat.add Nat.odd Nat.even negb]. ring.
  - destruct (N.eqb_spec m n) as [->|Ne]; [rewrite diff_same in D; discriminate|].
    rewrite (pair_single _ S k m n a b), (pair_single _ S k n m b a) by (auto; rewrite ?(diff_swap m n), ?D; auto).
    rewrite (V_swap m n a b), (V_sign m n a b), (shared_swap m n) by (rewrite D; auto). rewrite sgnr_sgn.
    unfold pair_calls. rewrite D. cbn [fst snd length Nat.eqb negb]. rewrite single_ev2. ring.
  - destruct (N.eqb_spec m n) as [->|Ne]; [rewrite diff_same in D; discriminate|].
    rewrite (pair_double _ k m n a b c d), (pair_double _ k n m c d a b) by (auto; rewrite ?(diff_swap m n), ?D; auto).
    rewrite (W_swap m n a b c d), (W_sign m n a b c d) by (rewrite D; auto). rewrite sgnr_sgn.
    unfold pair_calls. rewrite D. cbn [fst snd length Nat.eqb negb]. rewrite double_ev2. ring.
  - destruct (N.eqb_spec m n) as [->|Ne].
    { rewrite diff_same in H. cbn in H. destruct H as [H|H]; [congruence|lia]. }
    rewrite pair_calls_far by auto.
    rewrite (pair_far _ k m n) by lia. rewrite (pair_far _ k n m).
    + unfold ev2. cbn. ring.
    + rewrite (diff_swap m n). cbn [fst snd]. destruct H as [H|H]; [left; congruence|].
      destruct (Nat.eq_dec (length (fst (diff_orbs m n))) (length (snd (diff_orbs m n)))); [right; lia|left; congruence].
Qed.
End Calls.
