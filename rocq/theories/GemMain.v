(** The overlap of a geminal wavefunction is a coefficient of a product of geminals *)
From Coq Require Import List ZArith NArith Arith Bool Lia Permutation Sorted.
From Verif Require Import Py Slater BitSpec BitLemmas SlaterBits Combos Fock FockLemmas FockInner Alg SignSpec SignLemmas
  Graphs GraphSpec MatchSpec MatchLemmas GeneralLemmas MathTools SdLemmas PermLemmas RyserLemmas BorchardtLemmas HamLemmas
  BicliqueLemmas BicliqueMain WfnCI Geminal GemPairs CreSpec CreLemmas P_Slater2 P_Graphs P_Permanent P_GemPairs.
Import ListNotations.

(** *** permutations of pairs are even *)
Lemma flat_swaps : forall qs ps, Permutation qs ps -> exists k, swaps (2 * k) (flat qs) (flat ps).
Proof.
  intros qs ps P. induction P as [|[a b] l l' P [k IH]|[a b] [c d] l|l l' l'' P1 [k1 H1] P2 [k2 H2]].
  - exists 0. constructor.
  - exists k. cbn [flat]. now do 2 apply swaps_cons.
  - exists 2. cbn [flat]. change (2 * 2) with (1 + (1 + (1 + 1))).
    eapply swaps_trans; [apply (swaps_one [c] d a)|]. eapply swaps_trans; [apply (swaps_one [] c a)|].
    eapply swaps_trans; [apply (swaps_one [a; c] d b)|]. apply (swaps_one [a] c b).
  - exists (k1 + k2). replace (2 * (k1 + k2)) with (2 * k1 + 2 * k2) by lia. eapply swaps_trans; eauto.
Qed.
Lemma pow_m1_even : forall k n, pow_m1 (2 * k + n) = pow_m1 n.
Proof. intros k n. unfold pow_m1. now rewrite Nat.add_comm, Nat.odd_add_mul_2. Qed.
Lemma flat_perm_NoDup : forall qs occ, NoDup occ -> Permutation (flat qs) occ -> NoDup qs.
Proof.
  intros qs occ N P. assert (F : NoDup (flat qs)) by (eapply Permutation_NoDup; [symmetry; exact P|auto]).
  clear P N. induction qs as [|[a b] qs IH]; [constructor|]. cbn [flat] in F. inversion F as [|? ? F1 F2]; subst. inversion F2 as [|? ? F3 F4]; subst.
  constructor; auto. intros I. apply flat_In in I as [I _]. apply F1. now right.
Qed.
Lemma swaps_reverse : forall {A} (l : list A), exists k, swaps k l (rev l) /\ 2 * k + length l = length l * length l.
Proof.
  intros A. induction l as [|x l (k & S & E)]; [exists 0; split; constructor|].
  exists (k + length l). split.
  - cbn [rev]. rewrite <- (rev_length l). eapply swaps_trans; [apply swaps_cons; exact S|]. apply swaps_move.
  - cbn [length]. lia.
Qed.
Lemma pair_orbs_flat : forall l, pair_orbs l = flat l.
Proof. unfold pair_orbs. induction l as [|[a b] l IH]; auto. cbn [flat_map app flat fst snd]. now rewrite IH. Qed.

(** [L] lists every perfect matching of [occ] within [pairs] once, with its sign *)
Definition good_schemes (pairs : list (Z * Z)) (occ : list Z) (g : Z) (L : list (scheme * Z)) : Prop :=
  (forall p, In p L -> incl (fst p) pairs /\ exists k, swaps k (flat (fst p)) occ /\ (g * snd p)%Z = pow_m1 k) /\
  (forall qs, incl qs pairs -> Permutation (flat qs) occ -> exists p, In p L /\ Permutation qs (fst p)) /\
  pairwise_distinct (@Permutation (Z * Z)) (map fst L).

Lemma distinct_In : forall {A} (R : A -> A -> Prop) (l : list (A * Z)), (forall x, R x x) -> (forall x y, R x y -> R y x) ->
  pairwise_distinct R (map fst l) -> NoDup l /\ forall p q, In p l -> In q l -> R (fst p) (fst q) -> p = q.
Proof.
  intros A R l Rf Rs H. unfold pairwise_distinct in H. induction l as [|x l IH]; [split; [constructor|intros p q []]|].
  cbn [map] in H. inversion H as [|? ? F H']; subst. destruct (IH H') as [N U]. rewrite Forall_forall in F. split.
  - constructor; auto. intros I. apply (F (fst x)); auto. now apply in_map.
  - intros p q [<-|Hp] [<-|Hq] E; auto.
    + exfalso. apply (F (fst q)); auto. now apply in_map.
    + exfalso. apply (F (fst p)); auto. now apply in_map.
Qed.

Fixpoint remove_first (x : Z) (l : list Z) : list Z :=
  match l with [] => [] | y :: t => if Z.eqb x y then t else y :: remove_first x t end.
Lemma remove_first_perm : forall x l, In x l -> Permutation l (x :: remove_first x l).
Proof.
  induction l as [|y l IH]; intros H; [destruct H|]. cbn [remove_first]. destruct (Z.eqb_spec x y) as [->|D]; [reflexivity|].
  destruct H as [->|H]; [contradiction|]. rewrite (IH H) at 1. apply perm_swap.
Qed.
Lemma perm_dec : forall (a b : list Z), {Permutation a b} + {~ Permutation a b}.
Proof.
  induction a as [|x a IH]; intros b.
  - destruct b as [|y b]; [left; constructor|]. right. intros H. now apply Permutation_nil_cons in H.
  - destruct (in_dec Z.eq_dec x b) as [I|I].
    + destruct (IH (remove_first x b)) as [P|P].
      * left. rewrite (remove_first_perm x b I). now constructor.
      * right. intros Q. apply P. rewrite (remove_first_perm x b I) in Q. now apply Permutation_cons_inv in Q.
    + right. intros H. apply I. eapply Permutation_in; [exact H|now left].
Qed.

Section Main.
Context {K : CRing}.
Local Open Scope cr_scope.
Add Ring K_ring47 : (rth K).

Lemma product_good : forall pairs g L (cs : list (Z * Z -> K)) m, NoDup pairs -> length (zocc m) = (2 * length cs)%nat ->
  good_schemes pairs (zocc m) g L ->
  gem_product pairs cs m = sumf (fun p => sgnr (g * snd p)%Z * permR cs (fst p)) L.
Proof.
  intros pairs g L cs m N Len (G1 & G2 & G3). rewrite product_words. set (h := length cs) in *.
  destruct (distinct_In (@Permutation (Z * Z)) L (fun x => Permutation_refl x) (fun x y H => Permutation_sym H) G3) as [NL UL].
  assert (Hl : forall p, In p L -> length (fst p) = h /\ NoDup (fst p)).
  { intros p Hp. destruct (G1 p Hp) as (_ & k & Sw & _). apply swaps_perm in Sw. split.
    - pose proof (Permutation_length Sw) as E. rewrite flat_length in E. lia.
    - eapply flat_perm_NoDup; [apply (occZ_NoDup m)|exact Sw]. }
  assert (Hp : forall p qs, In p L -> In qs (permutations (fst p) h) -> Permutation qs (fst p)).
  { intros p qs Hp Hq. destruct (Hl p Hp) as [L1 N1]. apply permutations_In in Hq as (L2 & N2 & I); auto. apply NoDup_Permutation_bis; auto. lia. }
  transitivity (sumf (fun qs => prod2 cs qs * cres (flat qs) vacuum m) (flat_map (fun p => permutations (fst p) h) L)).
  { apply sumf_support.
    - now apply words_NoDup.
    - apply NoDup_flat_map; auto.
      + intros p Hi. apply permutations_NoDup. now apply Hl.
      + intros p q qs H1 H2 Q1 Q2. apply UL; auto. apply Hp in Q1, Q2; auto. rewrite <- Q1. exact Q2.
    - intros qs Hq. apply in_flat_map in Hq as (p & Hi & Hq). apply words_In. destruct (Hl p Hi) as [L1 N1].
      apply permutations_In in Hq as (L2 & _ & I); auto. split; auto. intros x Hx. apply (proj1 (G1 p Hi)). auto.
    - intros qs Hq. apply words_In in Hq as [L1 I].
      destruct (perm_dec (flat qs) (zocc m)) as [P|P].
      + right. destruct (G2 qs I P) as (p & Hi & Pq). apply in_flat_map. exists p. split; auto. destruct (Hl p Hi) as [L2 N2].
        apply permutations_In; auto. split; [lia|]. split; [eapply flat_perm_NoDup; [apply (occZ_NoDup m)|exact P]|].
        intros x. now apply Permutation_in.
      + left. rewrite cres_zero by auto. ring. }
  rewrite sumf_flat_map. apply sumf_ext. intros p Hi. cbv beta. change (list (Z * Z)) with scheme in p. destruct (G1 p Hi) as (_ & k & Sw & Eg). unfold scheme in Eg |- *. rewrite Eg.
  rewrite <- permR_sum. fold h. rewrite <- sumf_mul_l. apply sumf_ext. intros qs Hq.
  destruct (flat_swaps qs (fst p) (Hp p qs Hi Hq)) as [k' Sw'].
  rewrite (cres_value (2 * k' + k) (flat qs) m) by (eapply swaps_trans; eauto). rewrite pow_m1_even. ring.
Qed.
End Main.
