(** Lemmas: the permutations, read as pairs of orbitals, list every perfect matching once with its sign *)
From Coq Require Import List ZArith NArith Arith Bool Lia Permutation Sorted Ring_theory.
From Verif Require Import Py Slater BitSpec BitLemmas SlaterBits Combos Alg SdLemmas SignSpec SignLemmas PermLemmas MatchSpec MatchLemmas BicliqueLemmas GeneralLemmas
  Graphs WfnCI Geminal GemPairs CreSpec CreLemmas GemMain GemSchemes CCLemmas Creation CreationSpec CreationLemmas.
Import ListNotations.
Local Open Scope nat_scope.

Definition orb (occ : list nat) (i : nat) : Z := Z.of_nat (nth i occ 0).
Definition orbs (occ : list nat) (e : list (nat * nat)) : list (Z * Z) := map (fun p => (orb occ (fst p), orb occ (snd p))) e.
Definition lowest (h : nat) (occ : list nat) : list Z := map Z.of_nat (firstn (2 * h) occ).
(** every pair of the labels, in increasing order, is there *)
Definition covers (pairs : list (Z * Z)) (l : list Z) : Prop := forall x y, In x l -> In y l -> (x < y)%Z -> In (x, y) pairs.

Lemma sorted_nth : forall occ i j, StronglySorted lt occ -> i < j < length occ -> nth i occ 0 < nth j occ 0.
Proof.
  induction occ as [|x occ IH]; intros i j S H; [cbn in H; lia|]. inversion S as [|? ? S' F]; subst. cbn [length] in H. destruct j as [|j]; [lia|]. destruct i as [|i]; cbn [nth].
  - rewrite Forall_forall in F. apply F, nth_In. lia.
  - apply IH; auto. lia.
Qed.
Section Good.
Variables (occ : list nat) (h : nat).
Hypothesis So : StronglySorted lt occ.
Hypothesis Le : 2 * h <= length occ.
Notation f := (orb occ).
Lemma orb_lt : forall i j, i < j < 2 * h -> (f i < f j)%Z.
Proof. intros i j H. unfold orb. apply inj_lt, sorted_nth; auto; lia. Qed.
Lemma orb_inj : forall i j, i < 2 * h -> j < 2 * h -> f i = f j -> i = j.
Proof. intros i j Hi Hj E. destruct (lt_eq_lt_dec i j) as [[L|L]|L]; auto; [pose proof (orb_lt i j)|pose proof (orb_lt j i)]; lia. Qed.
Lemma orb_In : forall i, i < 2 * h -> In (f i) (lowest h occ).
Proof.
  intros i Hi. unfold lowest, orb. apply in_map. rewrite <- (firstn_skipn (2 * h) occ) at 1. rewrite app_nth1 by (rewrite firstn_length; lia). apply nth_In. rewrite firstn_length. lia.
Qed.
Lemma orb_surj : forall x, In x (lowest h occ) -> exists i, i < 2 * h /\ x = f i.
Proof.
  intros x Hx. unfold lowest in Hx. apply in_map_iff in Hx as (y & <- & Hy). apply (In_nth _ _ 0) in Hy as (i & Hi & <-). rewrite firstn_length in Hi. exists i. split; [lia|]. unfold orb.
  f_equal. rewrite <- (firstn_skipn (2 * h) occ) at 2. rewrite app_nth1; auto. rewrite firstn_length. lia.
Qed.
Lemma lowest_all : map f (seq 0 (2 * h)) = lowest h occ.
Proof.
  unfold lowest, orb. rewrite <- (map_map (fun i => nth i occ 0) Z.of_nat). f_equal. apply (nth_ext _ _ 0 0); [rewrite map_length, seq_length, firstn_length; lia|].
  intros i Hi. rewrite map_length, seq_length in Hi. rewrite (nth_indep _ 0 (nth 0 occ 0)) by (rewrite map_length, seq_length; lia). rewrite (map_nth (fun i => nth i occ 0)). rewrite seq_nth by lia.
  rewrite <- (firstn_skipn (2 * h) occ) at 1. rewrite app_nth1; auto. rewrite firstn_length. lia.
Qed.
Lemma lowest_sorted : StronglySorted Z.lt (lowest h occ).
Proof.
  clear Le. unfold lowest. assert (S : StronglySorted lt (firstn (2 * h) occ)).
  { generalize (2 * h). induction So as [|x l S IH F]; intros n; destruct n; cbn [firstn]; constructor; auto.
    rewrite Forall_forall in *. intros y Hy. apply F. rewrite <- (firstn_skipn n l). apply in_or_app. now left. }
  induction S as [|x l S IH F]; cbn [map]; constructor; auto. rewrite Forall_forall in *. intros y Hy. apply in_map_iff in Hy as (z & <- & Hz). specialize (F z Hz). lia.
Qed.
Lemma lowest_NoDup : NoDup (lowest h occ).
Proof. apply sortedZ_NoDup, lowest_sorted. Qed.
Lemma lowest_length : length (lowest h occ) = 2 * h.
Proof. unfold lowest. rewrite map_length, firstn_length. lia. Qed.

Lemma perm_range : forall e, subseq e (index_pairs (seq 0 (2 * h))) -> forall p, In p e -> fst p < snd p < 2 * h.
Proof. clear Le So. intros e S [i j] Hp. apply (subseq_incl _ _ S) in Hp. apply index_pairs_seq in Hp. cbn [fst snd]. lia. Qed.
Lemma flatten_range : forall e, subseq e (index_pairs (seq 0 (2 * h))) -> forall i, In i (flatten e) -> i < 2 * h.
Proof.
  clear Le So. intros e S i Hi. unfold flatten in Hi. apply in_flat_map in Hi as (p & Hp & Hi). pose proof (perm_range e S p Hp) as H. destruct Hi as [<-|[<-|[]]]; lia.
Qed.
Lemma orbs_flat : forall e, flat (orbs occ e) = map f (flatten e).
Proof. induction e as [|[a b] e IH]; auto. cbn. unfold orbs, flatten in *. cbn. now rewrite IH. Qed.
Lemma flatten_perm : forall e, is_perm h e -> Permutation (flatten e) (seq 0 (2 * h)).
Proof.
  clear Le So. intros e (S & L & N). apply NoDup_Permutation_bis; auto; [rewrite seq_length, flatten_length; lia|]. intros i Hi. apply in_seq. apply flatten_range in Hi; auto. lia.
Qed.
Lemma orbs_perm : forall e, is_perm h e -> Permutation (flat (orbs occ e)) (lowest h occ).
Proof. intros e H. rewrite orbs_flat, <- lowest_all. apply Permutation_map, flatten_perm, H. Qed.
Lemma orbs_inversions : forall e, is_perm h e -> inversions (flat (orbs occ e)) = inversions (flat (zpairs e)).
Proof.
  intros e (S & L & N). rewrite orbs_flat, <- flatten_flat.
  assert (X : map f (flatten e) = map (fun z => f (Z.to_nat z)) (map Z.of_nat (flatten e))) by (rewrite map_map; apply map_ext; intros i; now rewrite Nat2Z.id).
  rewrite X. apply inversions_map.
  - intros x y Hx Hy H. apply in_map_iff in Hx as (i & <- & Hi), Hy as (j & <- & Hj). rewrite !Nat2Z.id. apply orb_lt. apply flatten_range in Hi, Hj; auto. lia.
  - apply FinFun.Injective_map_NoDup; auto. intros x y; lia.
Qed.
Lemma orbs_sign : forall e, is_perm h e -> cr_sign (orbs occ e) = cr_sign (zpairs e).
Proof. intros e H. now rewrite !cr_sign_value, orbs_inversions. Qed.
Lemma orbs_swaps : forall e, is_perm h e -> exists k, swaps k (flat (orbs occ e)) (lowest h occ) /\ cr_sign (zpairs e) = pow_m1 k.
Proof.
  intros e H. pose proof (orbs_perm e H) as P. assert (N : NoDup (flat (orbs occ e))) by (eapply Permutation_NoDup; [symmetry; exact P|apply lowest_NoDup]).
  destruct (signature_exists _ N) as (k & l' & W & S & E). assert (El : l' = lowest h occ).
  { apply sorted_perm_eq; auto; [apply lowest_sorted|]. rewrite <- (swaps_perm _ _ _ W). exact P. }
  subst l'. exists k. split; auto. rewrite cr_sign_value, <- orbs_inversions by auto. rewrite <- E. apply pow_m1_sgn.
Qed.

(** the list of the matchings of the orbitals *)
Definition crl : list (scheme * Z) := map (fun p => (orbs occ (fst p), snd p)) (cr_permutations (Z.of_nat (2 * h))).
Lemma crl_In : forall q, In q crl <-> exists e, is_perm h e /\ q = (orbs occ e, cr_sign (zpairs e)).
Proof.
  intros q. unfold crl. rewrite in_map_iff. split.
  - intros ([e s] & <- & H). apply perms_In in H as [H ->]. exists e. auto.
  - intros (e & H & ->). exists (e, cr_sign (zpairs e)). split; auto. now apply perms_In.
Qed.
Lemma orbs_In : forall e x y, is_perm h e -> (In (x, y) (orbs occ e) -> In x (lowest h occ) /\ In y (lowest h occ) /\ (x < y)%Z).
Proof.
  intros e x y (S & _) H. unfold orbs in H. apply in_map_iff in H as ([i j] & [= <- <-] & H). apply perm_range with (p := (i, j)) in S; auto. cbn [fst snd] in *.
  repeat split; try (apply orb_In; lia). apply orb_lt. lia.
Qed.
Lemma orbs_inj : forall e i j, is_perm h e -> i < 2 * h -> j < 2 * h -> In (f i, f j) (orbs occ e) -> In (i, j) e.
Proof.
  intros e i j (S & _) Hi Hj H. unfold orbs in H. apply in_map_iff in H as ([a b] & [= Ea Eb] & H). pose proof (perm_range e S (a, b) H) as R. cbn [fst snd] in *.
  apply orb_inj in Ea, Eb; try lia. now subst.
Qed.
Lemma crl_good : forall pairs, covers pairs (lowest h occ) -> (forall p, In p pairs -> (fst p < snd p)%Z) -> good_schemes pairs (lowest h occ) 1 crl.
Proof.
  intros pairs C Lt. split; [|split].
  - intros q Hq. apply crl_In in Hq as (e & He & ->). cbn [fst snd]. split.
    + intros [x y] H. apply orbs_In in H as (A & B & D); auto.
    + destruct (orbs_swaps e He) as (k & W & E). exists k. split; auto. rewrite E. lia.
  - intros qs I P. set (e := filter (fun p => existsb (zpair_eqb (f (fst p), f (snd p))) qs) (index_pairs (seq 0 (2 * h)))).
    assert (S : subseq e (index_pairs (seq 0 (2 * h)))) by apply subseq_of_filter.
    assert (Pe : Permutation qs (orbs occ e)).
    { apply NoDup_Permutation.
      - eapply flat_perm_NoDup; [apply lowest_NoDup|exact P].
      - unfold orbs. assert (Ne : NoDup e) by (eapply subseq_NoDup; [exact S|apply index_pairs_NoDup, seq_NoDup]).
        apply NoDup_map_inj; auto. intros [a b] [c d] H1 H2 [= E1 E2]. apply perm_range with (p := (a, b)) in S as R1; auto. apply perm_range with (p := (c, d)) in S as R2; auto. cbn [fst snd] in *.
        apply orb_inj in E1, E2; try lia. congruence.
      - intros [x y]. split.
        + intros H. pose proof (Lt _ (I _ H)) as L. cbn [fst snd] in L. destruct (flat_In _ _ _ H) as [Hx Hy].
          apply (Permutation_in _ P), orb_surj in Hx as (i & Hi & ->). apply (Permutation_in _ P), orb_surj in Hy as (j & Hj & ->).
          unfold orbs. apply in_map_iff. exists (i, j). split; auto. apply filter_In. split.
          * apply index_pairs_seq. destruct (lt_eq_lt_dec i j) as [[Q|Q]|Q]; [lia|subst; lia|]. pose proof (orb_lt j i). lia.
          * now apply existsb_pair.
        + intros H. unfold orbs in H. apply in_map_iff in H as ([i j] & E & H). apply filter_In in H as [_ H]. apply existsb_pair in H. now rewrite <- E. }
    assert (He : is_perm h e).
    { split; auto. split.
      - apply Permutation_length in Pe. apply Permutation_length in P. unfold orbs in Pe. rewrite map_length in Pe. rewrite flat_length, lowest_length in P. lia.
      - apply (NoDup_map_inv f). rewrite <- orbs_flat. eapply Permutation_NoDup; [|apply lowest_NoDup]. rewrite <- P. now apply flat_perm. }
    exists (orbs occ e, cr_sign (zpairs e)). split; auto. apply crl_In. eauto.
  - pose proof (perms_NoDup h) as N. assert (A : forall p, In p (cr_permutations (Z.of_nat (2 * h))) -> is_perm h (fst p)) by (intros [e s] H; now apply perms_In in H).
    unfold crl. unfold pairwise_distinct. induction (cr_permutations (Z.of_nat (2 * h))) as [|[e s] L IH]; cbn [map fst]; [constructor|]. cbn [map fst] in N. inversion N as [|? ? N1 N2]; subst.
    constructor; [|apply IH; auto; intros p Hp; apply A; now right]. rewrite map_map. cbn [fst]. rewrite Forall_forall. intros x Hx P. apply in_map_iff in Hx as ([e' s'] & <- & H'). cbn [fst] in *.
    apply N1. apply in_map_iff. exists (e', s'). split; auto. cbn [fst].
    pose proof (A (e, s) (or_introl eq_refl)) as He. pose proof (A (e', s') (or_intror H')) as He'. cbn [fst] in *.
    eapply subseq_same; [apply (index_pairs_NoDup (seq 0 (2 * h))), seq_NoDup|apply He'|apply He|]. intros [i j].
    assert (In_orbs : forall e, In (i, j) e -> In (f i, f j) (orbs occ e)) by (intros e0 H0; unfold orbs; apply in_map_iff; exists (i, j); auto).
    split; intros H; [pose proof (perm_range _ (proj1 He') _ H) as R|pose proof (perm_range _ (proj1 He) _ H) as R]; cbn [fst snd] in R; apply orbs_inj; auto; try lia.
    + apply (Permutation_in _ (Permutation_sym P)), In_orbs, H.
    + apply (Permutation_in _ P), In_orbs, H.
Qed.
End Good.
