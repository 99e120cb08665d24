From Coq Require Import List ZArith NArith Bool Lia Arith Permutation Sorted.
From Verif Require Import Py BitSpec BitLemmas Slater SlaterBits SlaterBits2 Fock FockLemmas SignLemmas Alg Combos PermLemmas
  HamSpec HamGen FockInner HamLemmas.
Import ListNotations.

Lemma NoDup_all_eq : forall (l : list nat) a, NoDup l -> In a l -> (forall x, In x l -> x = a) -> l = [a].
Proof.
  intros [|x [|y l]] a N I H; [destruct I| |].
  - f_equal. apply H. now left.
  - exfalso. inversion N as [|? ? X _]; subst. apply X.
    rewrite (H x (or_introl eq_refl)), (H y (or_intror (or_introl eq_refl))). now left.
Qed.
Lemma no_In : forall (l : list nat), (forall x, ~ In x l) -> l = [].
Proof. intros [|x l] H; auto. exfalso. apply (H x). now left. Qed.
Lemma d1_NoDup : forall m n, NoDup (fst (diff_orbs m n)).
Proof. intros. apply increasing_NoDup, occ_indices_increasing. Qed.
Lemma d2_NoDup : forall m n, NoDup (snd (diff_orbs m n)).
Proof. intros. apply increasing_NoDup, occ_indices_increasing. Qed.
Lemma shared_NoDup : forall m n, NoDup (shared_orbs m n).
Proof. intros. apply increasing_NoDup, occ_indices_increasing. Qed.
Lemma shared_incr : forall m n, increasing (shared_orbs m n).
Proof. intros. apply occ_indices_increasing. Qed.

(** a non-zero one-particle element *)
Lemma V_diff : forall m n i j, V m n i j <> 0%Z ->
  (i = j /\ m = n /\ bit m i = true) \/
  (fst (diff_orbs m n) = [i] /\ snd (diff_orbs m n) = [j]).
Proof.
  intros m n i j H. apply nz1 in H as (Bi & Bj & H1 & H2 & [H3|H3] & H4).
  - left. subst j. split; auto. split; auto. apply bit_ext. intros x.
    destruct (bit m x) eqn:A, (bit n x) eqn:B; auto.
    + rewrite (H1 x A B) in B. congruence.
    + rewrite (H2 x B A) in A. congruence.
  - right. split.
    + apply NoDup_all_eq; [apply d1_NoDup| |]; [apply diff_orbs_In1; auto|].
      intros x Hx. apply diff_orbs_In1 in Hx as [A B]. auto.
    + apply NoDup_all_eq; [apply d2_NoDup| |].
      * apply diff_orbs_In2. split; auto. destruct H4; auto. congruence.
      * intros x Hx. apply diff_orbs_In2 in Hx as [A B]. auto.
Qed.

Lemma W_occ : forall m n i j k l, W m n i j k l <> 0%Z ->
  length (occ_indices (Some m)) = length (occ_indices (Some n)).
Proof.
  intros m n i j k l H.
  apply nz2 in H as (Nij & Nkl & Bi & Bj & Bk & Bl & H1 & H2 & Hi & Hj & Hk & Hl).
  set (rest := filter (fun x => negb (Nat.eqb x k || Nat.eqb x l)) (occ_indices (Some n))).
  assert (R : forall x, In x rest <-> bit n x = true /\ x <> k /\ x <> l).
  { intros x. unfold rest. rewrite filter_In, occ_indices_In, negb_true_iff, orb_false_iff, !Nat.eqb_neq. tauto. }
  assert (NR : NoDup rest) by (apply NoDup_filter, increasing_NoDup, occ_indices_increasing).
  assert (P1 : Permutation (occ_indices (Some n)) (k :: l :: rest)).
  { apply NoDup_Permutation.
    - apply increasing_NoDup, occ_indices_increasing.
    - constructor; [|constructor; auto].
      + intros [X|X]; [congruence|]. apply R in X. tauto.
      + intros X. apply R in X. tauto.
    - intros x. rewrite occ_indices_In. cbn [In]. rewrite R.
      destruct (Nat.eq_dec k x); [subst; tauto|]. destruct (Nat.eq_dec l x); [subst; tauto|].
      split; [intros; right; right; split; [auto|split; congruence]|intros [?|[?|?]]; tauto]. }
  assert (P2 : Permutation (occ_indices (Some m)) (i :: j :: rest)).
  { apply NoDup_Permutation.
    - apply increasing_NoDup, occ_indices_increasing.
    - constructor; [|constructor; auto].
      + intros [X|X]; [congruence|]. apply R in X as (A & B & C). destruct Hi as [|[|]]; congruence.
      + intros X. apply R in X as (A & B & C). destruct Hj as [|[|]]; congruence.
    - intros x. rewrite occ_indices_In. cbn [In]. rewrite R. split.
      + intros A. destruct (Nat.eq_dec i x); auto. destruct (Nat.eq_dec j x); auto. right. right.
        repeat split.
        * destruct (bit n x) eqn:B; auto. destruct (H1 x A B); congruence.
        * intros ->. destruct Hk as [|[|]]; congruence.
        * intros ->. destruct Hl as [|[|]]; congruence.
      + intros [<-|[<-|(A & B & C)]]; auto. destruct (bit m x) eqn:E; auto. destruct (H2 x A E); congruence. }
  apply Permutation_length in P1, P2. simpl in *. congruence.
Qed.
Lemma W_order : forall m n i j k l, W m n i j k l <> 0%Z ->
  length (fst (diff_orbs m n)) = length (snd (diff_orbs m n)) /\ (length (fst (diff_orbs m n)) <= 2)%nat.
Proof.
  intros m n i j k l H. split.
  - apply W_occ in H. pose proof (Permutation_length (diff_orbs_perm1 m n)) as P1.
    pose proof (Permutation_length (diff_orbs_perm2 m n)) as P2. rewrite app_length in P1, P2. lia.
  - apply nz2 in H as (_ & _ & _ & _ & _ & _ & H1 & _).
    change 2 with (length [i; j]). apply NoDup_incl_length; [apply d1_NoDup|].
    intros x Hx. apply diff_orbs_In1 in Hx as [A B]. destruct (H1 x A B); subst; simpl; auto.
Qed.

Section SC2.
Context {K : CRing}.
Local Open Scope cr_scope.
Add Ring K_ring13 : (rth K).

Lemma V_same : forall m i, bit m i = true -> V m m i i = 1%Z.
Proof. intros m i B. unfold V. change (applys [Ann i] ?s) with (apply1 (Ann i) s). now rewrite inner_both. Qed.

Lemma one_same : forall k (one : nat -> nat -> K) m, fits m k ->
  one_body k one m m = sumf (fun i => one i i) (occ_indices (Some m)).
Proof.
  intros k one m F. rewrite one_body_prod.
  rewrite (sumf_support _ (map (fun i => (i, i)) (occ_indices (Some m)))).
  - rewrite sumf_map. apply sumf_ext. intros i Hi. apply occ_indices_In in Hi. cbn [fst snd].
    rewrite V_same by auto. cbn. ring.
  - apply list_prod_NoDup; apply seq_NoDup.
  - apply NoDup_map_inj; [|apply increasing_NoDup, occ_indices_increasing]. congruence.
  - intros p Hp. apply in_map_iff in Hp as (i & <- & Hi). apply in_prod_iff. rewrite !in_seq.
    apply occ_indices_In in Hi. destruct (Nat.lt_ge_cases i k) as [H|H]; [lia|]. rewrite F in Hi by lia. discriminate.
  - intros [i j] _. cbn [fst snd]. destruct (Z.eq_dec (V m m i j) 0) as [E|E].
    + left. rewrite E, sgnr_0. ring.
    + right. apply V_diff in E as [(-> & _ & B)|[E _]].
      * apply in_map_iff. exists j. rewrite occ_indices_In. auto.
      * exfalso. assert (In i (fst (diff_orbs m m))) as X by (rewrite E; now left).
        apply diff_orbs_In1 in X. destruct X; congruence.
Qed.

Lemma one_single : forall k (one : nat -> nat -> K) m n a b, fits m k -> fits n k ->
  fst (diff_orbs m n) = [a] -> snd (diff_orbs m n) = [b] ->
  one_body k one m n = one a b * sgnr (V m n a b).
Proof.
  intros k one m n a b Fm Fn E1 E2. rewrite one_body_prod.
  assert (A : bit m a = true /\ bit n a = false) by (apply diff_orbs_In1; rewrite E1; now left).
  assert (B : bit n b = true /\ bit m b = false) by (apply diff_orbs_In2; rewrite E2; now left).
  rewrite (sumf_support _ [(a, b)]).
  - cbn [sumf fold_right fst snd]. ring.
  - apply list_prod_NoDup; apply seq_NoDup.
  - constructor; [tauto|constructor].
  - intros p [<-|[]]. apply in_prod_iff. rewrite !in_seq.
    destruct (Nat.lt_ge_cases a k) as [H|H]; [|rewrite Fm in A by lia; destruct A; discriminate].
    destruct (Nat.lt_ge_cases b k) as [H'|H']; [|rewrite Fn in B by lia; destruct B; discriminate]. lia.
  - intros [i j] _. cbn [fst snd]. destruct (Z.eq_dec (V m n i j) 0) as [E|E].
    + left. rewrite E, sgnr_0. ring.
    + right. apply V_diff in E as [(-> & -> & _)|[E E']].
      * destruct A; congruence.
      * rewrite E1 in E. rewrite E2 in E'. injection E as ->. injection E' as ->. now left.
Qed.

Lemma one_far : forall k (one : nat -> nat -> K) m n,
  length (fst (diff_orbs m n)) <> length (snd (diff_orbs m n)) \/ (1 < length (fst (diff_orbs m n)))%nat ->
  one_body k one m n = 0.
Proof.
  intros k one m n H. rewrite one_body_prod. apply sumf_zero. intros [i j] _. cbn [fst snd].
  destruct (Z.eq_dec (V m n i j) 0) as [E|E]; [rewrite E, sgnr_0; ring|].
  exfalso. apply V_diff in E as [(-> & -> & _)|[E E']].
  - assert (X : fst (diff_orbs n n) = []).
    { apply no_In. intros x Hx. apply diff_orbs_In1 in Hx. destruct Hx; congruence. }
    assert (Y : snd (diff_orbs n n) = []).
    { apply no_In. intros x Hx. apply diff_orbs_In2 in Hx. destruct Hx; congruence. }
    rewrite X, Y in H. simpl in H. lia.
  - rewrite E, E' in H. simpl in H. lia.
Qed.

Lemma W_shared : forall m n x a b, bit m x = true -> bit n x = true -> a <> x -> b <> x ->
  bit m a = true -> bit n b = true ->
  (forall y, bit m y && negb (Nat.eqb y a) = bit n y && negb (Nat.eqb y b))%bool ->
  W m n x a x b = V m n a b.
Proof.
  intros m n x a b Bm Bn Na Nb Ba Bb E. unfold W, V.
  rewrite (inner_swap_l a x), (inner_swap_r b x), Z.opp_involutive by auto.
  change (applys [Ann a; Ann x] ?s) with (apply1 (Ann x) (apply1 (Ann a) s)).
  change (applys [Ann b; Ann x] ?s) with (apply1 (Ann x) (apply1 (Ann b) s)).
  change (applys [Ann a] ?s) with (apply1 (Ann a) s). change (applys [Ann b] ?s) with (apply1 (Ann b) s).
  rewrite !apply1_ann, Ba, Bb.
  assert (Q : flip m a = flip n b).
  { apply bit_ext. intros y. rewrite !bit_flip, (Nat.eqb_sym a y), (Nat.eqb_sym b y). specialize (E y).
    destruct (Nat.eqb_spec y a) as [Ea|Ea], (Nat.eqb_spec y b) as [Eb|Eb]; cbn [negb] in E;
      rewrite ?andb_true_r, ?andb_false_r in E; subst; rewrite ?Ba, ?Bb, ?xorb_false_r; auto. }
  rewrite Q. rewrite inner_both.
  - unfold inner. now rewrite N.eqb_refl.
  - rewrite bit_flip_neq by auto. auto.
Qed.

Variable two : nat -> nat -> nat -> nat -> K.
Hypothesis TS : two_sym two.

Definition sort2 (a x : nat) : nat * nat := if Nat.ltb a x then (a, x) else (x, a).
Lemma G_sort : forall m n a x b y, G two m n (fst (sort2 a x)) (snd (sort2 a x)) (fst (sort2 b y)) (snd (sort2 b y))
  = G two m n a x b y.
Proof.
  intros. unfold sort2. destruct (Nat.ltb a x), (Nat.ltb b y); cbn [fst snd]; auto.
  - apply G_swap_r.
  - now apply G_swap_l.
  - rewrite G_swap_r. now apply G_swap_l.
Qed.
Lemma sort2_lt : forall a x, a <> x -> (fst (sort2 a x) < snd (sort2 a x))%nat.
Proof. intros. unfold sort2. destruct (Nat.ltb_spec a x); simpl; lia. Qed.
Lemma sort2_le : forall a x k, (a < k)%nat -> (x < k)%nat -> (snd (sort2 a x) < k)%nat.
Proof. intros. unfold sort2. destruct (Nat.ltb_spec a x); simpl; lia. Qed.

Lemma fits_lt : forall m k i, fits m k -> bit m i = true -> (i < k)%nat.
Proof. intros m k i F B. destruct (Nat.lt_ge_cases i k); auto. rewrite F in B by auto. discriminate. Qed.

Lemma pair_same : forall k m, fits m k -> pair_body k two m m
  = sumf (fun p => two (fst p) (snd p) (fst p) (snd p)) (pairs (occ_indices (Some m)))
    - sumf (fun p => two (fst p) (snd p) (snd p) (fst p)) (pairs (occ_indices (Some m))).
Proof.
  intros k m F. unfold pair_body.
  rewrite (sumf_support _ (map (fun p => (p, p)) (pairs (occ_indices (Some m))))).
  - rewrite sumf_map, <- sumf_sub. apply sumf_ext. intros [i j] Hp. unfold Gq, G. cbn [fst snd].
    apply pairs_In in Hp as (Hi & Hj & L); [|apply occ_indices_increasing].
    apply occ_indices_In in Hi, Hj.
    assert (E : W m m i j i j = 1%Z).
    { rewrite W_shared; auto; try lia. apply V_same; auto. }
    rewrite E. cbn. ring.
  - apply quads_NoDup.
  - apply NoDup_map_inj; [|apply pairs_NoDup, increasing_NoDup, occ_indices_increasing]. congruence.
  - intros q Hq. apply in_map_iff in Hq as ([i j] & <- & Hp).
    apply pairs_In in Hp as (Hi & Hj & L); [|apply occ_indices_increasing].
    apply occ_indices_In in Hi, Hj. apply quads_In. pose proof (fits_lt _ _ _ F Hj). lia.
  - intros [[i j] [p q]] Hq. apply quads_In in Hq. unfold Gq. cbn [fst snd].
    destruct (Z.eq_dec (W m m i j p q) 0) as [E|E]; [left; now apply G_zero|right].
    apply nz2 in E as (Nij & Nkl & Bi & Bj & Bk & Bl & H1 & H2 & Hi & Hj & Hk & Hl).
    apply in_map_iff. exists (i, j).
    assert (i = p /\ j = q) as [-> ->].
    { destruct Hi as [Hi|[Hi|Hi]], Hj as [Hj|[Hj|Hj]]; try congruence; lia. }
    split; auto. apply pairs_In; [apply occ_indices_increasing|]. rewrite !occ_indices_In. repeat split; auto; lia.
Qed.

Lemma pair_single : forall k m n a b, fits m k -> fits n k ->
  fst (diff_orbs m n) = [a] -> snd (diff_orbs m n) = [b] ->
  pair_body k two m n = (sumf (fun x => two x a x b) (shared_orbs m n)
    - sumf (fun x => two x a b x) (shared_orbs m n)) * sgnr (V m n a b).
Proof.
  intros k m n a b Fm Fn E1 E2.
  assert (HA : forall x, bit m x = true -> bit n x = false -> x = a).
  { intros x P Q. assert (I : In x (fst (diff_orbs m n))) by (apply diff_orbs_In1; auto).
    rewrite E1 in I. destruct I as [|[]]; auto. }
  assert (HB : forall x, bit n x = true -> bit m x = false -> x = b).
  { intros x P Q. assert (I : In x (snd (diff_orbs m n))) by (apply diff_orbs_In2; auto).
    rewrite E2 in I. destruct I as [|[]]; auto. }
  assert (A : bit m a = true /\ bit n a = false) by (apply diff_orbs_In1; rewrite E1; now left).
  assert (B : bit n b = true /\ bit m b = false) by (apply diff_orbs_In2; rewrite E2; now left).
  destruct A as [A A'], B as [B B']. unfold pair_body.
  rewrite (sumf_support _ (map (fun x => (sort2 x a, sort2 x b)) (shared_orbs m n))).
  - rewrite sumf_map, <- sumf_sub, <- sumf_mul_r. apply sumf_ext. intros x Hx.
    apply shared_orbs_In in Hx as [X X']. unfold Gq. cbn [fst snd]. rewrite G_sort. unfold G.
    f_equal. f_equal. apply W_shared; auto; try congruence.
    intros y. destruct (Nat.eqb_spec y a) as [Ha|Ha], (Nat.eqb_spec y b) as [Hb|Hb]; cbn [negb];
      rewrite ?andb_true_r, ?andb_false_r; subst; auto.
    destruct (bit m y) eqn:P, (bit n y) eqn:Q; auto; exfalso; auto.
  - apply quads_NoDup.
  - apply NoDup_map_inj; [|apply shared_NoDup]. intros x y _ _ H.
    assert (Q : sort2 x a = sort2 y a) by congruence. revert Q. unfold sort2.
    destruct (Nat.ltb_spec x a), (Nat.ltb_spec y a); intros Q; injection Q; intros; subst; auto; lia.
  - intros q Hq. apply in_map_iff in Hq as (x & <- & Hx). apply shared_orbs_In in Hx as [X X'].
    destruct (sort2 x a) as [i j] eqn:S1, (sort2 x b) as [p r] eqn:S2.
    pose proof (sort2_lt x a) as L1. pose proof (sort2_lt x b) as L2.
    pose proof (sort2_le x a k (fits_lt _ _ _ Fm X) (fits_lt _ _ _ Fm A)) as L3.
    pose proof (sort2_le x b k (fits_lt _ _ _ Fm X) (fits_lt _ _ _ Fn B)) as L4.
    rewrite S1 in *. rewrite S2 in *. cbn [fst snd] in *. apply quads_In.
    assert (x <> a) by congruence. assert (x <> b) by congruence. auto.
  - intros [[i j] [p q]] Hq. apply quads_In in Hq. unfold Gq. cbn [fst snd].
    destruct (Z.eq_dec (W m n i j p q) 0) as [E|E]; [left; now apply G_zero|right].
    apply nz2 in E as (Nij & Nkl & Bi & Bj & Bk & Bl & H1 & H2 & Hi & Hj & Hk & Hl).
    apply in_map_iff.
    assert (Q : forall x, bit m x = true -> x <> a -> bit n x = true).
    { intros x P Ne. destruct (bit n x) eqn:Z; auto. }
    destruct (H1 a A A') as [Ea|Ea], (H2 b B B') as [Eb|Eb]; subst.
    + exists j. rewrite shared_orbs_In. assert (bit n j = true) by (apply Q; congruence).
      assert (j = q) by (destruct Hj as [?|[?|?]]; congruence). subst. split; auto.
      unfold sort2. destruct (Nat.ltb_spec q i); [lia|]. destruct (Nat.ltb_spec q p); [lia|]. auto.
    + exists j. rewrite shared_orbs_In. assert (bit n j = true) by (apply Q; congruence).
      assert (j = p) by (destruct Hj as [?|[?|?]]; congruence). subst. split; auto.
      unfold sort2. destruct (Nat.ltb_spec p i); [lia|]. destruct (Nat.ltb_spec p q); [|lia]. auto.
    + exists i. rewrite shared_orbs_In. assert (bit n i = true) by (apply Q; congruence).
      assert (i = q) by (destruct Hi as [?|[?|?]]; congruence). subst. split; auto.
      unfold sort2. destruct (Nat.ltb_spec q j); [|lia]. destruct (Nat.ltb_spec q p); [lia|]. auto.
    + exists i. rewrite shared_orbs_In. assert (bit n i = true) by (apply Q; congruence).
      assert (i = p) by (destruct Hi as [?|[?|?]]; congruence). subst. split; auto.
      unfold sort2. destruct (Nat.ltb_spec p j); [|lia]. destruct (Nat.ltb_spec p q); [|lia]. auto.
Qed.

Lemma pair_double : forall k m n a b c d, fits m k -> fits n k ->
  fst (diff_orbs m n) = [a; b] -> snd (diff_orbs m n) = [c; d] ->
  pair_body k two m n = (two a b c d - two a b d c) * sgnr (W m n a b c d).
Proof.
  intros k m n a b c d Fm Fn E1 E2.
  assert (L1 : (a < b)%nat).
  { pose proof (occ_indices_increasing (Some (N.land (N.lxor m n) m))) as I.
    change (increasing (fst (diff_orbs m n))) in I. rewrite E1 in I. inversion I; subst. inversion H2; auto. }
  assert (L2 : (c < d)%nat).
  { pose proof (occ_indices_increasing (Some (N.land (N.lxor m n) n))) as I.
    change (increasing (snd (diff_orbs m n))) in I. rewrite E2 in I. inversion I; subst. inversion H2; auto. }
  assert (A : bit m a = true /\ bit n a = false) by (apply diff_orbs_In1; rewrite E1; now left).
  assert (B : bit m b = true /\ bit n b = false) by (apply diff_orbs_In1; rewrite E1; right; now left).
  assert (C : bit n c = true /\ bit m c = false) by (apply diff_orbs_In2; rewrite E2; now left).
  assert (D : bit n d = true /\ bit m d = false) by (apply diff_orbs_In2; rewrite E2; right; now left).
  unfold pair_body. rewrite (sumf_support _ [((a, b), (c, d))]).
  - cbn [sumf fold_right]. unfold Gq. cbn [fst snd]. unfold G. ring.
  - apply quads_NoDup.
  - constructor; [tauto|constructor].
  - intros q [<-|[]]. apply quads_In. pose proof (fits_lt _ _ _ Fm (proj1 B)). pose proof (fits_lt _ _ _ Fn (proj1 D)). lia.
  - intros [[i j] [p q]] Hq. apply quads_In in Hq. unfold Gq. cbn [fst snd].
    destruct (Z.eq_dec (W m n i j p q) 0) as [E|E]; [left; now apply G_zero|right].
    apply nz2 in E as (Nij & Nkl & Bi & Bj & Bk & Bl & H1 & H2 & _).
    left. destruct A as [A A'], B as [B B'], C as [C C'], D as [D D'].
    destruct (H1 a A A'), (H1 b B B'), (H2 c C C'), (H2 d D D'); subst; try lia; auto.
Qed.

Lemma pair_far : forall k m n,
  length (fst (diff_orbs m n)) <> length (snd (diff_orbs m n)) \/ (2 < length (fst (diff_orbs m n)))%nat ->
  pair_body k two m n = 0.
Proof.
  intros k m n H. unfold pair_body. apply sumf_zero. intros [[i j] [p q]] _. unfold Gq. cbn [fst snd].
  destruct (Z.eq_dec (W m n i j p q) 0) as [E|E]; [now apply G_zero|]. apply W_order in E. lia.
Qed.
End SC2.
