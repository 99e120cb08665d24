From Coq Require Import List ZArith NArith Bool Lia Arith Permutation Sorted.
From Verif Require Import Py BitSpec BitLemmas Slater SlaterBits SlaterBits2 Fock FockLemmas SignLemmas Alg Combos PermLemmas
  HamSpec HamGen FockInner.
Import ListNotations.

Lemma setbits_cons : forall x l i, setbits (x :: l) i = Nat.eqb i x || setbits l i.
Proof. reflexivity. Qed.
Lemma setbits_nil : forall i, setbits [] i = false.
Proof. reflexivity. Qed.

(** sign of the excitation from the first to the second determinant *)
Lemma sign_code : forall m n, exists b,
  sign_excite (Some m) (fst (diff_orbs m n)) (rev (snd (diff_orbs m n))) = Ok (sgn b) /\
  inner (applys (map Ann (fst (diff_orbs m n))) (Some (false, m)))
        (applys (map Ann (snd (diff_orbs m n))) (Some (false, n))) = sgn b.
Proof.
  intros m n. set (d1 := fst (diff_orbs m n)). set (d2 := snd (diff_orbs m n)).
  assert (N1 : NoDup d1) by (apply increasing_NoDup, occ_indices_increasing).
  assert (N2 : NoDup d2) by (apply increasing_NoDup, occ_indices_increasing).
  destruct (inner_one d1 m n d2 N1 N2) as (b & E).
  - intros i Hi. now apply diff_orbs_In1 in Hi.
  - intros i Hi. now apply diff_orbs_In2 in Hi.
  - intros i. destruct (setbits d1 i) eqn:S1, (setbits d2 i) eqn:S2; cbn [negb];
      rewrite ?andb_true_r, ?andb_false_r; auto.
    + apply setbits_In, diff_orbs_In1 in S1 as [_ ->]. auto.
    + apply setbits_In, diff_orbs_In2 in S2 as [_ ->]. auto.
    + apply setbits_notIn in S1, S2. destruct (bit m i) eqn:B1, (bit n i) eqn:B2; auto; exfalso.
      * apply S1. apply diff_orbs_In1. auto.
      * apply S2. apply diff_orbs_In2. auto.
  - exists b. split; auto. rewrite sign_excite_eq, applys_app.
    rewrite inner_sym in E. rewrite <- inner_cre_list in E.
    destruct (applys (map Cre (rev d2)) (applys (map Ann d1) (Some (false, m)))) as [[c p]|].
    + simpl in E. destruct (N.eqb n p); [|destruct b; discriminate]. f_equal.
      destruct b, c; simpl in *; congruence.
    + simpl in E. destruct b; discriminate.
Qed.

Lemma nz1 : forall m n i j, inner (applys [Ann i] (Some (false, m))) (applys [Ann j] (Some (false, n))) <> 0%Z ->
  bit m i = true /\ bit n j = true /\
  (forall x, bit m x = true -> bit n x = false -> x = i) /\
  (forall x, bit n x = true -> bit m x = false -> x = j) /\
  (i = j \/ bit n i = false) /\ (j = i \/ bit m j = false).
Proof.
  intros m n i j H. change [Ann i] with (map Ann [i]) in H. change [Ann j] with (map Ann [j]) in H.
  apply inner_nz in H as (_ & _ & H1 & H2 & E).
  assert (Bi : bit m i = true) by (apply H1; now left).
  assert (Bj : bit n j = true) by (apply H2; now left).
  repeat split; auto.
  - intros x A B. specialize (E x). rewrite A, B, setbits_cons, setbits_nil in E.
    destruct (Nat.eqb_spec x i); auto. discriminate.
  - intros x A B. specialize (E x). rewrite A, B, !setbits_cons, !setbits_nil in E.
    destruct (Nat.eqb_spec x j); auto. discriminate.
  - specialize (E i). rewrite !setbits_cons, !setbits_nil, Nat.eqb_refl, Bi in E. cbn [orb negb andb] in E.
    destruct (Nat.eqb_spec i j); auto. right. cbn [orb negb] in E. now rewrite andb_true_r in E.
  - specialize (E j). rewrite !setbits_cons, !setbits_nil, Nat.eqb_refl, Bj in E. cbn [orb negb andb] in E.
    destruct (Nat.eqb_spec j i); auto. right. cbn [orb negb] in E. now rewrite andb_true_r in E.
Qed.

Lemma nz2 : forall m n i j k l,
  inner (applys [Ann i; Ann j] (Some (false, m))) (applys [Ann k; Ann l] (Some (false, n))) <> 0%Z ->
  i <> j /\ k <> l /\ bit m i = true /\ bit m j = true /\ bit n k = true /\ bit n l = true /\
  (forall x, bit m x = true -> bit n x = false -> x = i \/ x = j) /\
  (forall x, bit n x = true -> bit m x = false -> x = k \/ x = l) /\
  (i = k \/ i = l \/ bit n i = false) /\ (j = k \/ j = l \/ bit n j = false) /\
  (k = i \/ k = j \/ bit m k = false) /\ (l = i \/ l = j \/ bit m l = false).
Proof.
  intros m n i j k l H. change [Ann i; Ann j] with (map Ann [i; j]) in H.
  change [Ann k; Ann l] with (map Ann [k; l]) in H.
  apply inner_nz in H as (N1 & N2 & H1 & H2 & E).
  assert (Bi : bit m i = true) by (apply H1; now left).
  assert (Bj : bit m j = true) by (apply H1; right; now left).
  assert (Bk : bit n k = true) by (apply H2; now left).
  assert (Bl : bit n l = true) by (apply H2; right; now left).
  assert (E' : forall x, bit m x && negb (Nat.eqb x i || Nat.eqb x j) = bit n x && negb (Nat.eqb x k || Nat.eqb x l)).
  { intros x. specialize (E x). rewrite !setbits_cons, !setbits_nil, !orb_false_r in E. auto. }
  clear E. repeat split; auto.
  - intros ->. inversion N1 as [|? ? X _]; subst. apply X. now left.
  - intros ->. inversion N2 as [|? ? X _]; subst. apply X. now left.
  - intros x A B. specialize (E' x). rewrite A, B in E'.
    destruct (Nat.eqb_spec x i); auto. destruct (Nat.eqb_spec x j); auto. discriminate.
  - intros x A B. specialize (E' x). rewrite A, B in E'.
    destruct (Nat.eqb_spec x k); auto. destruct (Nat.eqb_spec x l); auto. discriminate.
  - specialize (E' i). rewrite Bi, Nat.eqb_refl in E'. cbn [orb negb andb] in E'.
    destruct (Nat.eqb_spec i k); auto. destruct (Nat.eqb_spec i l); auto.
    cbn [orb negb] in E'. rewrite andb_true_r in E'. auto.
  - specialize (E' j). rewrite Bj, Nat.eqb_refl, orb_true_r in E'. cbn [orb negb andb] in E'.
    destruct (Nat.eqb_spec j k); auto. destruct (Nat.eqb_spec j l); auto.
    cbn [orb negb] in E'. rewrite andb_true_r in E'. auto.
  - specialize (E' k). rewrite Bk, Nat.eqb_refl in E'. cbn [orb negb andb] in E'.
    destruct (Nat.eqb_spec k i); auto. destruct (Nat.eqb_spec k j); auto.
    cbn [orb negb] in E'. rewrite andb_true_r in E'. auto.
  - specialize (E' l). rewrite Bl, Nat.eqb_refl, orb_true_r in E'. cbn [orb negb andb] in E'.
    destruct (Nat.eqb_spec l i); auto. destruct (Nat.eqb_spec l j); auto.
    cbn [orb negb] in E'. rewrite andb_true_r in E'. auto.
Qed.

Section SC.
Context {K : CRing}.
Local Open Scope cr_scope.
Add Ring K_ring12 : (rth K).

Definition W (m n : N) (i j k l : nat) : Z :=
  inner (applys [Ann i; Ann j] (Some (false, m))) (applys [Ann k; Ann l] (Some (false, n))).
Definition V (m n : N) (i j : nat) : Z :=
  inner (applys [Ann i] (Some (false, m))) (applys [Ann j] (Some (false, n))).
Lemma W_values : forall m n i j k l, W m n i j k l = 0%Z \/ W m n i j k l = 1%Z \/ W m n i j k l = (-1)%Z.
Proof. intros. apply inner_values. Qed.

Definition G (two : nat -> nat -> nat -> nat -> K) m n i j k l : K :=
  (two i j k l - two i j l k) * sgnr (W m n i j k l).
Lemma G_swap_l : forall two m n i j k l, two_sym two -> G two m n j i k l = G two m n i j k l.
Proof.
  intros two m n i j k l S. unfold G. destruct (Nat.eq_dec i j) as [->|H]; [reflexivity|].
  assert (E : W m n j i k l = (- W m n i j k l)%Z) by (apply inner_swap_l; auto).
  rewrite E, sgnr_opp by apply W_values. rewrite (S j i k l), (S j i l k). ring.
Qed.
Lemma G_swap_r : forall two m n i j k l, G two m n i j l k = G two m n i j k l.
Proof.
  intros two m n i j k l. unfold G. destruct (Nat.eq_dec k l) as [->|H]; [reflexivity|].
  assert (E : W m n i j l k = (- W m n i j k l)%Z) by (apply inner_swap_r; auto).
  rewrite E, sgnr_opp by apply W_values. ring.
Qed.
Lemma G_zero : forall two m n i j k l, W m n i j k l = 0%Z -> G two m n i j k l = 0.
Proof. intros two m n i j k l E. unfold G. rewrite E, sgnr_0. ring. Qed.

Local Notation quad := ((nat * nat) * (nat * nat))%type.
Definition Gq two m n (q : quad) := G two m n (fst (fst q)) (snd (fst q)) (fst (snd q)) (snd (snd q)).
Definition quads (k : nat) : list quad := list_prod (pairs (seq 0 k)) (pairs (seq 0 k)).
Definition pair_body (k : nat) two (m n : N) : K := sumf (Gq two m n) (quads k).

Lemma list_prod_NoDup : forall {A B} (a : list A) (b : list B), NoDup a -> NoDup b -> NoDup (list_prod a b).
Proof.
  induction a as [|x a IH]; intros b Na Nb; [constructor|]. inversion Na; subst. cbn [list_prod].
  apply NoDup_app_intro'; auto.
  - apply NoDup_map_inj; auto. congruence.
  - intros [u v] H C. apply in_map_iff in H as (y & E & _). injection E as <- _. apply in_prod_iff in C. tauto.
Qed.
Lemma quads_NoDup : forall k, NoDup (quads k).
Proof. intros. apply list_prod_NoDup; apply pairs_NoDup, seq_NoDup. Qed.
Lemma quads_In : forall k i j p q, In ((i, j), (p, q)) (quads k) <-> (i < j /\ j < k /\ p < q /\ q < k)%nat.
Proof.
  intros. unfold quads. rewrite in_prod_iff, !pairs_In by apply increasing_seq. rewrite !in_seq. lia.
Qed.

Lemma two_body_pairs : forall k two m n, two_sym two ->
  two_body k two m n = pair_body k two m n + pair_body k two m n.
Proof.
  intros k two m n S. unfold two_body.
  set (T := fun i j p q => two i j p q * sgnr (W m n i j p q)).
  assert (E1 : forall i j, sumf (fun p => sumf (fun q => two i j p q * sgnr (melem m [Ann p; Ann q; Cre j; Cre i] n)) (seq 0 k)) (seq 0 k)
     = sumf (fun pq => G two m n i j (fst pq) (snd pq)) (pairs (seq 0 k))).
  { intros i j. rewrite (sum2_pairs (fun p q => two i j p q * sgnr (melem m [Ann p; Ann q; Cre j; Cre i] n))).
    rewrite (sumf_zero (fun i0 => two i j i0 i0 * _)).
    2:{ intros p _. rewrite melem2_inner, inner_twice_r, sgnr_0. ring. }
    transitivity (sumf (fun pq => G two m n i j (fst pq) (snd pq)) (pairs (seq 0 k)) + 0); [|ring].
    f_equal. apply sumf_ext. intros [p q] Hp. apply pairs_In in Hp as (_ & _ & L); [|apply increasing_seq].
    cbn [fst snd]. rewrite !melem2_inner. unfold G, W. rewrite (inner_swap_r p q) by lia.
    rewrite sgnr_opp by apply inner_values. ring. }
  transitivity (sumf (fun i => sumf (fun j => sumf (fun pq => G two m n i j (fst pq) (snd pq)) (pairs (seq 0 k))) (seq 0 k)) (seq 0 k)).
  { apply sumf_ext. intros i _. apply sumf_ext. intros j _. apply E1. }
  rewrite (sum2_pairs (fun i j => sumf (fun pq => G two m n i j (fst pq) (snd pq)) (pairs (seq 0 k)))).
  rewrite (sumf_zero (fun i => sumf _ _)).
  2:{ intros i _. apply sumf_zero. intros pq _. apply G_zero. apply inner_twice_l. }
  unfold pair_body, quads. rewrite sumf_prod. rewrite <- sumf_add.
  match goal with |- ?a + 0 = ?b => transitivity a; [ring|] end.
  apply sumf_ext. intros [i j] _. unfold Gq. cbn [fst snd].
  f_equal. apply sumf_ext. intros pq _. now apply G_swap_l.
Qed.

Lemma one_body_prod : forall k (one : nat -> nat -> K) m n, one_body k one m n
  = sumf (fun p : nat * nat => one (fst p) (snd p) * sgnr (V m n (fst p) (snd p))) (list_prod (seq 0 k) (seq 0 k)).
Proof.
  intros. rewrite sumf_prod. apply sumf_ext. intros i _. apply sumf_ext. intros j _. cbn [fst snd].
  now rewrite melem1_inner.
Qed.

Lemma triu_sum_pairs : forall (f : nat -> nat -> K) l, triu_sum f l = sumf (fun p => f (fst p) (snd p)) (pairs l).
Proof.
  intros f l. unfold triu_sum. rewrite psum_sumf.
  assert (E : forall p, psum (fun q => if Nat.ltb p q then f (nth p l 0%nat) (nth q l 0%nat) else 0) (seq 0 (length l))
     = sumf (fun q => if Nat.ltb p q then f (nth p l 0%nat) (nth q l 0%nat) else 0) (seq 0 (length l))) by (intros; apply psum_sumf).
  erewrite sumf_ext by (intros; apply E). clear E.
  induction l as [|x l IH]; [reflexivity|]. cbn [length seq pairs]. rewrite sumf_app, sumf_map, sumf_cons.
  f_equal.
  - rewrite sumf_cons. cbn [Nat.ltb Nat.leb nth fst snd].
    rewrite <- seq_shift, sumf_map.
    transitivity (sumf (fun q => f x (nth q l 0%nat)) (seq 0 (length l))).
    { transitivity (0 + sumf (fun q => f x (nth q l 0%nat)) (seq 0 (length l))); [|ring]. f_equal. }
    clear. induction l as [|y l IH]; [reflexivity|]. cbn [length seq]. rewrite !sumf_cons. f_equal; auto.
    rewrite <- seq_shift, sumf_map. apply IH.
  - rewrite <- seq_shift, sumf_map, <- IH. apply sumf_ext. intros p _.
    rewrite sumf_cons. cbn [Nat.ltb Nat.leb nth]. rewrite sumf_map.
    match goal with |- 0 + ?a = ?b => transitivity a; [ring|] end. apply sumf_ext. intros q _. reflexivity.
Qed.
End SC.
