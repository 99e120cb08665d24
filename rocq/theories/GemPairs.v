(** Lemmas about the orbital pairs of the geminal wavefunctions. *)
From Coq Require Import List ZArith NArith Arith Bool Lia QArith Qround.
From Verif Require Import Py Slater Alg Graphs MathTools WfnCI Geminal BicliqueLemmas.
Import ListNotations.
Local Open Scope nat_scope.

Lemma zpair_eqb_eq : forall p q, zpair_eqb p q = true <-> p = q.
Proof.
  intros [a b] [c d]. unfold zpair_eqb. cbn [fst snd]. rewrite andb_true_iff, !Z.eqb_eq. split; [intros [-> ->]; auto|intros [= -> ->]; auto].
Qed.
Lemma pair_index_spec : forall l p i, NoDup l -> (pair_index p l = Some i <-> nth_error l i = Some p).
Proof.
  induction l as [|q l IH]; intros p i N; cbn [pair_index]; [destruct i; split; discriminate|].
  inversion N as [|? ? N1 N2]; subst. destruct (zpair_eqb q p) eqn:E.
  - apply zpair_eqb_eq in E. subst q. destruct i as [|i]; [split; reflexivity|]. cbn [nth_error]. split; [discriminate|].
    intros H. apply nth_error_In in H. contradiction.
  - assert (q <> p) by (intros ->; rewrite (proj2 (zpair_eqb_eq p p) eq_refl) in E; discriminate).
    destruct i as [|i]; cbn [nth_error].
    + split; [destruct (pair_index p l); discriminate|congruence].
    + rewrite <- (IH p i N2). destruct (pair_index p l); cbn; split; congruence.
Qed.
Lemma pair_index_none : forall l p, pair_index p l = None <-> ~ In p l.
Proof.
  induction l as [|q l IH]; intros p; cbn [pair_index In]; [tauto|]. destruct (zpair_eqb q p) eqn:E.
  - apply zpair_eqb_eq in E. subst. split; [discriminate|tauto].
  - rewrite <- (IH p) || idtac. destruct (pair_index p l) eqn:X; cbn.
    + split; [discriminate|]. intros H. exfalso. assert (~ In p l) by tauto. apply IH in H0. congruence.
    + split; auto. intros _ [->|H]; [rewrite (proj2 (zpair_eqb_eq p p) eq_refl) in E; discriminate|].
      destruct (IH p) as [A _]. now apply (A X).
Qed.

(** *** the loop of the base class *)
Lemma existsb_pair : forall p l, existsb (zpair_eqb p) l = true <-> In p l.
Proof.
  intros p l. rewrite existsb_exists. split.
  - intros (q & H & E). apply zpair_eqb_eq in E. now subst.
  - intros H. exists p. split; auto. now apply zpair_eqb_eq.
Qed.
Lemma base_loop_spec : forall l seen, NoDup seen ->
  (forall r, base_pairs_loop seen l = Ok r -> r = rev seen ++ map sort_pair l /\ NoDup r /\ forall p, In p l -> fst p <> snd p) /\
  (forall e, base_pairs_loop seen l = Err e -> e = ValueError /\ ~ ((forall p, In p l -> fst p <> snd p) /\ NoDup (rev seen ++ map sort_pair l))).
Proof.
  induction l as [|p l IH]; intros seen N; cbn [base_pairs_loop map].
  - rewrite app_nil_r. split; intros r E; [|discriminate]. injection E as <-. split; auto. split; [now apply NoDup_rev|intros p []].
  - destruct (Z.eqb_spec (fst p) (snd p)) as [E|E].
    + split; intros r Q; [discriminate|]. injection Q as <-. split; auto. intros [H _]. apply (H p); auto. now left.
    + destruct (existsb (zpair_eqb (sort_pair p)) seen) eqn:X.
      * apply existsb_pair in X. split; intros r Q; [discriminate|]. injection Q as <-. split; auto. intros [_ H].
        apply NoDup_remove_2 in H. apply H. apply in_or_app. left. now apply -> in_rev.
      * assert (N' : NoDup (sort_pair p :: seen)).
        { constructor; auto. intros H. apply existsb_pair in H. congruence. }
        destruct (IH _ N') as [A B]. cbn [rev] in A, B. rewrite <- app_assoc in B. cbn [app] in B. split.
        -- intros r Q. apply A in Q as (-> & Nr & H). rewrite <- app_assoc. split; [reflexivity|]. split.
           ++ now rewrite <- app_assoc in Nr.
           ++ intros q [<-|Hq]; auto.
        -- intros e Q. apply B in Q as [-> H]. split; auto. intros [H1 H2]. apply H. split; auto. intros q Hq. apply H1. now right.
Qed.
Lemma sort_pair_lt : forall p, fst p <> snd p -> (fst (sort_pair p) < snd (sort_pair p))%Z.
Proof. intros [a b] H. unfold sort_pair. cbn [fst snd] in *. destruct (Z.ltb_spec b a); cbn [fst snd]; lia. Qed.
Lemma sort_pair_id : forall p, (fst p < snd p)%Z -> sort_pair p = p.
Proof. intros [a b] H. unfold sort_pair. cbn [fst snd] in *. destruct (Z.ltb_spec b a); auto; lia. Qed.

(** *** all pairs *)
Definition row (n i : nat) : list (Z * Z) := map (fun j => (Z.of_nat i, Z.of_nat j)) (seq (S i) (n - S i)).
Lemma all_pairs_row : forall n, all_pairs n = flat_map (row n) (seq 0 n).
Proof. reflexivity. Qed.
Lemma prefix_length : forall n i, i <= n -> 2 * length (flat_map (row n) (seq 0 i)) + i * (i + 1) = 2 * n * i.
Proof.
  induction i as [|i IH]; intros H; [cbn; lia|]. rewrite seq_S, flat_map_app, app_length. cbn [Nat.add flat_map]. rewrite app_nil_r.
  unfold row at 2. rewrite map_length, seq_length. specialize (IH ltac:(lia)). nia.
Qed.
Lemma all_pairs_nth : forall n i j, i < j -> j < n ->
  nth_error (all_pairs n) (length (flat_map (row n) (seq 0 i)) + (j - i - 1)) = Some (Z.of_nat i, Z.of_nat j).
Proof.
  intros n i j H1 H2. rewrite all_pairs_row. replace (seq 0 n) with (seq 0 i ++ seq i (S (n - i - 1))) by (rewrite <- seq_app; f_equal; lia).
  rewrite flat_map_app, nth_error_app2 by lia. replace (_ + _ - _) with (j - i - 1) by lia. cbn [seq flat_map].
  rewrite nth_error_app1; [|unfold row; rewrite map_length, seq_length; lia].
  unfold row. assert (Q : nth_error (seq (S i) (n - S i)) (j - i - 1) = Some j).
  { rewrite (nth_error_nth' _ 0) by (rewrite seq_length; lia). rewrite seq_nth by lia. f_equal. lia. }
  now rewrite (map_nth_error _ _ _ Q).
Qed.
Lemma all_pairs_In : forall n p, In p (all_pairs n) <-> (0 <= fst p < snd p)%Z /\ (snd p < Z.of_nat n)%Z.
Proof.
  intros n [a b]. unfold all_pairs. rewrite in_flat_map. cbn [fst snd]. split.
  - intros (i & Hi & H). apply in_map_iff in H as (j & [= <- <-] & Hj). apply in_seq in Hi, Hj. lia.
  - intros [H1 H2]. exists (Z.to_nat a). split; [apply in_seq; lia|]. apply in_map_iff. exists (Z.to_nat b).
    split; [f_equal; lia|]. apply in_seq. lia.
Qed.
Lemma all_pairs_NoDup : forall n, NoDup (all_pairs n).
Proof.
  intros n. unfold all_pairs. assert (G : forall l, NoDup l -> NoDup (flat_map (row n) l)).
  { induction l as [|i l IH]; intros N; [constructor|]. inversion N as [|? ? N1 N2]; subst. cbn [flat_map].
    apply NoDup_app_iff. split; [|split; auto].
    - unfold row. apply FinFun.Injective_map_NoDup; [|apply seq_NoDup]. intros x y [= E]. lia.
    - intros p H1 H2. apply in_flat_map in H2 as (i' & Hi' & H2). unfold row in H1, H2.
      apply in_map_iff in H1 as (x & <- & _). apply in_map_iff in H2 as (y & [= E _] & _). apply Nat2Z.inj in E. congruence. }
  apply (G (seq 0 n)). apply seq_NoDup.
Qed.
Lemma tri_even : forall i, exists t, (i * (i + 1) = 2 * t)%Z.
Proof. intros i. destruct (Z.Even_or_Odd i) as [[q ->]|[q ->]]; [exists (q * (2 * q + 1))%Z|exists ((2 * q + 1) * (q + 1))%Z]; ring. Qed.
Lemma tri_div : forall i t, (i * (i + 1) = 2 * t -> i * (i + 1) / 2 = t)%Z.
Proof. intros i t ->. now rewrite Z.mul_comm, Z.div_mul. Qed.
Lemma apg_col_spec : forall n p c, apg_col_ind (Z.of_nat n) p = Ok c <->
  (0 <= c)%Z /\ nth_error (all_pairs n) (Z.to_nat c) = Some (sort_pair p).
Proof.
  intros n p c. unfold apg_col_ind. destruct (sort_pair p) as [i j] eqn:E.
  destruct ((0 <=? i) && (i <? j) && (j <? Z.of_nat n))%Z eqn:B.
  - apply andb_prop in B as [B B3]. apply andb_prop in B as [B1 B2]. apply Z.leb_le in B1. apply Z.ltb_lt in B2, B3.
    destruct (tri_even i) as [t T]. rewrite (tri_div _ _ T).
    pose proof (prefix_length n (Z.to_nat i) ltac:(lia)) as L. set (len := length _) in L.
    pose proof (all_pairs_nth n (Z.to_nat i) (Z.to_nat j) ltac:(lia) ltac:(lia)) as Q. fold len in Q. rewrite !Z2Nat.id in Q by lia.
    assert (V : (Z.of_nat n * i - t + (j - i - 1) = Z.of_nat (len + (Z.to_nat j - Z.to_nat i - 1)))%Z) by nia.
    rewrite V. split.
    + intros [= <-]. split; [lia|]. now rewrite Nat2Z.id.
    + intros [P H]. f_equal.
      assert (X : len + (Z.to_nat j - Z.to_nat i - 1) = Z.to_nat c).
      { pose proof (all_pairs_NoDup n) as Nd. rewrite NoDup_nth_error in Nd. apply Nd; [|congruence]. apply nth_error_Some. congruence. }
      lia.
  - split; [discriminate|]. intros [_ H]. apply nth_error_In, all_pairs_In in H. cbn [fst snd] in H.
    assert (X : ((0 <=? i) && (i <? j) && (j <? Z.of_nat n))%Z = true); [|congruence].
    rewrite !andb_true_iff, Z.leb_le, !Z.ltb_lt. lia.
Qed.
(** *** alpha-beta pairs *)
Definition ab_pairs (k : nat) : list (Z * Z) := flat_map (fun i => map (fun j => (Z.of_nat i, Z.of_nat j)) (seq k k)) (seq 0 k).
Lemma ab_prefix : forall k l, length (flat_map (fun i => map (fun j => (Z.of_nat i, Z.of_nat j)) (seq k k)) l) = k * length l.
Proof. induction l as [|i l IH]; cbn; [lia|]. rewrite app_length, map_length, seq_length, IH. lia. Qed.
Lemma ab_nth : forall k i j, i < k -> k <= j -> j < 2 * k -> nth_error (ab_pairs k) (k * i + (j - k)) = Some (Z.of_nat i, Z.of_nat j).
Proof.
  intros k i j H1 H2 H3. unfold ab_pairs. replace (seq 0 k) with (seq 0 i ++ seq i (S (k - i - 1))) at 1 by (rewrite <- seq_app; f_equal; lia).
  rewrite flat_map_app, nth_error_app2 by (rewrite ab_prefix, seq_length; lia). rewrite ab_prefix, seq_length.
  replace (k * i + (j - k) - k * i) with (j - k) by lia. cbn [seq flat_map].
  rewrite nth_error_app1 by (rewrite map_length, seq_length; lia).
  assert (Q : nth_error (seq k k) (j - k) = Some j).
  { rewrite (nth_error_nth' _ 0) by (rewrite seq_length; lia). rewrite seq_nth by lia. f_equal. lia. }
  now rewrite (map_nth_error _ _ _ Q).
Qed.
Lemma ab_In : forall k p, In p (ab_pairs k) <-> (0 <= fst p < Z.of_nat k)%Z /\ (Z.of_nat k <= snd p < 2 * Z.of_nat k)%Z.
Proof.
  intros k [a b]. unfold ab_pairs. rewrite in_flat_map. cbn [fst snd]. split.
  - intros (i & Hi & H). apply in_map_iff in H as (j & [= <- <-] & Hj). apply in_seq in Hi, Hj. lia.
  - intros [H1 H2]. exists (Z.to_nat a). split; [apply in_seq; lia|]. apply in_map_iff. exists (Z.to_nat b).
    split; [f_equal; lia|]. apply in_seq. lia.
Qed.
Lemma ab_NoDup : forall k, NoDup (ab_pairs k).
Proof.
  intros k. unfold ab_pairs. assert (G : forall l, NoDup l -> NoDup (flat_map (fun i => map (fun j => (Z.of_nat i, Z.of_nat j)) (seq k k)) l)).
  { induction l as [|i l IH]; intros N; [constructor|]. inversion N as [|? ? N1 N2]; subst. cbn [flat_map].
    apply NoDup_app_iff. split; [|split; auto].
    - apply FinFun.Injective_map_NoDup; [|apply seq_NoDup]. intros x y [= E]. lia.
    - intros p H1 H2. apply in_flat_map in H2 as (i' & Hi' & H2).
      apply in_map_iff in H1 as (x & <- & _). apply in_map_iff in H2 as (y & [= E _] & _). apply Nat2Z.inj in E. congruence. }
  apply G. apply seq_NoDup.
Qed.
Lemma set_col_spec : forall k p c, set_col_ind (2 * Z.of_nat k) p = Ok c <->
  (0 <= c)%Z /\ nth_error (ab_pairs k) (Z.to_nat c) = Some p.
Proof.
  intros k [i j] c. unfold set_col_ind. rewrite (Z.mul_comm 2), Z.div_mul by lia.
  destruct ((0 <=? i) && (i <? Z.of_nat k) && (Z.of_nat k <=? j) && (j <? Z.of_nat k * 2))%Z eqn:B.
  - rewrite !andb_true_iff, !Z.leb_le, !Z.ltb_lt in B.
    pose proof (ab_nth k (Z.to_nat i) (Z.to_nat j) ltac:(lia) ltac:(lia) ltac:(lia)) as Q. rewrite !Z2Nat.id in Q by lia.
    assert (V : (Z.of_nat k * i + j - Z.of_nat k = Z.of_nat (k * Z.to_nat i + (Z.to_nat j - k)))%Z) by nia.
    rewrite V. split.
    + intros [= <-]. split; [lia|]. now rewrite Nat2Z.id.
    + intros [P H]. f_equal.
      assert (X : k * Z.to_nat i + (Z.to_nat j - k) = Z.to_nat c).
      { pose proof (ab_NoDup k) as Nd. rewrite NoDup_nth_error in Nd. apply Nd; [|congruence]. apply nth_error_Some. congruence. }
      lia.
  - split; [discriminate|]. intros [_ H]. apply nth_error_In, ab_In in H. cbn [fst snd] in H.
    assert (X : ((0 <=? i) && (i <? Z.of_nat k) && (Z.of_nat k <=? j) && (j <? Z.of_nat k * 2))%Z = true); [|congruence].
    rewrite !andb_true_iff, !Z.leb_le, !Z.ltb_lt. lia.
Qed.
Lemma base_col_spec : forall l p c, NoDup l -> (base_col_ind l p = Ok c <-> (0 <= c)%Z /\ nth_error l (Z.to_nat c) = Some p).
Proof.
  intros l p c N. unfold base_col_ind. destruct (pair_index p l) as [i|] eqn:E.
  - apply pair_index_spec in E; auto. split.
    + intros [= <-]. split; [lia|]. now rewrite Nat2Z.id.
    + intros [P H]. f_equal. assert (i = Z.to_nat c); [|lia]. rewrite NoDup_nth_error in N. apply N; [|congruence].
      apply nth_error_Some. congruence.
  - split; [discriminate|]. intros [_ H]. apply pair_index_spec in H; auto. congruence.
Qed.
