(** Lemmas: excite, ground, shared/diff orbitals, spin splitting, interleaving, spin, seniority. *)
From Coq Require Import List ZArith NArith Bool Lia Sorted Permutation Arith.
From Verif Require Import Py BitSpec BitLemmas Slater SlaterBits.
Import ListNotations.

(** ** excite *)
Lemma div2_double : forall n, Nat.div (n + n) 2 = n.
Proof. intros. replace (n + n) with (n * 2) by lia. apply Nat.div_mul. lia. Qed.
Lemma mod2_double : forall n, Nat.modulo (n + n) 2 = 0.
Proof. intros. replace (n + n) with (n * 2) by lia. apply Nat.mod_mul. lia. Qed.

Lemma excite_app : forall sd a c, length a = length c ->
  excite sd (a ++ c) = Ok (create (annihilate sd a) c).
Proof.
  intros sd a c E. unfold excite. rewrite app_length, <- E, mod2_double, div2_double.
  cbn [negb Nat.eqb]. rewrite firstn_app, skipn_app, firstn_all, skipn_all, Nat.sub_diag.
  simpl. now rewrite app_nil_r.
Qed.

Lemma excite_odd : forall sd l, Nat.odd (length l) = true -> excite sd l = Err ValueError.
Proof.
  intros. unfold excite. rewrite <- Nat.bit0_mod. simpl. now rewrite H.
Qed.

Lemma excite_Some : forall n a c m, length a = length c ->
  excite (Some n) (a ++ c) = Ok (Some m) <->
  NoDup a /\ NoDup c /\ (forall i, In i a -> bit n i = true) /\
  (forall i, In i c -> bit n i = false \/ In i a) /\
  (forall i, bit m i = true <-> ((bit n i = true /\ ~ In i a) \/ In i c)).
Proof.
  intros n a c m E. rewrite excite_app by auto. split.
  - intros [= H]. destruct (annihilate (Some n) a) as [p|] eqn:A; [|now rewrite create_None in H].
    apply annihilate_Some in A as (A1 & A2 & A3). apply create_Some in H as (B1 & B2 & B3).
    repeat split; auto.
    + intros i Hi. specialize (B2 i Hi). rewrite A3 in B2.
      destruct (bit n i); auto. simpl in B2. apply negb_false_iff, setbits_In in B2. now right.
    + rewrite B3, A3, orb_true_iff, andb_true_iff, negb_true_iff, setbits_notIn, setbits_In. tauto.
    + rewrite B3, A3, orb_true_iff, andb_true_iff, negb_true_iff, setbits_notIn, setbits_In. tauto.
  - intros (A1 & B1 & A2 & B2 & H).
    destruct (annihilate_total a n A1 A2) as (p & A). rewrite A.
    apply annihilate_Some in A as (_ & _ & A3).
    f_equal. apply create_Some. repeat split; auto.
    + intros i Hi. rewrite A3. destruct (B2 i Hi) as [->|X]; auto.
      apply setbits_In in X. rewrite X. apply andb_false_r.
    + intros i. apply eq_true_iff_eq.
      rewrite H, A3, orb_true_iff, andb_true_iff, negb_true_iff, setbits_notIn, setbits_In. tauto.
Qed.

Lemma electrons_remove : forall n m k l,
  has_electrons n k -> NoDup l -> (forall i, In i l -> bit n i = true) ->
  (forall i, bit m i = bit n i && negb (setbits l i)) ->
  length l <= k /\ has_electrons m (k - length l).
Proof.
  intros n m k l Hn Nl Hl Hm.
  assert (Hm' := total_occ_has m). set (j := total_occ (Some m)) in *.
  assert (X : has_electrons n (j + length l)).
  { apply (electrons_disjoint_add m n j l); auto.
    - intros i Hi. rewrite Hm, (proj2 (setbits_In l i) Hi). apply andb_false_r.
    - intros i. rewrite Hm. destruct (setbits l i) eqn:S.
      + apply setbits_In in S. rewrite (Hl _ S). reflexivity.
      + now rewrite andb_true_r, orb_false_r. }
  pose proof (has_electrons_unique _ _ _ Hn X). subst k. split; [lia|].
  now replace (j + length l - length l) with j by lia.
Qed.

Lemma excite_electrons : forall sd l n m k,
  sd = Some n -> excite sd l = Ok (Some m) -> has_electrons n k -> has_electrons m k.
Proof.
  intros sd l n m k -> H Hk. unfold excite in H.
  destruct (Nat.eqb (length l mod 2) 0) eqn:E; [|discriminate]. cbn [negb] in H.
  apply Nat.eqb_eq in E. cbv zeta in H. apply Ok_inj in H.
  destruct (annihilate (Some n) (firstn (length l / 2) l)) as [p|] eqn:A; [|now rewrite create_None in H].
  apply annihilate_Some in A as (A1 & A2 & A3). apply create_Some in H as (B1 & B2 & B3).
  destruct (electrons_remove _ _ _ _ Hk A1 A2 A3) as [L Hp].
  pose proof (electrons_disjoint_add _ _ _ _ Hp B1 B2 B3) as X.
  replace k with (k - length (firstn (length l / 2) l) + length (skipn (length l / 2) l)); auto.
  rewrite firstn_length in *. rewrite skipn_length.
  assert (length l = length l / 2 + length l / 2).
  { pose proof (Nat.div_mod (length l) 2). lia. }
  lia.
Qed.

Lemma excite_reverse : forall n a c m, length a = length c ->
  excite (Some n) (a ++ c) = Ok (Some m) -> excite (Some m) (c ++ a) = Ok (Some n).
Proof.
  intros n a c m E H. apply excite_Some in H as (A1 & B1 & A2 & B2 & H); auto.
  apply excite_Some; auto. repeat split; auto.
  - intros i Hi. apply H. now right.
  - intros i Hi. destruct (bit m i) eqn:B; auto. right. apply H in B as [[B1' B2']|B]; tauto.
  - intros Hn. destruct (in_dec Nat.eq_dec i a) as [I|I]; [now right|left].
    split; [apply H; tauto|]. intros Ic. destruct (B2 _ Ic) as [X|X]; [congruence|contradiction].
  - intros [[X Y]|X]; auto. apply H in X as [[X _]|X]; tauto.
Qed.

(** ** ground *)
Lemma rev_repeat : forall {A} (x : A) k, rev (repeat x k) = repeat x k.
Proof.
  induction k as [|k IH]; auto. cbn [repeat rev]. rewrite IH.
  clear. induction k as [|k IH]; simpl; auto. now rewrite IH.
Qed.

Lemma bit_ones : forall k i, bit (digits_to_N (repeat true k)) i = Nat.ltb i k.
Proof. intros. rewrite digits_to_N_bit, rev_repeat. apply nth_repeat_any. Qed.

Lemma bit_ones_zeros : forall k z i,
  bit (digits_to_N (repeat true k ++ repeat false z)) i = Nat.leb z i && Nat.ltb i (z + k).
Proof.
  intros. rewrite digits_to_N_bit, rev_app_distr, !rev_repeat.
  destruct (Nat.leb_spec z i).
  - rewrite app_nth2; rewrite repeat_length; auto. rewrite nth_repeat_any. simpl.
    destruct (Nat.ltb_spec (i - z) k), (Nat.ltb_spec i (z + k)); auto; lia.
  - rewrite app_nth1 by (rewrite repeat_length; auto). now rewrite nth_repeat_any.
Qed.

Lemma int_of_bin_ok : forall l n, int_of_bin l = Ok n <-> l <> [] /\ n = digits_to_N l.
Proof.
  intros [|b l] n; simpl; split.
  - discriminate.
  - intros [H _]. congruence.
  - intros [= <-]. split; [discriminate|auto].
  - intros [_ ->]. reflexivity.
Qed.

Lemma bit_add_disjoint : forall a b, (forall i, bit a i && bit b i = false) ->
  forall i, bit (a + b) i = bit a i || bit b i.
Proof.
  intros a b H i.
  assert (L : N.land a b = 0%N).
  { apply bit_ext. intros j. rewrite bit_land, bit_0. apply H. }
  rewrite N.add_nocarry_lxor, bit_lxor by auto. specialize (H i).
  destruct (bit a i), (bit b i); auto; discriminate.
Qed.

Lemma ground_value : forall nocc norbs n, ground nocc norbs = Ok n ->
  (0 < nocc <= norbs)%Z /\ Z.Even norbs /\
  forall i, bit n i = ground_bits (Z.to_nat ((nocc + 1) / 2)) (Z.to_nat (nocc / 2))
                                  (Z.to_nat (norbs / 2)) i.
Proof.
  intros nocc norbs n H. unfold ground in H.
  destruct (Z.ltb_spec norbs nocc); [discriminate|].
  destruct (Z.eqb_spec (norbs mod 2) 0) as [Ev|Ev]; [|discriminate].
  cbn [negb] in H. unfold py_repeat in H.
  assert (Hc : (nocc / 2 + nocc mod 2 = (nocc + 1) / 2)%Z).
  { pose proof (Z.div_mod nocc 2). pose proof (Z.mod_pos_bound nocc 2).
    pose proof (Z.div_mod (nocc + 1) 2). pose proof (Z.mod_pos_bound (nocc + 1) 2). lia. }
  rewrite Hc in H.
  destruct (int_of_bin (repeat true (Z.to_nat ((nocc + 1) / 2)))) as [a|] eqn:Ea; [|discriminate].
  cbn [bind] in H.
  destruct (int_of_bin (repeat true (Z.to_nat (nocc / 2)) ++ repeat false (Z.to_nat (norbs / 2)))) as [b|] eqn:Eb; [|discriminate].
  cbn [bind] in H. injection H as <-.
  apply int_of_bin_ok in Ea as [Ea ->]. apply int_of_bin_ok in Eb as [Eb ->].
  assert (P : (0 < nocc)%Z).
  { destruct (Z.to_nat ((nocc + 1) / 2)) eqn:E; [simpl in Ea; congruence|].
    pose proof (Z.div_mod (nocc + 1) 2). pose proof (Z.mod_pos_bound (nocc + 1) 2). lia. }
  pose proof (Z.div_mod (nocc + 1) 2) as D1. pose proof (Z.mod_pos_bound (nocc + 1) 2) as D2.
  pose proof (Z.div_mod (nocc) 2) as D3. pose proof (Z.mod_pos_bound (nocc) 2) as D4.
  pose proof (Z.div_mod norbs 2) as D5.
  repeat split; auto.
  - exists (norbs / 2)%Z. lia.
  - intros i. rewrite bit_add_disjoint.
    + rewrite bit_ones, bit_ones_zeros. reflexivity.
    + intros j. rewrite bit_ones, bit_ones_zeros.
      destruct (Nat.ltb_spec j (Z.to_nat ((nocc + 1) / 2))); auto.
      destruct (Nat.leb_spec (Z.to_nat (norbs / 2)) j); auto. exfalso. lia.
Qed.

Lemma ground_defined : forall nocc norbs, (0 < nocc <= norbs)%Z -> Z.Even norbs ->
  exists n, ground nocc norbs = Ok n.
Proof.
  intros nocc norbs H [q Hq]. unfold ground.
  destruct (Z.ltb_spec norbs nocc); [lia|].
  assert (E : (norbs mod 2 = 0)%Z) by (rewrite Hq, Z.mul_comm; apply Z.mod_mul; lia).
  rewrite E. cbn [negb Z.eqb].
  assert (N1 : Z.to_nat (nocc / 2 + nocc mod 2) <> 0).
  { pose proof (Z.div_mod nocc 2). pose proof (Z.mod_pos_bound nocc 2). lia. }
  assert (N2 : Z.to_nat (norbs / 2) <> 0).
  { pose proof (Z.div_mod norbs 2). lia. }
  unfold py_repeat.
  destruct (Z.to_nat (nocc / 2 + nocc mod 2)); [congruence|].
  cbn [repeat int_of_bin bind].
  destruct (repeat true (Z.to_nat (nocc / 2)) ++ repeat false (Z.to_nat (norbs / 2))) eqn:X.
  - apply app_eq_nil in X as [_ X]. destruct (Z.to_nat (norbs / 2)); [congruence|discriminate].
  - cbn [int_of_bin bind]. eauto.
Qed.

Lemma ground_error : forall nocc norbs e, ground nocc norbs = Err e -> e = ValueError.
Proof.
  intros nocc norbs e H. unfold ground in H.
  destruct (_ <? _)%Z; [congruence|]. destruct (negb _); [congruence|].
  unfold int_of_bin in H.
  destruct (py_repeat true (nocc / 2 + nocc mod 2)); simpl in H; [congruence|].
  destruct (py_repeat true (nocc / 2) ++ py_repeat false (norbs / 2)); simpl in H; congruence.
Qed.

Lemma counts_unique : forall P a b, counts P a -> counts P b -> a = b.
Proof.
  intros P a b (l1 & N1 & H1 & <-) (l2 & N2 & H2 & <-).
  apply Permutation_length, NoDup_Permutation; auto. intros x. now rewrite H1, H2.
Qed.

Lemma counts_ext : forall P Q a, (forall i, P i = Q i) -> counts P a -> counts Q a.
Proof.
  intros P Q a E (l & N1 & H1 & <-). exists l. repeat split; auto; rewrite ?H1, ?E; auto;
  intros; apply H1; now rewrite E.
Qed.

Lemma counts_filter : forall P k, (forall i, k <= i -> P i = false) ->
  counts P (length (filter P (seq 0 k))).
Proof.
  intros P k H. exists (filter P (seq 0 k)). repeat split.
  - apply NoDup_filter, seq_NoDup.
  - intros Hi. now apply filter_In in Hi.
  - intros Hi. apply filter_In. split; auto. apply in_seq.
    destruct (Nat.lt_ge_cases i k); [lia|]. rewrite H in Hi by auto. discriminate.
Qed.

Lemma counts_electrons : forall n k, counts (bit n) k <-> has_electrons n k.
Proof. reflexivity. Qed.

Lemma ground_electrons : forall nocc norbs n, ground nocc norbs = Ok n ->
  has_electrons n (Z.to_nat nocc) /\ fits n (Z.to_nat norbs).
Proof.
  intros nocc norbs n H. apply ground_value in H as ((P1 & P2) & [q Ev] & Hb).
  pose proof (Z.div_mod (nocc + 1) 2) as D1. pose proof (Z.mod_pos_bound (nocc + 1) 2) as D2.
  pose proof (Z.div_mod (nocc) 2) as D3. pose proof (Z.mod_pos_bound (nocc) 2) as D4.
  assert (Q : (norbs / 2 = q)%Z) by (rewrite Ev, Z.mul_comm; apply Z.div_mul; lia).
  rewrite Q in Hb.
  set (na := Z.to_nat ((nocc + 1) / 2)) in *. set (nb := Z.to_nat (nocc / 2)) in *.
  set (k := Z.to_nat q) in *.
  assert (Le : na <= k) by lia. assert (Le2 : nb <= k) by lia.
  split.
  - exists (seq 0 na ++ seq k nb). repeat split.
    + assert (forall x, In x (seq 0 na) -> ~ In x (seq k nb)).
      { intros x Hx Hy. apply in_seq in Hx. apply in_seq in Hy. lia. }
      apply increasing_NoDup, increasing_app. repeat split; try apply increasing_seq.
      intros x y Hx Hy. apply in_seq in Hx. apply in_seq in Hy. lia.
    + intros Hi. rewrite Hb. unfold ground_bits. apply orb_true_iff.
      apply in_app_or in Hi as [Hi|Hi]; apply in_seq in Hi.
      * left. apply Nat.ltb_lt. lia.
      * right. apply andb_true_iff. rewrite Nat.leb_le, Nat.ltb_lt. lia.
    + intros Hi. rewrite Hb in Hi. unfold ground_bits in Hi. apply in_or_app.
      apply orb_true_iff in Hi as [Hi|Hi].
      * left. apply Nat.ltb_lt in Hi. apply in_seq. lia.
      * right. apply andb_true_iff in Hi. rewrite Nat.leb_le, Nat.ltb_lt in Hi. apply in_seq. lia.
    + rewrite app_length, !seq_length. lia.
  - intros i Hi. rewrite Hb. unfold ground_bits. apply orb_false_iff. split.
    + apply Nat.ltb_ge. lia.
    + apply andb_false_iff. right. apply Nat.ltb_ge. lia.
Qed.

(** ** shared / different orbitals *)
Lemma shared_orbs_In : forall a b i, In i (shared_orbs a b) <-> bit a i = true /\ bit b i = true.
Proof.
  intros. unfold shared_orbs. rewrite occ_indices_In, bit_land. apply andb_true_iff.
Qed.
Lemma diff_orbs_In1 : forall a b i, In i (fst (diff_orbs a b)) <-> bit a i = true /\ bit b i = false.
Proof.
  intros. unfold diff_orbs. cbn [fst]. rewrite occ_indices_In, bit_land, bit_lxor.
  destruct (bit a i), (bit b i); simpl; intuition congruence.
Qed.
Lemma diff_orbs_In2 : forall a b i, In i (snd (diff_orbs a b)) <-> bit b i = true /\ bit a i = false.
Proof.
  intros. unfold diff_orbs. cbn [snd]. rewrite occ_indices_In, bit_land, bit_lxor.
  destruct (bit a i), (bit b i); simpl; intuition congruence.
Qed.

Lemma NoDup_app_intro : forall {A} (a b : list A), NoDup a -> NoDup b ->
  (forall x, In x a -> ~ In x b) -> NoDup (a ++ b).
Proof.
  induction a as [|x a IH]; intros b Ha Hb D; simpl; auto.
  inversion Ha; subst. constructor.
  - rewrite in_app_iff. intros [?|?]; [contradiction|]. now apply (D x); [left|].
  - apply IH; auto. intros y Hy. apply D. now right.
Qed.

Lemma diff_orbs_perm1 : forall a b,
  Permutation (occ_indices (Some a)) (shared_orbs a b ++ fst (diff_orbs a b)).
Proof.
  intros. apply NoDup_Permutation.
  - apply increasing_NoDup, occ_indices_increasing.
  - apply NoDup_app_intro; try (apply increasing_NoDup, occ_indices_increasing).
    intros x. rewrite shared_orbs_In, diff_orbs_In1. intuition congruence.
  - intros x. rewrite in_app_iff, occ_indices_In, shared_orbs_In, diff_orbs_In1.
    destruct (bit b x); intuition congruence.
Qed.
Lemma diff_orbs_perm2 : forall a b,
  Permutation (occ_indices (Some b)) (shared_orbs a b ++ snd (diff_orbs a b)).
Proof.
  intros. apply NoDup_Permutation.
  - apply increasing_NoDup, occ_indices_increasing.
  - apply NoDup_app_intro; try (apply increasing_NoDup, occ_indices_increasing).
    intros x. rewrite shared_orbs_In, diff_orbs_In2. intuition congruence.
  - intros x. rewrite in_app_iff, occ_indices_In, shared_orbs_In, diff_orbs_In2.
    destruct (bit a x); intuition congruence.
Qed.

Lemma electrons_occ : forall n k, has_electrons n k <-> length (occ_indices (Some n)) = k.
Proof.
  intros. rewrite <- total_occ_length. split.
  - intros H. eapply has_electrons_unique; eauto. apply total_occ_has.
  - intros <-. apply total_occ_has.
Qed.

Lemma diff_orbs_length : forall a b k, has_electrons a k -> has_electrons b k ->
  length (fst (diff_orbs a b)) = length (snd (diff_orbs a b)).
Proof.
  intros a b k Ha Hb. apply electrons_occ in Ha, Hb.
  pose proof (Permutation_length (diff_orbs_perm1 a b)).
  pose proof (Permutation_length (diff_orbs_perm2 a b)).
  rewrite app_length in *. lia.
Qed.

Lemma diff_orbs_excite : forall a b k, has_electrons a k -> has_electrons b k ->
  excite (Some a) (fst (diff_orbs a b) ++ snd (diff_orbs a b)) = Ok (Some b).
Proof.
  intros a b k Ha Hb. apply excite_Some.
  - eapply diff_orbs_length; eauto.
  - repeat split; try (apply increasing_NoDup, occ_indices_increasing).
    + intros i Hi. now apply diff_orbs_In1 in Hi.
    + intros i Hi. apply diff_orbs_In2 in Hi. tauto.
    + intros Hi. rewrite diff_orbs_In1, diff_orbs_In2.
      destruct (bit a i); [left|right]; intuition congruence.
    + rewrite diff_orbs_In1, diff_orbs_In2. destruct (bit b i); intuition congruence.
Qed.

(** ** spin splitting *)
Lemma split_spin_ok : forall n ns, (0 < ns)%Z -> exists a b, split_spin n ns = Ok (a, b) /\
  (forall i, bit a i = Nat.ltb i (Z.to_nat ns) && bit n i) /\
  (forall i, bit b i = bit n (i + Z.to_nat ns)).
Proof.
  intros n ns H. unfold split_spin. destruct (Z.leb_spec ns 0); [lia|].
  unfold py_repeat. destruct (Z.to_nat ns) as [|k] eqn:E; [lia|].
  assert (I : int_of_bin (repeat true (S k)) = Ok (digits_to_N (repeat true (S k)))) by reflexivity.
  rewrite I. cbn [bind]. do 2 eexists. split; [reflexivity|]. split; intros i.
  - rewrite bit_land, bit_ones. apply andb_comm.
  - replace (Z.to_N ns) with (N.of_nat (S k)) by lia. now rewrite bit_shiftr.
Qed.

Lemma split_spin_err : forall n ns, (ns <= 0)%Z -> split_spin n ns = Err ValueError.
Proof. intros. unfold split_spin. now rewrite (proj2 (Z.leb_le _ _)). Qed.

Lemma combine_spin_ok : forall a b ns, (0 < ns)%Z -> exists n, combine_spin a b ns = Ok n /\
  forall i, bit n i = bit a i || (Nat.leb (Z.to_nat ns) i && bit b (i - Z.to_nat ns)).
Proof.
  intros a b ns H. unfold combine_spin. destruct (Z.leb_spec ns 0); [lia|].
  eexists. split; [reflexivity|]. intros i.
  replace (Z.to_N ns) with (N.of_nat (Z.to_nat ns)) by lia. now rewrite bit_lor, bit_shiftl.
Qed.

Lemma split_combine : forall n ns a b, split_spin n ns = Ok (a, b) -> combine_spin a b ns = Ok n.
Proof.
  intros n ns a b H. destruct (Z.leb_spec ns 0).
  - rewrite split_spin_err in H by auto. discriminate.
  - destruct (split_spin_ok n ns) as (a' & b' & E & Ha & Hb); auto. rewrite E in H.
    injection H as <- <-. destruct (combine_spin_ok a' b' ns) as (m & -> & Hm); auto.
    f_equal. apply bit_ext. intros i. rewrite Hm, Ha, Hb.
    destruct (Nat.leb_spec (Z.to_nat ns) i), (Nat.ltb_spec i (Z.to_nat ns)); try lia; simpl.
    + f_equal. lia.
    + apply orb_false_r.
Qed.

Lemma combine_split : forall a b ns n, fits a (Z.to_nat ns) -> combine_spin a b ns = Ok n ->
  split_spin n ns = Ok (a, b).
Proof.
  intros a b ns n F H. destruct (Z.leb_spec ns 0).
  - unfold combine_spin in H. rewrite (proj2 (Z.leb_le _ _)) in H by auto. discriminate.
  - destruct (combine_spin_ok a b ns) as (m & E & Hm); auto. rewrite E in H. injection H as <-.
    destruct (split_spin_ok m ns) as (a' & b' & -> & Ha & Hb); auto.
    f_equal. f_equal; apply bit_ext; intros i.
    + rewrite Ha, Hm. destruct (Nat.ltb_spec i (Z.to_nat ns)).
      * rewrite (proj2 (Nat.leb_gt _ _)) by auto. simpl. apply orb_false_r.
      * symmetry. now apply F.
    + rewrite Hb, Hm, F by lia. rewrite (proj2 (Nat.leb_le _ _)) by lia. simpl. f_equal. lia.
Qed.

(** counting *)
Lemma nbelow_add : forall n k j,
  nbelow n (k + j) = nbelow n k + length (filter (fun i => bit n (i + k)) (seq 0 j)).
Proof.
  induction j as [|j IH].
  - simpl. now rewrite !Nat.add_0_r.
  - rewrite Nat.add_succ_r, nbelow_S, IH, seq_S, filter_app, app_length. simpl.
    rewrite (Nat.add_comm k j). destruct (bit n (j + k)); simpl; lia.
Qed.

Lemma split_electrons : forall n ns a b e ea eb, split_spin n ns = Ok (a, b) ->
  has_electrons n e -> has_electrons a ea -> has_electrons b eb -> e = ea + eb.
Proof.
  intros n ns a b e ea eb H He Hea Heb. destruct (Z.leb_spec ns 0).
  - rewrite split_spin_err in H by auto. discriminate.
  - destruct (split_spin_ok n ns) as (a' & b' & E & Ha & Hb); auto. rewrite E in H.
    injection H as <- <-. set (k := Z.to_nat ns) in *.
    set (L := length (bin_lsb n)). assert (F : fits n (k + L)).
    { eapply fits_mono; [apply fits_bin_lsb|]. unfold L. lia. }
    assert (Fa : fits a' k).
    { intros i Hi. rewrite Ha. now rewrite (proj2 (Nat.ltb_ge _ _)). }
    assert (Fb : fits b' L).
    { intros i Hi. rewrite Hb. apply F. lia. }
    rewrite (has_electrons_unique _ _ _ He (has_electrons_fits _ _ F)).
    rewrite (has_electrons_unique _ _ _ Hea (has_electrons_fits _ _ Fa)).
    rewrite (has_electrons_unique _ _ _ Heb (has_electrons_fits _ _ Fb)).
    rewrite nbelow_add. f_equal.
    + symmetry. apply nbelow_ext. intros i Hi. rewrite Ha. now rewrite (proj2 (Nat.ltb_lt _ _)).
    + unfold nbelow. f_equal. apply filter_seq_ext. intros. now rewrite Hb.
Qed.

Lemma nbelow_lxor : forall a b k,
  nbelow (N.lxor a b) k + 2 * nbelow (N.land a b) k = nbelow a k + nbelow b k.
Proof.
  intros a b. induction k as [|k IH].
  - reflexivity.
  - rewrite !nbelow_S, bit_lxor, bit_land. destruct (bit a k), (bit b k); cbn [xorb andb]; lia.
Qed.

Lemma nbelow_zero : forall n k, fits n k -> (nbelow n k = 0 <-> n = 0%N).
Proof.
  intros n k F. split.
  - intros H. apply bit_ext. intros i. rewrite bit_0. destruct (bit n i) eqn:B; auto.
    assert (I : In i (filter (bit n) (seq 0 k))).
    { apply filter_In. split; auto. apply in_seq. destruct (Nat.lt_ge_cases i k); [lia|].
      rewrite F in B by auto. discriminate. }
    unfold nbelow in H. apply length_zero_iff_nil in H. rewrite H in I. contradiction.
  - intros ->. unfold nbelow. rewrite filter_false; [reflexivity|intros; apply bit_0].
Qed.

Lemma spin_summary : forall n ns, (0 < ns)%Z ->
  exists na nb d v,
    counts (alpha_at n (Z.to_nat ns)) na /\ counts (beta_at n (Z.to_nat ns)) nb /\
    counts (single_at n (Z.to_nat ns)) v /\ has_electrons n (na + nb) /\
    get_spin2 n ns = Ok (Z.of_nat na - Z.of_nat nb)%Z /\
    get_seniority n ns = Ok v /\ v + 2 * d = na + nb /\ d <= na /\ d <= nb /\
    (v = 0 <-> forall i, alpha_at n (Z.to_nat ns) i = beta_at n (Z.to_nat ns) i).
Proof.
  intros n ns H. destruct (split_spin_ok n ns H) as (a & b & E & Ha & Hb).
  unfold get_spin2, get_seniority. rewrite E. cbn [bind fst snd].
  set (k := Z.to_nat ns) in *.
  set (L := Nat.max (length (bin_lsb a)) (length (bin_lsb b))).
  assert (Fa : fits a L) by (eapply fits_mono; [apply fits_bin_lsb|unfold L; lia]).
  assert (Fb : fits b L) by (eapply fits_mono; [apply fits_bin_lsb|unfold L; lia]).
  assert (Fx : fits (N.lxor a b) L).
  { intros i Hi. now rewrite bit_lxor, Fa, Fb. }
  rewrite (total_occ_nbelow a L), (total_occ_nbelow b L), (total_occ_nbelow _ L) by auto.
  exists (nbelow a L), (nbelow b L), (nbelow (N.land a b) L), (nbelow (N.lxor a b) L).
  pose proof (nbelow_lxor a b L) as X.
  assert (LE1 : nbelow (N.land a b) L <= nbelow a L).
  { clear. induction L as [|L IH]; [reflexivity|]. rewrite !nbelow_S, bit_land.
    destruct (bit a L), (bit b L); simpl; lia. }
  assert (LE2 : nbelow (N.land a b) L <= nbelow b L).
  { clear. induction L as [|L IH]; [reflexivity|]. rewrite !nbelow_S, bit_land.
    destruct (bit a L), (bit b L); simpl; lia. }
  repeat split; auto.
  - apply counts_ext with (P := bit a); [apply Ha|]. now apply has_electrons_fits.
  - apply counts_ext with (P := bit b); [apply Hb|]. now apply has_electrons_fits.
  - apply counts_ext with (P := bit (N.lxor a b)).
    + intros i. unfold single_at, alpha_at, beta_at. now rewrite bit_lxor, Ha, Hb.
    + now apply has_electrons_fits.
  - pose proof (total_occ_has n) as T.
    rewrite <- (split_electrons n ns a b _ _ _ E T (has_electrons_fits _ _ Fa) (has_electrons_fits _ _ Fb)). exact T.
  - intros Z i. apply nbelow_zero in Z; auto. apply N.lxor_eq in Z.
    unfold alpha_at, beta_at. now rewrite <- Ha, <- Hb, Z.
  - intros Hi. apply nbelow_zero; auto. apply bit_ext. intros i.
    rewrite bit_0, bit_lxor, Ha, Hb. unfold alpha_at, beta_at in Hi. rewrite Hi. apply xorb_nilpotent.
Qed.

(** ** sign_swap *)
Lemma slice_count : forall (l : list bool) a b,
  count_true (slice l a b) = length (filter (fun i => nth i l false) (seq a (b - a))).
Proof.
  intros l a b. unfold slice, count_true.
  assert (G : forall m l, length (filter (fun b : bool => b) (firstn m l))
              = length (filter (fun i => nth i l false) (seq 0 m))).
  { induction m as [|m IH]; intros l0; auto.
    destruct l0 as [|x l0].
    - simpl firstn. rewrite (filter_false (fun i => nth i [] false)); [reflexivity|]. intros i _. now destruct i.
    - cbn [firstn seq]. rewrite <- seq_shift. cbn [filter].
      change (nth 0 (x :: l0) false) with x.
      assert (X : length (filter (fun i => nth i (x :: l0) false) (map S (seq 0 m)))
                  = length (filter (fun i => nth i l0 false) (seq 0 m))).
      { generalize (seq 0 m). induction l1 as [|y l1 IHl]; auto. cbn [map filter].
        change (nth (S y) (x :: l0) false) with (nth y l0 false). destruct (nth y l0 false); simpl; auto. }
      destruct x; cbn [length]; now rewrite X, IH. }
  rewrite G. clear G.
  assert (X : forall m s, length (filter (fun i => nth i (skipn a l) false) (seq s m))
            = length (filter (fun i => nth i l false) (seq (s + a) m))).
  { induction m as [|m IH]; intros s; auto. cbn [seq filter].
    assert (N : nth s (skipn a l) false = nth (s + a) l false).
    { clear. revert l. induction a as [|a IH]; intros l; [now rewrite Nat.add_0_r|].
      rewrite Nat.add_succ_r. destruct l; simpl; auto. now destruct s. }
    rewrite N. specialize (IH (S s)). destruct (nth (s + a) l false); simpl; auto. }
  apply X.
Qed.

Lemma sign_swap_ok : forall n c f, bit n c = true ->
  sign_swap (Some n) (Z.of_nat c) (Z.of_nat f) = Ok (sgn (Nat.odd (jumped n c f))).
Proof.
  intros n c f B. unfold sign_swap.
  destruct (Z.ltb_spec (Z.of_nat c) 0); [lia|]. destruct (Z.ltb_spec (Z.of_nat f) 0); [lia|].
  rewrite !Nat2Z.id, occ_bit, B. cbn [negb].
  assert (X : (if Nat.ltb c f then count_true (slice (bin_lsb n) (c + 1) (f + 1))
               else count_true (slice (bin_lsb n) f c)) = jumped n c f).
  { assert (Ext : forall l, length (filter (fun i => nth i (bin_lsb n) false) l) = length (filter (bit n) l)).
    { induction l as [|x l IH]; auto. cbn [filter]. rewrite bin_lsb_nth. destruct (bit n x); simpl; auto. }
    unfold jumped. destruct (Nat.ltb_spec c f).
    - rewrite slice_count, Ext. rewrite Nat.min_l, Nat.max_r by lia.
      cbn [seq filter]. rewrite Nat.eqb_refl, andb_false_r.
      replace (f + 1 - (c + 1)) with (f - c) by lia. rewrite Nat.add_1_r.
      f_equal. apply filter_seq_ext. intros i Hi. rewrite (proj2 (Nat.eqb_neq i c)) by lia.
      now rewrite andb_true_r.
    - rewrite slice_count, Ext. rewrite Nat.min_r, Nat.max_l by lia.
      rewrite seq_S, filter_app, app_length. cbn [filter].
      replace (f + (c - f)) with c by lia. rewrite Nat.eqb_refl, andb_false_r. simpl.
      rewrite Nat.add_0_r. f_equal. apply filter_seq_ext. intros i Hi.
      rewrite (proj2 (Nat.eqb_neq i c)) by lia. now rewrite andb_true_r. }
  rewrite X. rewrite <- Nat.bit0_mod. change (Nat.testbit (jumped n c f) 0) with (Nat.odd (jumped n c f)).
  now destruct (Nat.odd (jumped n c f)).
Qed.

Lemma sign_swap_err : forall sd c f,
  (forall n, sd = Some n -> (c < 0)%Z \/ (f < 0)%Z \/ bit n (Z.to_nat c) = false) ->
  sign_swap sd c f = Err ValueError.
Proof.
  intros [n|] c f H; [|reflexivity]. unfold sign_swap. specialize (H n eq_refl).
  destruct (Z.ltb_spec c 0); auto. destruct (Z.ltb_spec f 0); auto.
  rewrite occ_bit. destruct H as [H|[H|H]]; try lia. now rewrite H.
Qed.

(** ** interleaving *)
Lemma evens_nth : forall {A} (l : list A) i d, nth i (evens l) d = nth (2 * i) l d.
Proof.
  intros A l i d. revert i.
  assert (G : forall k l, length l <= k -> forall i, nth i (evens l) d = nth (2 * i) l d).
  { induction k as [|k IH]; intros [|x [|y t]] Hl i; simpl in Hl; try lia.
    - now destruct i.
    - now destruct i.
    - destruct i as [|[|i]]; reflexivity.
    - destruct i as [|i]; [reflexivity|]. simpl evens. cbn [nth].
      rewrite IH by lia. replace (2 * S i) with (S (S (2 * i))) by lia. reflexivity. }
  apply (G (length l)). lia.
Qed.
Lemma odds_nth : forall {A} (l : list A) i d, nth i (odds l) d = nth (2 * i + 1) l d.
Proof.
  intros A [|x t] i d; simpl odds.
  - destruct i; reflexivity.
  - rewrite evens_nth. replace (2 * i + 1) with (S (2 * i)) by lia. reflexivity.
Qed.

Lemma nth_pad : forall l i k, nth i (l ++ repeat false k) false = nth i l false.
Proof.
  intros. destruct (Nat.lt_ge_cases i (length l)).
  - now apply app_nth1.
  - rewrite app_nth2, nth_repeat_any by auto. now rewrite nth_overflow.
Qed.

Lemma pad_bits : forall l i k, nth i (rev (py_repeat false k ++ rev l)) false = nth i l false.
Proof.
  intros. unfold py_repeat. rewrite rev_app_distr, rev_involutive, rev_repeat. apply nth_pad.
Qed.

Lemma evens_length : forall {A} (l : list A), length (evens l) = (length l + 1) / 2.
Proof.
  intros A l.
  assert (G : forall k l, length l <= k -> length (@evens A l) = (length l + 1) / 2).
  { induction k as [|k IH]; intros [|x [|y t]] Hl; simpl in Hl; try lia; try reflexivity.
    simpl evens. cbn [length]. rewrite IH by lia.
    replace (S (S (length t)) + 1) with (length t + 1 + 1 * 2) by lia.
    rewrite Nat.div_add by lia. lia. }
  apply (G (length l)). lia.
Qed.

Lemma bin_lsb_length_fits : forall n k, 0 < k -> fits n k -> length (bin_lsb n) <= k.
Proof.
  intros [|p] k Hk F; [simpl; lia|]. change (length (pdigits p) <= k).
  destruct (Nat.le_gt_cases (length (pdigits p)) k) as [|G]; auto. exfalso.
  assert (L : forall p, pdigits p <> [] /\ last (pdigits p) false = true).
  { clear. induction p as [p IH|p IH|]; simpl; (split; [discriminate|]); auto.
    - destruct IH as [IH1 IH2]. destruct (pdigits p); [congruence|auto].
    - destruct IH as [IH1 IH2]. destruct (pdigits p); [congruence|auto]. }
  specialize (L p) as [L1 L2].
  assert (Nth : forall (l : list bool), l <> [] -> last l false = nth (length l - 1) l false).
  { clear. induction l as [|x [|y l] IH]; intros H; [congruence|reflexivity|].
    change (last (x :: y :: l) false) with (last (y :: l) false).
    rewrite IH by discriminate. simpl. now rewrite Nat.sub_0_r. }
  rewrite Nth in L2 by auto. rewrite pdigits_nth in L2.
  rewrite F in L2 by lia. discriminate.
Qed.

Lemma deinterleave_bits : forall n ns m, deinterleave n ns = Ok m ->
  fits n (2 * Z.to_nat ns) ->
  (0 < ns)%Z /\
  forall i, bit m i = if Nat.ltb i (Z.to_nat ns) then bit n (2 * i)
                      else Nat.ltb i (2 * Z.to_nat ns) && bit n (2 * (i - Z.to_nat ns) + 1).
Proof.
  intros n ns m H F. unfold deinterleave in H. destruct (Z.leb_spec ns 0); [discriminate|].
  split; auto. unfold bin_msb in H. rewrite rev_involutive in H. rewrite !rev_length in H.
  apply int_of_bin_ok in H as [_ ->]. intros i. rewrite digits_to_N_bit, rev_app_distr.
  set (k := Z.to_nat ns) in *.
  assert (Ll : length (bin_lsb n) <= 2 * k) by (apply bin_lsb_length_fits; [lia|auto]).
  set (A := evens (bin_lsb n)). set (B := odds (bin_lsb n)).
  assert (LA : length A <= k).
  { unfold A. rewrite evens_length.
    pose proof (Nat.div_mod (length (bin_lsb n) + 1) 2). pose proof (Nat.mod_upper_bound (length (bin_lsb n) + 1) 2). lia. }
  set (pa := py_repeat false (ns - Z.of_nat (length A)) ++ rev A).
  assert (Lp : length (rev pa) = k).
  { unfold pa, py_repeat. rewrite rev_length, app_length, repeat_length, rev_length. lia. }
  destruct (Nat.ltb_spec i k).
  - rewrite app_nth1 by lia. unfold pa. rewrite pad_bits. unfold A.
    now rewrite evens_nth, bin_lsb_nth.
  - rewrite app_nth2 by lia. rewrite Lp. rewrite pad_bits. unfold B.
    rewrite odds_nth, bin_lsb_nth.
    destruct (Nat.ltb_spec i (2 * k)); [reflexivity|]. simpl. apply F. lia.
Qed.

Lemma deinterleave_ok : forall n ns, (0 < ns)%Z -> exists m, deinterleave n ns = Ok m.
Proof.
  intros n ns H. unfold deinterleave. destruct (Z.leb_spec ns 0); [lia|].
  match goal with |- context [int_of_bin ?l] => destruct l eqn:E end; [|simpl; eauto].
  exfalso. apply app_eq_nil in E as [_ E]. apply app_eq_nil in E as [E1 E2].
  unfold bin_msb in *. rewrite rev_involutive in *. rewrite rev_length in E1.
  apply (f_equal (@length bool)) in E2. rewrite rev_length in E2. simpl in E2.
  rewrite E2 in E1. unfold py_repeat in E1.
  destruct (Z.to_nat (ns - Z.of_nat 0)) eqn:X; [lia|discriminate].
Qed.

Lemma flat_pairs_nth : forall (l1 l2 : list bool) i, length l1 = length l2 ->
  nth i (flat_map (fun p => [fst p; snd p]) (combine l1 l2)) false
  = if Nat.even i then nth (Nat.div2 i) l1 false else nth (Nat.div2 i) l2 false.
Proof.
  induction l1 as [|x l1 IH]; intros [|y l2] i H; simpl in H; try discriminate.
  - cbn [combine flat_map]. destruct (Nat.even i); rewrite !nth_overflow by (simpl; lia); reflexivity.
  - destruct i as [|[|i]]; try reflexivity.
    cbn [combine flat_map fst snd app nth Nat.even Nat.div2]. rewrite IH by lia. reflexivity.
Qed.

Lemma rev_flat_pairs : forall (l1 l2 : list bool), length l1 = length l2 ->
  rev (flat_map (fun p => [fst p; snd p]) (combine l1 l2))
  = flat_map (fun p => [fst p; snd p]) (combine (rev l2) (rev l1)).
Proof.
  induction l1 as [|x l1 IH]; intros [|y l2] H; simpl in H; try discriminate; auto.
  injection H as H. cbn [combine flat_map fst snd app rev]. rewrite IH by auto.
  assert (C : forall (a b : list bool) x y, length a = length b ->
            combine (a ++ [x]) (b ++ [y]) = combine a b ++ [(x, y)]).
  { clear. induction a as [|z a IH]; intros [|w b] x y H; simpl in H; try discriminate; auto.
    simpl. now rewrite IH by lia. }
  rewrite C by (rewrite !rev_length; auto). rewrite flat_map_app. simpl. now rewrite <- app_assoc.
Qed.

Lemma firstn_rev' : forall {A} (l : list A) k, firstn k (rev l) = rev (skipn (length l - k) l).
Proof. intros. apply firstn_rev. Qed.

Lemma interleave_bits : forall n ns m, interleave n ns = Ok m ->
  fits n (2 * Z.to_nat ns) ->
  (0 < ns)%Z /\
  forall i, bit m i = Nat.ltb i (2 * Z.to_nat ns) &&
                      if Nat.even i then bit n (Nat.div2 i) else bit n (Nat.div2 i + Z.to_nat ns).
Proof.
  intros n ns m H F. unfold interleave in H. destruct (Z.leb_spec ns 0); [discriminate|].
  split; auto. apply int_of_bin_ok in H as [_ ->]. intros i.
  set (k := Z.to_nat ns) in *.
  assert (Ll : length (bin_lsb n) <= 2 * k) by (apply bin_lsb_length_fits; [lia|auto]).
  unfold bin_msb. rewrite rev_length. unfold py_repeat.
  set (w := Z.to_nat (ns * 2 - Z.of_nat (length (bin_lsb n)))).
  set (s := bin_lsb n ++ repeat false w).
  assert (Es : repeat false w ++ rev (bin_lsb n) = rev s).
  { unfold s. now rewrite rev_app_distr, rev_repeat. }
  assert (Ls : length s = k + k).
  { unfold s. rewrite app_length, repeat_length. unfold w. lia. }
  rewrite Es. rewrite digits_to_N_bit.
  rewrite firstn_rev, skipn_rev, Ls. replace (k + k - k) with k by lia.
  rewrite rev_flat_pairs, !rev_involutive.
  2:{ rewrite !rev_length, firstn_length, skipn_length. lia. }
  rewrite flat_pairs_nth by (rewrite firstn_length, skipn_length; lia).
  assert (D : i = 2 * Nat.div2 i + (if Nat.even i then 0 else 1)).
  { pose proof (Nat.div2_odd i) as D. rewrite <- Nat.negb_even in D. destruct (Nat.even i); simpl in *; lia. }
  destruct (Nat.even i) eqn:Ev.
  - destruct (Nat.ltb_spec i (2 * k)).
    + assert (Nat.div2 i < k) by lia.
      assert (X : nth (Nat.div2 i) (firstn k s ++ skipn k s) false = nth (Nat.div2 i) (firstn k s) false).
      { apply app_nth1. rewrite firstn_length. lia. }
      rewrite firstn_skipn in X. rewrite <- X, <- bin_lsb_nth. unfold s. simpl andb. apply nth_pad.
    + rewrite nth_overflow; auto. rewrite firstn_length. lia.
  - destruct (Nat.ltb_spec i (2 * k)).
    + assert (X : nth (Nat.div2 i + k) (firstn k s ++ skipn k s) false = nth (Nat.div2 i) (skipn k s) false).
      { rewrite app_nth2; rewrite firstn_length; [f_equal; lia|lia]. }
      rewrite firstn_skipn in X. rewrite <- X, <- bin_lsb_nth. unfold s. simpl andb. apply nth_pad.
    + rewrite nth_overflow; auto. rewrite skipn_length. lia.
Qed.

Lemma interleave_ok : forall n ns, (0 < ns)%Z -> fits n (2 * Z.to_nat ns) ->
  exists m, interleave n ns = Ok m.
Proof.
  intros n ns H F. unfold interleave. destruct (Z.leb_spec ns 0); [lia|].
  match goal with |- context [int_of_bin ?l] => destruct l eqn:E end; [|simpl; eauto].
  exfalso. set (k := Z.to_nat ns) in *.
  match type of E with context [combine ?a ?b] => remember a as u; remember b as v end.
  unfold bin_msb, py_repeat in *.
  assert (Ll : length (bin_lsb n) <= 2 * k) by (apply bin_lsb_length_fits; [lia|auto]).
  assert (length u = k).
  { subst u. rewrite firstn_length, app_length, repeat_length, rev_length. lia. }
  assert (length v = k).
  { subst v. rewrite skipn_length, app_length, repeat_length, rev_length. lia. }
  destruct u, v; simpl in *; try lia. discriminate.
Qed.
