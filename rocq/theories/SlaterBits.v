(** Lemmas: bit-level meaning of the functions of slater.py that do not involve signs. *)
From Coq Require Import List ZArith NArith Bool Lia Sorted Permutation Arith.
From Verif Require Import Py BitSpec BitLemmas Slater.
Import ListNotations.

Lemma occ_bit : forall n i, occ (Some n) i = bit n i.
Proof.
  intros. unfold occ. rewrite <- N.bit0_mod.
  change (N.testbit (N.shiftr n (N.of_nat i)) 0) with (bit (N.shiftr n (N.of_nat i)) 0).
  rewrite bit_shiftr. simpl. now destruct (bit n i).
Qed.

Lemma enumerate_filter : forall (l : list bool) a,
  map fst (filter snd (combine (seq a (length l)) l))
  = filter (fun i => nth (i - a) l false) (seq a (length l)).
Proof.
  induction l as [|b l IH]; intros a; [reflexivity|].
  cbn [length seq combine filter snd]. rewrite Nat.sub_diag. change (nth 0 (b :: l) false) with b.
  assert (E : filter (fun i => nth (i - a) (b :: l) false) (seq (S a) (length l))
              = filter (fun i => nth (i - S a) l false) (seq (S a) (length l))).
  { apply filter_seq_ext. intros i Hi. replace (i - a) with (S (i - S a)) by lia. reflexivity. }
  rewrite E, <- IH. destruct b; reflexivity.
Qed.

Lemma occ_indices_filter : forall n,
  occ_indices (Some n) = filter (bit n) (seq 0 (length (bin_lsb n))).
Proof.
  intros. unfold occ_indices, enumerate. rewrite enumerate_filter.
  apply filter_seq_ext. intros i Hi. rewrite Nat.sub_0_r. apply bin_lsb_nth.
Qed.

Lemma occ_indices_fits : forall n k, fits n k ->
  occ_indices (Some n) = filter (bit n) (seq 0 k).
Proof.
  intros. rewrite occ_indices_filter. apply orbs_fits_indep'; auto. apply fits_bin_lsb.
Qed.

Lemma occ_indices_increasing : forall sd, increasing (occ_indices sd).
Proof.
  intros [n|]; [|constructor]. rewrite occ_indices_filter. apply increasing_filter, increasing_seq.
Qed.

Lemma occ_indices_In : forall n i, In i (occ_indices (Some n)) <-> bit n i = true.
Proof.
  intros. rewrite occ_indices_filter, filter_In, in_seq. split; [tauto|].
  intros H. split; auto. split; [lia|].
  destruct (Nat.lt_ge_cases i (0 + length (bin_lsb n))) as [L|L]; auto.
  rewrite (fits_bin_lsb n i) in H by lia. discriminate.
Qed.

Lemma total_occ_length : forall sd, total_occ sd = length (occ_indices sd).
Proof.
  intros [n|]; [|reflexivity]. unfold total_occ, count_true, bin_msb.
  rewrite occ_indices_filter.
  assert (E : forall l : list bool, length (filter (fun b => b) (rev l)) = length (filter (fun b => b) l)).
  { induction l as [|b l IH]; simpl; auto. rewrite filter_app, app_length, IH. simpl.
    destruct b; simpl; lia. }
  rewrite E. rewrite (bin_lsb_eq n) at 1.
  generalize (seq 0 (length (bin_lsb n))). induction l as [|a l IH]; simpl; auto.
  destruct (bit n a); simpl; auto.
Qed.

Lemma total_occ_nbelow : forall n k, fits n k -> total_occ (Some n) = nbelow n k.
Proof.
  intros. rewrite total_occ_length, (occ_indices_fits n k) by auto. reflexivity.
Qed.

Lemma total_occ_has : forall n, has_electrons n (total_occ (Some n)).
Proof.
  intros. exists (occ_indices (Some n)). repeat split.
  - apply increasing_NoDup, occ_indices_increasing.
  - apply occ_indices_In.
  - apply occ_indices_In.
  - now rewrite total_occ_length.
Qed.

Lemma land_single_zero : forall n i,
  N.eqb (N.land n (N.shiftl 1 (N.of_nat i))) 0 = negb (bit n i).
Proof.
  intros. destruct (bit n i) eqn:B; cbn [negb].
  - apply N.eqb_neq. intros E.
    assert (X : bit (N.land n (N.shiftl 1 (N.of_nat i))) i = false) by (rewrite E; apply bit_0).
    rewrite bit_land, bit_single, B, Nat.eqb_refl in X. discriminate.
  - apply N.eqb_eq, bit_ext. intros j. rewrite bit_land, bit_single, bit_0.
    destruct (Nat.eqb_spec i j); [subst; now rewrite B|apply andb_false_r].
Qed.

Lemma vir_indices_filter : forall n k,
  vir_indices (Some n) (Z.of_nat k) = filter (fun i => negb (bit n i)) (seq 0 k).
Proof.
  intros. unfold vir_indices, range. rewrite Nat2Z.id.
  destruct (Z.leb_spec (Z.of_nat k) 0).
  - replace k with 0 by lia. reflexivity.
  - apply filter_seq_ext. intros. apply land_single_zero.
Qed.

Lemma vir_indices_neg : forall sd norbs, (norbs <= 0)%Z -> vir_indices sd norbs = [].
Proof.
  intros [n|] norbs H; auto. unfold vir_indices. now rewrite (proj2 (Z.leb_le _ _) H).
Qed.

(** ** annihilate / create *)
Definition setbits (l : list nat) (i : nat) : bool := existsb (Nat.eqb i) l.

Lemma setbits_In : forall l i, setbits l i = true <-> In i l.
Proof.
  intros. unfold setbits. rewrite existsb_exists. split.
  - intros (x & H & E). apply Nat.eqb_eq in E. now subst.
  - intros H. exists i. split; auto. apply Nat.eqb_refl.
Qed.

Lemma setbits_notIn : forall l i, setbits l i = false <-> ~ In i l.
Proof.
  intros. rewrite <- setbits_In. destruct (setbits l i); split; intros; congruence.
Qed.

Lemma annihilate_None : forall l, annihilate None l = None.
Proof. destruct l; reflexivity. Qed.
Lemma create_None : forall l, create None l = None.
Proof. destruct l; reflexivity. Qed.

Lemma annihilate_Some : forall l n m, annihilate (Some n) l = Some m <->
  NoDup l /\ (forall i, In i l -> bit n i = true) /\
  (forall i, bit m i = bit n i && negb (setbits l i)).
Proof.
  induction l as [|a l IH]; intros n m.
  - simpl. split.
    + intros [= <-]. repeat split; [constructor|intros ? []|].
      intros i. now rewrite andb_true_r.
    + intros (_ & _ & H). f_equal. apply bit_ext. intros i. now rewrite H, andb_true_r.
  - cbn [annihilate]. rewrite occ_bit. destruct (bit n a) eqn:B; cbn [negb].
    + rewrite IH. clear IH.
      assert (X : forall i, bit (N.lxor n (N.shiftl 1 (N.of_nat a))) i
                            = bit n i && negb (Nat.eqb i a)).
      { intros i. rewrite bit_lxor, bit_single. rewrite (Nat.eqb_sym a i).
        destruct (Nat.eqb_spec i a); [subst; now rewrite B|].
        now rewrite xorb_false_r, andb_true_r. }
      split.
      * intros (N1 & H1 & H2). repeat split.
        -- constructor; auto. intros Hin. specialize (H1 _ Hin).
           rewrite X, Nat.eqb_refl, andb_false_r in H1. discriminate.
        -- intros i [->|Hi]; auto. specialize (H1 _ Hi). rewrite X in H1.
           now apply andb_true_iff in H1.
        -- intros i. rewrite H2, X. simpl.
           rewrite <- andb_assoc, <- negb_orb. reflexivity.
      * intros (N1 & H1 & H2). inversion N1 as [|? ? Ha N1']; subst. repeat split; auto.
        -- intros i Hi. rewrite X. apply andb_true_iff. split; [apply H1; now right|].
           apply negb_true_iff, Nat.eqb_neq. congruence.
        -- intros i. rewrite H2, X. simpl. rewrite <- andb_assoc, <- negb_orb. reflexivity.
    + split; [discriminate|]. intros (_ & H & _). rewrite H in B; [discriminate|now left].
Qed.

Lemma annihilate_total : forall l n,
  NoDup l -> (forall i, In i l -> bit n i = true) -> exists m, annihilate (Some n) l = Some m.
Proof.
  induction l as [|a l IH]; intros n Hn Hb.
  - now exists n.
  - cbn [annihilate]. rewrite occ_bit, (Hb a) by now left. cbn [negb].
    inversion Hn; subst. apply IH; auto.
    intros i Hi. rewrite bit_lxor, bit_single.
    assert (a <> i) by congruence.
    rewrite (proj2 (Nat.eqb_neq a i)) by auto. rewrite Hb by now right. reflexivity.
Qed.

Lemma create_Some : forall l n m, create (Some n) l = Some m <->
  NoDup l /\ (forall i, In i l -> bit n i = false) /\
  (forall i, bit m i = bit n i || setbits l i).
Proof.
  induction l as [|a l IH]; intros n m.
  - simpl. split.
    + intros [= <-]. repeat split; [constructor|intros ? []|].
      intros i. now rewrite orb_false_r.
    + intros (_ & _ & H). f_equal. apply bit_ext. intros i. now rewrite H, orb_false_r.
  - cbn [create]. rewrite occ_bit. destruct (bit n a) eqn:B; cbn [negb].
    + split; [discriminate|]. intros (_ & H & _). rewrite H in B; [discriminate|now left].
    + rewrite IH. clear IH.
      assert (X : forall i, bit (N.lor n (N.shiftl 1 (N.of_nat a))) i
                            = bit n i || Nat.eqb i a).
      { intros i. now rewrite bit_lor, bit_single, (Nat.eqb_sym a i). }
      split.
      * intros (N1 & H1 & H2). repeat split.
        -- constructor; auto. intros Hin. specialize (H1 _ Hin).
           rewrite X, Nat.eqb_refl, orb_true_r in H1. discriminate.
        -- intros i [->|Hi]; auto. specialize (H1 _ Hi). rewrite X in H1.
           now apply orb_false_iff in H1.
        -- intros i. rewrite H2, X. simpl. now rewrite orb_assoc.
      * intros (N1 & H1 & H2). inversion N1 as [|? ? Ha N1']; subst. repeat split; auto.
        -- intros i Hi. rewrite X. apply orb_false_iff. split; [apply H1; now right|].
           apply Nat.eqb_neq. congruence.
        -- intros i. rewrite H2, X. simpl. now rewrite orb_assoc.
Qed.

Lemma create_total : forall l n,
  NoDup l -> (forall i, In i l -> bit n i = false) -> exists m, create (Some n) l = Some m.
Proof.
  induction l as [|a l IH]; intros n Hn Hb.
  - now exists n.
  - cbn [create]. rewrite occ_bit, (Hb a) by now left. cbn [negb].
    inversion Hn; subst. apply IH; auto.
    intros i Hi. rewrite bit_lor, bit_single.
    assert (a <> i) by congruence.
    rewrite (proj2 (Nat.eqb_neq a i)) by auto. rewrite Hb by now right. reflexivity.
Qed.

Lemma create_perm : forall sd l l', Permutation l l' -> create sd l = create sd l'.
Proof.
  intros [n|] l l' P; [|now rewrite !create_None].
  assert (H : forall l l' m, Permutation l l' -> create (Some n) l = Some m -> create (Some n) l' = Some m).
  { clear. intros l l' m P H. apply create_Some in H as (H1 & H2 & H3). apply create_Some.
    repeat split.
    - eapply Permutation_NoDup; eauto.
    - intros i Hi. apply H2. eapply Permutation_in; [apply Permutation_sym|]; eauto.
    - intros i. rewrite H3. f_equal.
      destruct (setbits l i) eqn:E; symmetry.
      + apply setbits_In. eapply Permutation_in; eauto. now apply setbits_In.
      + apply setbits_notIn. intros Hi. apply setbits_notIn in E. apply E.
        eapply Permutation_in; [apply Permutation_sym|]; eauto. }
  destruct (create (Some n) l) eqn:E1.
  - now rewrite (H _ _ _ P E1).
  - destruct (create (Some n) l') eqn:E2; auto.
    rewrite (H _ _ _ (Permutation_sym P) E2) in E1. discriminate.
Qed.

Lemma annihilate_perm : forall sd l l', Permutation l l' -> annihilate sd l = annihilate sd l'.
Proof.
  intros [n|] l l' P; [|now rewrite !annihilate_None].
  assert (H : forall l l' m, Permutation l l' -> annihilate (Some n) l = Some m -> annihilate (Some n) l' = Some m).
  { clear. intros l l' m P H. apply annihilate_Some in H as (H1 & H2 & H3). apply annihilate_Some.
    repeat split.
    - eapply Permutation_NoDup; eauto.
    - intros i Hi. apply H2. eapply Permutation_in; [apply Permutation_sym|]; eauto.
    - intros i. rewrite H3. do 2 f_equal.
      destruct (setbits l i) eqn:E; symmetry.
      + apply setbits_In. eapply Permutation_in; eauto. now apply setbits_In.
      + apply setbits_notIn. intros Hi. apply setbits_notIn in E. apply E.
        eapply Permutation_in; [apply Permutation_sym|]; eauto. }
  destruct (annihilate (Some n) l) eqn:E1.
  - now rewrite (H _ _ _ P E1).
  - destruct (annihilate (Some n) l') eqn:E2; auto.
    rewrite (H _ _ _ (Permutation_sym P) E2) in E1. discriminate.
Qed.

(** counting electrons *)
Lemma electrons_disjoint_add : forall n m k l,
  has_electrons n k -> NoDup l -> (forall i, In i l -> bit n i = false) ->
  (forall i, bit m i = bit n i || setbits l i) -> has_electrons m (k + length l).
Proof.
  intros n m k l (o & No & Ho & <-) Nl Hl Hm.
  exists (o ++ l). repeat split.
  - assert (D : forall x, In x o -> ~ In x l).
    { intros x H1 H2. apply Ho in H1. rewrite Hl in H1 by auto. discriminate. }
    clear - No Nl D. induction o as [|a o IH]; simpl; auto.
    inversion No; subst. constructor.
    + rewrite in_app_iff. intros [H|H]; [contradiction|]. apply (D a); [now left|auto].
    + apply IH; auto. intros x Hx. apply D. now right.
  - intros H. rewrite Hm. apply in_app_or in H as [H|H].
    + apply Ho in H. now rewrite H.
    + apply setbits_In in H. rewrite H. apply orb_true_r.
  - intros H. rewrite Hm in H. apply in_or_app. apply orb_true_iff in H as [H|H].
    + left. now apply Ho.
    + right. now apply setbits_In.
  - rewrite app_length. reflexivity.
Qed.
