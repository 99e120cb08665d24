(** Properties C01-C09 and C11: determinants as sets of orbitals. *)
From Coq Require Import List ZArith NArith Bool Lia Sorted Permutation Arith.
From Verif Require Import Py BitSpec BitLemmas Slater SlaterBits SlaterBits2.
Import ListNotations.

(** C01 *)
Theorem C01_occ_indices : forall n,
  increasing (occ_indices (Some n)) /\
  (forall i, In i (occ_indices (Some n)) <-> bit n i = true).
Proof. intros n. split; [apply occ_indices_increasing|apply occ_indices_In]. Qed.
Print Assumptions C01_occ_indices.

Theorem C01_vir_indices : forall n norbs,
  increasing (vir_indices (Some n) norbs) /\
  (forall i, In i (vir_indices (Some n) norbs) <-> (Z.of_nat i < norbs)%Z /\ bit n i = false).
Proof.
  intros n norbs. destruct (Z.le_gt_cases norbs 0) as [H|H].
  - rewrite vir_indices_neg by auto. split; [constructor|]. intros i. simpl. lia.
  - replace norbs with (Z.of_nat (Z.to_nat norbs)) by lia. rewrite vir_indices_filter. split.
    + apply increasing_filter, increasing_seq.
    + intros i. rewrite filter_In, in_seq, negb_true_iff. intuition lia.
Qed.
Print Assumptions C01_vir_indices.

Theorem C01_occ_total : forall n,
  (forall i, occ (Some n) i = bit n i) /\ has_electrons n (total_occ (Some n)).
Proof. intros n. split; [apply occ_bit|apply total_occ_has]. Qed.
Print Assumptions C01_occ_total.

Theorem C01_none : occ_indices None = [] /\ total_occ None = 0 /\
  (forall i, occ None i = false) /\ (forall k, vir_indices None k = []).
Proof. repeat split. Qed.
Print Assumptions C01_none.

Example C01_ex : occ_indices (Some 180%N) = [2; 4; 5; 7] /\ total_occ (Some 180%N) = 4 /\
  vir_indices (Some 180%N) 9 = [0; 1; 3; 6; 8] /\ vir_indices (Some 180%N) (-3) = [].
Proof. vm_compute. repeat split. Qed.

(** C02 *)
Theorem C02_annihilate : forall n l m,
  annihilate (Some n) l = Some m <->
  NoDup l /\ (forall i, In i l -> bit n i = true) /\
  (forall i, bit m i = true <-> bit n i = true /\ ~ In i l).
Proof.
  intros n l m. rewrite annihilate_Some. split; intros (H1 & H2 & H3); repeat split; auto.
  - intros. rewrite H3 in H. now apply andb_true_iff in H.
  - rewrite H3 in H. apply andb_true_iff in H as [_ H]. now apply negb_true_iff, setbits_notIn in H.
  - intros [Ha Hb]. rewrite H3, Ha. simpl. now apply negb_true_iff, setbits_notIn.
  - intros i. apply eq_true_iff_eq. rewrite H3, andb_true_iff, negb_true_iff, setbits_notIn. tauto.
Qed.
Print Assumptions C02_annihilate.

Theorem C02_create : forall n l m,
  create (Some n) l = Some m <->
  NoDup l /\ (forall i, In i l -> bit n i = false) /\
  (forall i, bit m i = true <-> bit n i = true \/ In i l).
Proof.
  intros n l m. rewrite create_Some. split; intros (H1 & H2 & H3); repeat split; auto.
  - rewrite H3. intros H. apply orb_true_iff in H as [H|H]; auto. right. now apply setbits_In.
  - rewrite H3. intros [H|H]; apply orb_true_iff; auto. right. now apply setbits_In.
  - intros i. apply eq_true_iff_eq. rewrite H3, orb_true_iff, setbits_In. tauto.
Qed.
Print Assumptions C02_create.

(** Together with the two equivalences this says exactly when the result is None. *)
Theorem C02_defined : forall n l,
  ((exists m, annihilate (Some n) l = Some m) <-> NoDup l /\ forall i, In i l -> bit n i = true) /\
  ((exists m, create (Some n) l = Some m) <-> NoDup l /\ forall i, In i l -> bit n i = false) /\
  annihilate None l = None /\ create None l = None.
Proof.
  intros n l. repeat split; try (destruct H as [m H]).
  - now apply C02_annihilate in H.
  - now apply C02_annihilate in H.
  - intros [H1 H2]. now apply annihilate_total.
  - now apply C02_create in H.
  - now apply C02_create in H.
  - intros [H1 H2]. now apply create_total.
  - apply annihilate_None.
  - apply create_None.
Qed.
Print Assumptions C02_defined.

Theorem C02_order : forall sd l l', Permutation l l' ->
  annihilate sd l = annihilate sd l' /\ create sd l = create sd l'.
Proof. intros. split; [now apply annihilate_perm|now apply create_perm]. Qed.
Print Assumptions C02_order.

Theorem C02_inverse : forall n l m,
  annihilate (Some n) l = Some m <-> create (Some m) l = Some n.
Proof.
  intros n l m. rewrite C02_annihilate, C02_create. split; intros (H1 & H2 & H3); repeat split; auto.
  - intros i Hi. destruct (bit m i) eqn:E; auto. apply H3 in E. tauto.
  - intros Hn. destruct (in_dec Nat.eq_dec i l); auto. left. apply H3. auto.
  - intros [H|H]; auto. now apply H3.
  - intros i Hi. apply H3. auto.
  - apply H3. auto.
  - intros Hi. rewrite H2 in H by auto. discriminate.
  - intros [Ha Hb]. apply H3 in Ha. tauto.
Qed.
Print Assumptions C02_inverse.

Example C02_ex : annihilate (Some 45%N) [3; 0] = Some 36%N /\ create (Some 36%N) [0; 3] = Some 45%N /\
  annihilate (Some 45%N) [3; 3] = None /\ create (Some 36%N) [1; 2] = None.
Proof. vm_compute. repeat split. Qed.

(** C03 *)
Theorem C03_excite : forall n a c m, length a = length c ->
  excite (Some n) (a ++ c) = Ok (Some m) <->
  NoDup a /\ NoDup c /\ (forall i, In i a -> bit n i = true) /\
  (forall i, In i c -> bit n i = false \/ In i a) /\
  (forall i, bit m i = true <-> ((bit n i = true /\ ~ In i a) \/ In i c)).
Proof. exact excite_Some. Qed.
Print Assumptions C03_excite.

Theorem C03_excite_total : forall sd l,
  (Nat.odd (length l) = true -> excite sd l = Err ValueError) /\
  (Nat.odd (length l) = false -> exists r, excite sd l = Ok r) /\
  (sd = None -> forall r, excite sd l = Ok r -> r = None).
Proof.
  intros sd l. repeat split.
  - apply excite_odd.
  - intros H. unfold excite. rewrite <- Nat.bit0_mod.
    change (Nat.testbit (length l) 0) with (Nat.odd (length l)). rewrite H. simpl. eauto.
  - intros -> r. unfold excite. rewrite annihilate_None, create_None. destruct (negb _); congruence.
Qed.
Print Assumptions C03_excite_total.

(** When some orbital does not qualify the result is None. *)
Theorem C03_excite_none : forall n a c, length a = length c ->
  (excite (Some n) (a ++ c) = Ok None <->
   ~ (NoDup a /\ NoDup c /\ (forall i, In i a -> bit n i = true) /\
      (forall i, In i c -> bit n i = false \/ In i a))).
Proof.
  intros n a c E. rewrite excite_app by auto. split.
  - intros H (A1 & C1 & A2 & C2).
    destruct (annihilate_total a n A1 A2) as (p & A). rewrite A in H.
    apply annihilate_Some in A as (_ & _ & A3).
    destruct (create_total c p C1) as (m & M).
    + intros i Hi. rewrite A3. destruct (C2 i Hi) as [->|X]; auto.
      apply setbits_In in X. rewrite X. apply andb_false_r.
    + congruence.
  - intros H. destruct (create (annihilate (Some n) a) c) as [m|] eqn:X; auto.
    exfalso. apply H.
    assert (Y : excite (Some n) (a ++ c) = Ok (Some m)) by (rewrite excite_app; congruence).
    apply excite_Some in Y; tauto.
Qed.
Print Assumptions C03_excite_none.

Theorem C03_electrons : forall n l m k,
  excite (Some n) l = Ok (Some m) -> has_electrons n k -> has_electrons m k.
Proof. intros n l m k. now apply excite_electrons. Qed.
Print Assumptions C03_electrons.

Theorem C03_reverse : forall n a c m, length a = length c ->
  excite (Some n) (a ++ c) = Ok (Some m) -> excite (Some m) (c ++ a) = Ok (Some n).
Proof. exact excite_reverse. Qed.
Print Assumptions C03_reverse.

Example C03_ex : excite (Some 45%N) [0; 3; 4; 6] = Ok (Some 116%N) /\
  excite (Some 116%N) [4; 6; 0; 3] = Ok (Some 45%N) /\
  excite (Some 45%N) [0; 3; 4] = Err ValueError /\ excite (Some 45%N) [1; 4] = Ok None.
Proof. vm_compute. repeat split. Qed.

(** C04 *)
Theorem C04_ground : forall nocc norbs,
  ((exists n, ground nocc norbs = Ok n) <-> (0 < nocc <= norbs)%Z /\ Z.Even norbs) /\
  (forall e, ground nocc norbs = Err e -> e = ValueError) /\
  (forall n, ground nocc norbs = Ok n ->
     has_electrons n (Z.to_nat nocc) /\ fits n (Z.to_nat norbs) /\
     forall i, bit n i = ground_bits (Z.to_nat ((nocc + 1) / 2)) (Z.to_nat (nocc / 2))
                                     (Z.to_nat (norbs / 2)) i).
Proof.
  intros nocc norbs. split; [split|split].
  - intros [n H]. apply ground_value in H. tauto.
  - intros [H1 H2]. now apply ground_defined.
  - apply ground_error.
  - intros n H. pose proof (ground_electrons _ _ _ H). apply ground_value in H. tauto.
Qed.
Print Assumptions C04_ground.

(** Finding: the docstring's "number of occupied spin orbitals" may not be zero; the vacuum is
    rejected with ValueError instead of giving 0. *)
Theorem C04_vacuum_refuted : exists norbs, (0 < norbs)%Z /\ Z.Even norbs /\
  ground 0 norbs = Err ValueError.
Proof. exists 4%Z. split; [lia|split; [now exists 2%Z|reflexivity]]. Qed.
Print Assumptions C04_vacuum_refuted.

Example C04_ex : ground 5 8 = Ok 55%N /\ ground 1 2 = Ok 1%N /\ ground 3 5 = Err ValueError.
Proof. vm_compute. repeat split. Qed.

(** C05 *)
Theorem C05_membership : forall a b i,
  (In i (shared_orbs a b) <-> bit a i = true /\ bit b i = true) /\
  (In i (fst (diff_orbs a b)) <-> bit a i = true /\ bit b i = false) /\
  (In i (snd (diff_orbs a b)) <-> bit b i = true /\ bit a i = false) /\
  bit (shared_sd a b) i = bit a i && bit b i.
Proof.
  intros. split; [apply shared_orbs_In|split; [apply diff_orbs_In1|split; [apply diff_orbs_In2|]]].
  apply bit_land.
Qed.
Print Assumptions C05_membership.

Theorem C05_sorted : forall a b, increasing (shared_orbs a b) /\
  increasing (fst (diff_orbs a b)) /\ increasing (snd (diff_orbs a b)).
Proof. intros. repeat split; apply occ_indices_increasing. Qed.
Print Assumptions C05_sorted.

Theorem C05_excitation : forall a b k, has_electrons a k -> has_electrons b k ->
  excite (Some a) (fst (diff_orbs a b) ++ snd (diff_orbs a b)) = Ok (Some b).
Proof. exact diff_orbs_excite. Qed.
Print Assumptions C05_excitation.

Example C05_ex : diff_orbs 45 116 = ([0; 3], [4; 6]) /\ shared_orbs 45 116 = [2; 5].
Proof. vm_compute. repeat split. Qed.
Example C05_ex' : has_electrons 45 4 /\ has_electrons 116 4.
Proof. split; apply electrons_occ; reflexivity. Qed.

(** C06 *)
Theorem C06_split : forall n ns,
  ((ns <= 0)%Z -> split_spin n ns = Err ValueError) /\
  ((0 < ns)%Z -> exists a b, split_spin n ns = Ok (a, b) /\
     (forall i, bit a i = alpha_at n (Z.to_nat ns) i) /\
     (forall i, bit b i = beta_at n (Z.to_nat ns) i)).
Proof.
  intros n ns. split; [apply split_spin_err|]. intros H.
  destruct (split_spin_ok n ns H) as (a & b & E & Ha & Hb). exists a, b. auto.
Qed.
Print Assumptions C06_split.

Theorem C06_combine : forall a b ns,
  ((ns <= 0)%Z -> combine_spin a b ns = Err ValueError) /\
  ((0 < ns)%Z -> exists n, combine_spin a b ns = Ok n /\
     forall i, bit n i = bit a i || (Nat.leb (Z.to_nat ns) i && bit b (i - Z.to_nat ns))).
Proof.
  intros. split; [|apply combine_spin_ok].
  intros H. unfold combine_spin. now rewrite (proj2 (Z.leb_le _ _)).
Qed.
Print Assumptions C06_combine.

Theorem C06_split_combine : forall n ns a b,
  split_spin n ns = Ok (a, b) -> combine_spin a b ns = Ok n.
Proof. exact split_combine. Qed.
Print Assumptions C06_split_combine.

Theorem C06_combine_split : forall a b ns n, fits a (Z.to_nat ns) ->
  combine_spin a b ns = Ok n -> split_spin n ns = Ok (a, b).
Proof. exact combine_split. Qed.
Print Assumptions C06_combine_split.

Theorem C06_electrons : forall n ns a b e ea eb, split_spin n ns = Ok (a, b) ->
  has_electrons n e -> has_electrons a ea -> has_electrons b eb -> e = ea + eb.
Proof. exact split_electrons. Qed.
Print Assumptions C06_electrons.

Example C06_ex : split_spin 180 4 = Ok (4%N, 11%N) /\ combine_spin 4 11 4 = Ok 180%N /\
  split_spin 180 0 = Err ValueError.
Proof. vm_compute. repeat split. Qed.

(** C07 *)
Theorem C07_index : forall i ns,
  ((0 <= i < 2 * ns)%Z ->
     exists j, interleave_index i ns = Ok j /\ (0 <= j < 2 * ns)%Z /\
               deinterleave_index j ns = Ok i /\
               j = (if i <? ns then 2 * i else 2 * (i - ns) + 1)%Z) /\
  ((0 <= i < 2 * ns)%Z ->
     exists j, deinterleave_index i ns = Ok j /\ (0 <= j < 2 * ns)%Z /\
               interleave_index j ns = Ok i) /\
  (~ (0 <= i < 2 * ns)%Z ->
     interleave_index i ns = Err ValueError /\ deinterleave_index i ns = Err ValueError).
Proof.
  intros i ns. unfold interleave_index, deinterleave_index. repeat split.
  - intros H. destruct (Z.ltb_spec i 0); [lia|]. destruct (Z.leb_spec (2 * ns) i); [lia|].
    destruct (Z.ltb_spec i ns).
    + exists (2 * i)%Z. split; auto. split; [lia|]. split; [|auto].
      destruct (Z.ltb_spec (2 * i) 0); [lia|]. destruct (Z.leb_spec (2 * ns) (2 * i)); [lia|].
      rewrite Z.mul_comm, Z.mod_mul, Z.div_mul by lia. reflexivity.
    + exists (2 * (i - ns) + 1)%Z. split; auto. split; [lia|]. split; [|auto].
      destruct (Z.ltb_spec (2 * (i - ns) + 1) 0); [lia|].
      destruct (Z.leb_spec (2 * ns) (2 * (i - ns) + 1)); [lia|].
      replace (2 * (i - ns) + 1)%Z with (1 + (i - ns) * 2)%Z by lia.
      rewrite Z.mod_add, Z.div_add by lia. cbn. f_equal. lia.
  - intros H. destruct (Z.ltb_spec i 0); [lia|]. destruct (Z.leb_spec (2 * ns) i); [lia|].
    pose proof (Z.div_mod i 2) as D. pose proof (Z.mod_pos_bound i 2) as B.
    destruct (Z.eqb_spec (i mod 2) 0).
    + exists (i / 2)%Z. split; auto. split; [lia|].
      destruct (Z.ltb_spec (i / 2) 0); [lia|]. destruct (Z.leb_spec (2 * ns) (i / 2)); [lia|].
      destruct (Z.ltb_spec (i / 2) ns); [f_equal|]; lia.
    + exists (i / 2 + ns)%Z. split; auto. split; [lia|].
      destruct (Z.ltb_spec (i / 2 + ns) 0); [lia|].
      destruct (Z.leb_spec (2 * ns) (i / 2 + ns)); [lia|].
      destruct (Z.ltb_spec (i / 2 + ns) ns); [|f_equal]; lia.
  - destruct (Z.ltb_spec i 0); auto. destruct (Z.leb_spec (2 * ns) i); auto. lia.
  - destruct (Z.ltb_spec i 0); auto. destruct (Z.leb_spec (2 * ns) i); auto. lia.
Qed.
Print Assumptions C07_index.

Theorem C07_interleave : forall n ns, (0 < ns)%Z -> fits n (2 * Z.to_nat ns) ->
  exists m, interleave n ns = Ok m /\ fits m (2 * Z.to_nat ns) /\
    forall i j, interleave_index (Z.of_nat i) ns = Ok (Z.of_nat j) -> bit m j = bit n i.
Proof.
  intros n ns H F. destruct (interleave_ok n ns H F) as (m & M). exists m. split; auto.
  apply interleave_bits in M as [_ M]; auto. split.
  - intros i Hi. rewrite M. now rewrite (proj2 (Nat.ltb_ge _ _)).
  - intros i j E. rewrite M. unfold interleave_index in E.
    destruct (Z.ltb_spec (Z.of_nat i) 0); [discriminate|].
    destruct (Z.leb_spec (2 * ns) (Z.of_nat i)); [discriminate|].
    destruct (Z.ltb_spec (Z.of_nat i) ns); apply Ok_inj in E.
    + assert (j = 2 * i) by lia. subst j. rewrite (proj2 (Nat.ltb_lt _ _)) by lia.
      rewrite Nat.div2_double.
      replace (Nat.even (2 * i)) with true by (symmetry; apply Nat.even_spec; now exists i). reflexivity.
    + assert (j = S (2 * (i - Z.to_nat ns))) by lia. subst j.
      rewrite (proj2 (Nat.ltb_lt _ _)) by lia. rewrite Nat.div2_succ_double.
      replace (Nat.even (S (2 * (i - Z.to_nat ns)))) with false.
      * simpl. f_equal. lia.
      * symmetry. rewrite Nat.even_succ, <- Nat.negb_even.
        replace (Nat.even (2 * (i - Z.to_nat ns))) with true; auto.
        symmetry; apply Nat.even_spec; now exists (i - Z.to_nat ns).
Qed.
Print Assumptions C07_interleave.

Theorem C07_deinterleave : forall n ns, (0 < ns)%Z -> fits n (2 * Z.to_nat ns) ->
  exists m, deinterleave n ns = Ok m /\ fits m (2 * Z.to_nat ns) /\
    forall i j, deinterleave_index (Z.of_nat i) ns = Ok (Z.of_nat j) -> bit m j = bit n i.
Proof.
  intros n ns H F. destruct (deinterleave_ok n ns H) as (m & M). exists m. split; auto.
  apply deinterleave_bits in M as [_ M]; auto. split.
  - intros i Hi. rewrite M. rewrite !(proj2 (Nat.ltb_ge _ _)) by lia. reflexivity.
  - intros i j E. rewrite M. unfold deinterleave_index in E.
    destruct (Z.ltb_spec (Z.of_nat i) 0); [discriminate|].
    destruct (Z.leb_spec (2 * ns) (Z.of_nat i)); [discriminate|].
    pose proof (Z.div_mod (Z.of_nat i) 2) as D. pose proof (Z.mod_pos_bound (Z.of_nat i) 2) as B.
    destruct (Z.eqb_spec (Z.of_nat i mod 2) 0); apply Ok_inj in E.
    + rewrite (proj2 (Nat.ltb_lt _ _)) by lia. f_equal. lia.
    + rewrite (proj2 (Nat.ltb_ge _ _)) by lia. rewrite (proj2 (Nat.ltb_lt _ _)) by lia.
      simpl. f_equal. lia.
Qed.
Print Assumptions C07_deinterleave.

Theorem C07_roundtrip : forall n ns m, fits n (2 * Z.to_nat ns) ->
  (interleave n ns = Ok m -> deinterleave m ns = Ok n) /\
  (deinterleave n ns = Ok m -> interleave m ns = Ok n).
Proof.
  intros n ns m F. split; intros E.
  - destruct (interleave_bits n ns m E F) as [P M].
    assert (Fm : fits m (2 * Z.to_nat ns)).
    { intros i Hi. rewrite M. now rewrite (proj2 (Nat.ltb_ge _ _)). }
    destruct (deinterleave_ok m ns P) as (p & Hp). rewrite Hp. f_equal.
    apply deinterleave_bits in Hp as [_ Hp]; auto. apply bit_ext. intros i. rewrite Hp, !M.
    destruct (Nat.ltb_spec i (Z.to_nat ns)).
    + rewrite (proj2 (Nat.ltb_lt _ _)) by lia. rewrite Nat.div2_double.
      replace (Nat.even (2 * i)) with true by (symmetry; apply Nat.even_spec; now exists i). reflexivity.
    + destruct (Nat.ltb_spec i (2 * Z.to_nat ns)); [|symmetry; apply F; lia].
      rewrite (proj2 (Nat.ltb_lt _ _)) by lia.
      replace (2 * (i - Z.to_nat ns) + 1) with (S (2 * (i - Z.to_nat ns))) by lia.
      rewrite Nat.div2_succ_double.
      replace (Nat.even (S (2 * (i - Z.to_nat ns)))) with false.
      * simpl. f_equal. lia.
      * symmetry. rewrite Nat.even_succ, <- Nat.negb_even.
        replace (Nat.even (2 * (i - Z.to_nat ns))) with true; auto.
        symmetry; apply Nat.even_spec; now exists (i - Z.to_nat ns).
  - destruct (deinterleave_bits n ns m E F) as [P M].
    assert (Fm : fits m (2 * Z.to_nat ns)).
    { intros i Hi. rewrite M. rewrite !(proj2 (Nat.ltb_ge _ _)) by lia. reflexivity. }
    destruct (interleave_ok m ns P Fm) as (p & Hp). rewrite Hp. f_equal.
    apply interleave_bits in Hp as [_ Hp]; auto. apply bit_ext. intros i. rewrite Hp, !M.
    assert (D : i = 2 * Nat.div2 i + (if Nat.even i then 0 else 1)).
    { pose proof (Nat.div2_odd i) as D. rewrite <- Nat.negb_even in D. destruct (Nat.even i); simpl in *; lia. }
    destruct (Nat.ltb_spec i (2 * Z.to_nat ns)); [|symmetry; apply F; lia].
    destruct (Nat.even i); cbn [andb].
    + rewrite (proj2 (Nat.ltb_lt _ _)) by lia. f_equal. lia.
    + rewrite (proj2 (Nat.ltb_ge _ _)) by lia. rewrite (proj2 (Nat.ltb_lt _ _)) by lia.
      cbn [andb]. f_equal. lia.
Qed.
Print Assumptions C07_roundtrip.

Theorem C07_errors : forall n ns, (ns <= 0)%Z ->
  interleave n ns = Err ValueError /\ deinterleave n ns = Err ValueError.
Proof. intros n ns H. unfold interleave, deinterleave. now rewrite (proj2 (Z.leb_le _ _)). Qed.
Print Assumptions C07_errors.

Example C07_ex : interleave 0xb4 4 = Ok 0x9a%N /\ deinterleave 0x9a 4 = Ok 0xb4%N.
Proof. vm_compute. repeat split. Qed.
Example C07_ex' : fits 0xb4 (2 * Z.to_nat 4).
Proof. apply fits_pow2. reflexivity. Qed.

(** C08 *)
Definition spin_of (a : bool) : spin_word := if a then Alpha else Beta.

Theorem C08_roundtrip : forall i ns, (0 <= i < 2 * ns)%Z ->
  exists a j, is_alpha i ns = Ok a /\ spatial_index i ns = Ok j /\ (0 <= j < ns)%Z /\
              spin_index j ns (spin_of a) = Ok i /\ (a = true <-> (i < ns)%Z).
Proof.
  intros i ns H. unfold spatial_index, is_alpha.
  replace ((ns <=? 0) || (i <? 0) || (2 * ns <? i))%Z with false.
  2:{ symmetry. rewrite !orb_false_iff, Z.leb_gt, !Z.ltb_ge. lia. }
  cbn [bind]. destruct (Z.ltb_spec i ns).
  - exists true, i. repeat split; auto; try lia. unfold spin_index, spin_of.
    destruct (Z.leb_spec ns 0); [lia|]. replace ((0 <=? i) && (i <? ns))%Z with true; auto.
    symmetry. apply andb_true_iff. rewrite Z.leb_le, Z.ltb_lt. lia.
  - exists false, (i - ns)%Z. repeat split; auto; try lia; try discriminate. unfold spin_index, spin_of.
    destruct (Z.leb_spec ns 0); [lia|]. replace ((0 <=? i - ns) && (i - ns <? ns))%Z with true.
    + cbn. f_equal. lia.
    + symmetry. apply andb_true_iff. rewrite Z.leb_le, Z.ltb_lt. lia.
Qed.
Print Assumptions C08_roundtrip.

Theorem C08_spin_index : forall j ns a, (0 <= j < ns)%Z ->
  exists i, spin_index j ns (spin_of a) = Ok i /\ (0 <= i < 2 * ns)%Z /\
            spatial_index i ns = Ok j /\ is_alpha i ns = Ok a.
Proof.
  intros j ns a H. unfold spin_index. destruct (Z.leb_spec ns 0); [lia|].
  replace ((0 <=? j) && (j <? ns))%Z with true.
  2:{ symmetry. apply andb_true_iff. rewrite Z.leb_le, Z.ltb_lt. lia. }
  cbn [negb]. unfold spatial_index, is_alpha. destruct a; cbn [spin_of].
  - exists j. replace ((ns <=? 0) || (j <? 0) || (2 * ns <? j))%Z with false.
    2:{ symmetry. rewrite !orb_false_iff, Z.leb_gt, !Z.ltb_ge. lia. }
    rewrite (proj2 (Z.ltb_lt j ns)) by lia. repeat split; auto; lia.
  - exists (j + ns)%Z. replace ((ns <=? 0) || (j + ns <? 0) || (2 * ns <? j + ns))%Z with false.
    2:{ symmetry. rewrite !orb_false_iff, Z.leb_gt, !Z.ltb_ge. lia. }
    rewrite (proj2 (Z.ltb_ge (j + ns) ns)) by lia. cbn [bind]. repeat split; auto; try lia. f_equal. lia.
Qed.
Print Assumptions C08_spin_index.

Theorem C08_rejects_spin_index : forall j ns w,
  ((ns <= 0)%Z \/ ~ (0 <= j < ns)%Z \/ w = OtherWord) -> spin_index j ns w = Err ValueError.
Proof.
  intros j ns w H. unfold spin_index. destruct (Z.leb_spec ns 0); auto.
  destruct (negb _) eqn:E; auto. apply negb_false_iff, andb_true_iff in E.
  rewrite Z.leb_le, Z.ltb_lt in E. destruct H as [H|[H|H]]; try lia. now subst.
Qed.
Print Assumptions C08_rejects_spin_index.

(** Every index outside [0, 2 nspatial] is rejected ... *)
Theorem C08_rejects_partial : forall i ns, (ns <= 0 \/ i < 0 \/ 2 * ns < i)%Z ->
  is_alpha i ns = Err ValueError /\ spatial_index i ns = Err ValueError.
Proof.
  intros i ns H. unfold is_alpha, spatial_index.
  replace ((ns <=? 0) || (i <? 0) || (2 * ns <? i))%Z with true; auto.
  symmetry. rewrite !orb_true_iff, Z.leb_le, !Z.ltb_lt. lia.
Qed.
Print Assumptions C08_rejects_partial.

(** ... but the index 2 nspatial itself, which is not an orbital, is accepted. *)
Theorem C08_rejects_refuted : forall ns, (0 < ns)%Z ->
  is_alpha (2 * ns) ns = Ok false /\ spatial_index (2 * ns) ns = Ok ns.
Proof.
  intros ns H. unfold is_alpha, spatial_index, is_alpha.
  replace ((ns <=? 0) || (2 * ns <? 0) || (2 * ns <? 2 * ns))%Z with false.
  2:{ symmetry. rewrite !orb_false_iff, Z.leb_gt, !Z.ltb_ge. lia. }
  rewrite (proj2 (Z.ltb_ge (2 * ns) ns)) by lia. cbn [bind]. split; auto. f_equal. lia.
Qed.
Print Assumptions C08_rejects_refuted.

Example C08_ex : spatial_index 6 4 = Ok 2%Z /\ spin_index 2 4 Beta = Ok 6%Z /\ is_alpha 6 4 = Ok false.
Proof. vm_compute. repeat split. Qed.

(** C08, array version *)
Theorem C08_spatial_to_spin : forall l ns (b : bool),
  (spatial_to_spin_indices l ns b
   = if (0 <? ns)%Z && forallb (fun i => (0 <=? i) && (i <? ns))%Z l
     then mapM (fun i => spin_index i ns (if b then Beta else Alpha)) l
     else Err ValueError).
Proof.
  intros l ns b. unfold spatial_to_spin_indices. destruct (Z.ltb_spec 0 ns); [|reflexivity].
  cbn [negb andb]. destruct (forallb _ l) eqn:F; [|reflexivity]. cbn [negb].
  assert (X : mapM (fun i => spin_index i ns (if b then Beta else Alpha)) l
              = Ok (map (fun i => if b then i + ns else i)%Z l)).
  { induction l as [|x l IH]; auto. cbn [forallb] in F. apply andb_true_iff in F as [F1 F2].
    cbn [mapM map]. unfold spin_index at 1. destruct (Z.leb_spec ns 0); [lia|]. rewrite F1. cbn [negb].
    destruct b; cbn [bind]; rewrite IH by auto; reflexivity. }
  rewrite X. destruct b; auto. f_equal. now rewrite map_id.
Qed.
Print Assumptions C08_spatial_to_spin.

Example C08_ex_arr : spatial_to_spin_indices [0; 2; 1]%Z 3 true = Ok [3; 5; 4]%Z.
Proof. reflexivity. Qed.

(** C09 *)
Theorem C09_spin_seniority : forall n ns, (0 < ns)%Z ->
  exists na nb v s,
    get_spin2 n ns = Ok s /\ get_seniority n ns = Ok v /\
    counts (alpha_at n (Z.to_nat ns)) na /\ counts (beta_at n (Z.to_nat ns)) nb /\
    counts (single_at n (Z.to_nat ns)) v /\ has_electrons n (na + nb) /\
    s = (Z.of_nat na - Z.of_nat nb)%Z /\
    (Z.abs s <= Z.of_nat v)%Z /\ v <= na + nb /\
    Nat.even v = Nat.even (na + nb) /\ Z.even s = Nat.even v /\
    (v = 0 <-> forall i, alpha_at n (Z.to_nat ns) i = beta_at n (Z.to_nat ns) i).
Proof.
  intros n ns H. destruct (spin_summary n ns H) as (na & nb & d & v & C1 & C2 & C3 & C4 & S & V & A & B & C & D).
  exists na, nb, v, (Z.of_nat na - Z.of_nat nb)%Z. repeat split; auto; try apply D; try lia.
  - rewrite <- A. rewrite Nat.even_add_mul_2. reflexivity.
  - assert (E : (Z.of_nat na - Z.of_nat nb = Z.of_nat v + 2 * (Z.of_nat d - Z.of_nat nb))%Z) by lia.
    rewrite E, Z.even_add_mul_2.
    clear. destruct (Nat.even v) eqn:E.
    + apply Nat.even_spec in E as [q ->]. apply Z.even_spec. exists (Z.of_nat q). lia.
    + assert (O : Nat.odd v = true) by (unfold Nat.odd; now rewrite E).
      apply Nat.odd_spec in O as [q ->]. rewrite <- Z.negb_odd. apply negb_false_iff, Z.odd_spec.
      exists (Z.of_nat q). lia.
Qed.
Print Assumptions C09_spin_seniority.

Theorem C09_errors : forall n ns, (ns <= 0)%Z ->
  get_spin2 n ns = Err ValueError /\ get_seniority n ns = Err ValueError.
Proof. intros n ns H. unfold get_spin2, get_seniority. now rewrite split_spin_err. Qed.
Print Assumptions C09_errors.

Example C09_ex : get_spin2 0xb5 4 = Ok (-1)%Z /\ get_seniority 0xb5 4 = Ok 3.
Proof. vm_compute. repeat split. Qed.

(** C11 *)
Theorem C11_sign_swap : forall n c f, bit n c = true ->
  sign_swap (Some n) (Z.of_nat c) (Z.of_nat f) = Ok (sgn (Nat.odd (jumped n c f))).
Proof. exact sign_swap_ok. Qed.
Print Assumptions C11_sign_swap.

Theorem C11_errors : forall sd c f,
  (exists e, sign_swap sd c f = Err e) <->
  sign_swap sd c f = Err ValueError /\
  (forall n, sd = Some n -> (c < 0)%Z \/ (f < 0)%Z \/ bit n (Z.to_nat c) = false).
Proof.
  intros sd c f. split.
  - intros [e E].
    assert (X : forall n, sd = Some n -> (c < 0)%Z \/ (f < 0)%Z \/ bit n (Z.to_nat c) = false).
    { intros n ->. destruct (Z.lt_ge_cases c 0); auto. destruct (Z.lt_ge_cases f 0); auto.
      right. right. destruct (bit n (Z.to_nat c)) eqn:B; auto.
      apply (sign_swap_ok n (Z.to_nat c) (Z.to_nat f)) in B.
      rewrite !Z2Nat.id in B by lia. congruence. }
    split; auto. now apply sign_swap_err.
  - intros [H _]. eauto.
Qed.
Print Assumptions C11_errors.

Example C11_ex : sign_swap (Some 0x3d%N) 4 0 = Ok (-1)%Z /\ sign_swap (Some 0x3d%N) 0 4 = Ok (-1)%Z /\
  sign_swap (Some 0x3d%N) 1 0 = Err ValueError /\ sign_swap None 1 0 = Err ValueError.
Proof. vm_compute. repeat split. Qed.
