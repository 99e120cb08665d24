(** excite_bulk and excite_bulk_two_ab against excite. *)
From Coq Require Import List ZArith NArith Bool Lia Arith Sorted Permutation.
From Verif Require Import Py BitSpec BitLemmas Slater SlaterBits SlaterBits2 Combos.
Import ListNotations.

Definition maskN (c : list nat) : N := fold_left N.lor (map (fun i => N.shiftl 1 (N.of_nat i)) c) 0%N.

Lemma bit_maskN : forall c i, bit (maskN c) i = setbits c i.
Proof.
  assert (G : forall c a i, bit (fold_left N.lor (map (fun i => N.shiftl 1 (N.of_nat i)) c) a) i
                            = bit a i || setbits c i).
  { induction c as [|x c IH]; intros a i; cbn [map fold_left].
    - now rewrite orb_false_r.
    - rewrite IH, bit_lor, bit_single. cbn [setbits existsb]. rewrite (Nat.eqb_sym x i). 
      now rewrite <- orb_assoc. }
  intros. unfold maskN. now rewrite G, bit_0.
Qed.

Lemma of_N_lor : forall a b, Z.lor (Z.of_N a) (Z.of_N b) = Z.of_N (N.lor a b).
Proof. intros [|a] [|b]; reflexivity. Qed.
Lemma of_N_lxor : forall a b, Z.lxor (Z.of_N a) (Z.of_N b) = Z.of_N (N.lxor a b).
Proof. intros [|a] [|b]; reflexivity. Qed.
Lemma of_N_shl1 : forall i, i < 63 -> np_shl1 i = Z.of_N (N.shiftl 1 (N.of_nat i)).
Proof.
  intros i H. unfold np_shl1. rewrite (proj2 (Nat.ltb_lt _ _)) by lia.
  rewrite Z.shiftl_mul_pow2, N.shiftl_mul_pow2 by lia. rewrite N2Z.inj_mul, N2Z.inj_pow. f_equal. 
  f_equal. lia.
Qed.

Lemma bulk_mask_one : forall c, (forall i, In i c -> i < 63) ->
  fold_left Z.lor (map np_shl1 c) 0%Z = Z.of_N (maskN c).
Proof.
  intros c H. unfold maskN. change 0%Z with (Z.of_N 0). generalize 0%N.
  induction c as [|x c IH]; intros a; cbn [map fold_left]; auto.
  rewrite of_N_shl1 by (apply H; now left). rewrite of_N_lor. apply IH. intros; apply H; now right.
Qed.

Lemma bulk_masks_eq : forall cs, (forall c, In c cs -> forall i, In i c -> i < 63) ->
  bulk_masks cs = map (fun c => Z.of_N (maskN c)) cs.
Proof.
  intros cs H. unfold bulk_masks. apply map_ext_in. intros c Hc. apply bulk_mask_one. intros; eauto.
Qed.

Definition moved (n : N) (a c : list nat) : N := N.lor (N.lxor n (maskN a)) (maskN c).

Lemma moved_excite : forall n a c, length a = length c -> NoDup a -> NoDup c ->
  (forall i, In i a -> bit n i = true) -> (forall i, In i c -> bit n i = false) ->
  excite (Some n) (a ++ c) = Ok (Some (moved n a c)).
Proof.
  intros n a c L Na Nc Ha Hc. apply excite_Some; auto. repeat split; auto.
  - unfold moved. rewrite bit_lor, bit_lxor, !bit_maskN.
    destruct (setbits c i) eqn:E; [right; now apply setbits_In|].
    rewrite orb_false_r. intros H. left. destruct (setbits a i) eqn:E2.
    + apply setbits_In in E2. rewrite Ha in H by auto. discriminate.
    + rewrite xorb_false_r in H. split; auto. now apply setbits_notIn.
  - unfold moved. rewrite bit_lor, bit_lxor, !bit_maskN. intros [[H1 H2]|H].
    + apply setbits_notIn in H2. rewrite H1, H2. reflexivity.
    + apply setbits_In in H. rewrite H. apply orb_true_r.
Qed.

Lemma np_int64_ok : forall n, fits n 63 -> np_int64 n = Ok (Z.of_N n).
Proof.
  intros n F. unfold np_int64. apply fits_pow2 in F.
  destruct (Z.ltb_spec (Z.of_N n) (2 ^ 63)); auto. exfalso.
  apply N2Z.inj_lt in F. rewrite N2Z.inj_pow in F. change (Z.of_N (N.of_nat 63)) with 63%Z in F.
  change (Z.of_N 2) with 2%Z in F. lia.
Qed.

Lemma flat_map_prod : forall {A B C} (f : A -> B -> C) l1 l2,
  flat_map (fun a => map (f a) l2) l1 = map (fun p => f (fst p) (snd p)) (list_prod l1 l2).
Proof.
  induction l1 as [|a l1 IH]; intros l2; auto. simpl. rewrite map_app, map_map, IH. reflexivity.
Qed.

Lemma excite_bulk_value : forall n occs virs k, fits n 63 ->
  (forall i, In i occs -> i < 63) -> (forall i, In i virs -> i < 63) ->
  excite_bulk n occs virs (Z.of_nat k)
  = Ok (map (fun p => Z.of_N (moved n (fst p) (snd p)))
            (list_prod (combinations occs k) (combinations virs k))).
Proof.
  intros n occs virs k F Ho Hv. unfold excite_bulk.
  destruct (Z.ltb_spec (Z.of_nat k) 0); [lia|].
  destruct (Z.eqb_spec (Z.of_nat k) 0).
  - replace k with 0 by lia. rewrite !combinations_0. rewrite np_int64_ok by auto. cbn [bind].
    simpl. do 3 f_equal. unfold moved. change (maskN []) with 0%N.
    now rewrite N.lxor_0_r, N.lor_0_r.
  - rewrite Nat2Z.id. rewrite np_int64_ok by auto. cbn [bind]. cbv zeta.
    rewrite !bulk_masks_eq.
    + f_equal. rewrite <- (flat_map_prod (fun a c => Z.of_N (moved n a c))). rewrite !flat_map_concat_map, map_map.
      f_equal. apply map_ext. intros a. rewrite map_map. apply map_ext. intros c.
      now rewrite of_N_lxor, of_N_lor.
    + intros c Hc i Hi. apply combinations_In in Hc as [Hc _]. apply Ho. eapply subseq_incl; eauto.
    + intros c Hc i Hi. apply combinations_In in Hc as [Hc _]. apply Hv. eapply subseq_incl; eauto.
Qed.

Lemma excite_bulk_two_value : forall n oa ob va vb, fits n 63 ->
  (forall i, In i (oa ++ ob ++ va ++ vb) -> i < 63) ->
  excite_bulk_two_ab n oa ob va vb
  = Ok (map (fun p => Z.of_N (moved n [fst (fst p); snd (fst p)] [fst (snd p); snd (snd p)]))
            (list_prod (list_prod oa ob) (list_prod va vb))).
Proof.
  intros n oa ob va vb F H. unfold excite_bulk_two_ab. rewrite np_int64_ok by auto. cbn [bind].
  rewrite !bulk_masks_eq.
  - f_equal. rewrite !map_map.
    rewrite <- (flat_map_prod (fun a c => Z.of_N (moved n [fst a; snd a] [fst c; snd c]))).
    rewrite !flat_map_concat_map, map_map.
    f_equal. apply map_ext. intros a. rewrite map_map. apply map_ext. intros c.
    now rewrite of_N_lxor, of_N_lor.
  - intros c Hc i Hi. apply in_map_iff in Hc as ([x y] & <- & Hc). apply in_prod_iff in Hc as [Hx Hy].
    apply H. rewrite !in_app_iff. destruct Hi as [<-|[<-|[]]]; simpl; auto.
  - intros c Hc i Hi. apply in_map_iff in Hc as ([x y] & <- & Hc). apply in_prod_iff in Hc as [Hx Hy].
    apply H. rewrite !in_app_iff. destruct Hi as [<-|[<-|[]]]; simpl; auto.
Qed.

Lemma NoDup_prod : forall {A B} (l1 : list A) (l2 : list B), NoDup l1 -> NoDup l2 -> NoDup (list_prod l1 l2).
Proof.
  induction l1 as [|a l1 IH]; intros l2 H1 H2; simpl; [constructor|].
  inversion H1; subst. apply NoDup_app_intro'.
  - apply NoDup_map_inj; auto. intros; congruence.
  - apply IH; auto.
  - intros [x y] Hx Hy. apply in_map_iff in Hx as (z & [= <- <-] & _). apply in_prod_iff in Hy as [Hy _].
    contradiction.
Qed.

Lemma moved_bits : forall n a c i,
  (forall i, In i a -> bit n i = true) -> (forall i, In i c -> bit n i = false) ->
  bit (moved n a c) i = (bit n i && negb (setbits a i)) || setbits c i.
Proof.
  intros n a c i Ha Hc. unfold moved. rewrite bit_lor, bit_lxor, !bit_maskN. f_equal.
  destruct (setbits a i) eqn:E; [|now rewrite xorb_false_r, andb_true_r].
  apply setbits_In in E. now rewrite Ha.
Qed.

Lemma moved_lost : forall n a c i,
  (forall i, In i a -> bit n i = true) -> (forall i, In i c -> bit n i = false) ->
  lost n (moved n a c) i = setbits a i /\ lost (moved n a c) n i = setbits c i.
Proof.
  intros n a c i Ha Hc. unfold lost. rewrite moved_bits by auto.
  destruct (setbits a i) eqn:Ea, (setbits c i) eqn:Ec.
  - apply setbits_In in Ea, Ec. specialize (Hc _ Ec). rewrite Ha in Hc by auto. discriminate.
  - apply setbits_In in Ea. rewrite (Ha _ Ea). auto.
  - apply setbits_In in Ec. rewrite (Hc _ Ec). auto.
  - destruct (bit n i); auto.
Qed.

Lemma increasing_setbits_ext : forall a b, increasing a -> increasing b ->
  (forall i, setbits a i = setbits b i) -> a = b.
Proof.
  intros a b Ha Hb H. apply increasing_ext; auto. intros x. rewrite <- !setbits_In. now rewrite H.
Qed.

Lemma counts_filter_len : forall P k c, (forall i, k <= i -> P i = false) -> counts P c ->
  length (filter P (seq 0 k)) = c.
Proof. intros P k c H C. eapply counts_unique; eauto. now apply counts_filter. Qed.

Lemma counts_setbits : forall l, NoDup l -> counts (setbits l) (length l).
Proof. intros l N. exists l. split; auto. split; auto. intros i. symmetry. apply setbits_In. Qed.

Lemma bulk_exact : forall n norbs k, fits n norbs ->
  let prs := list_prod (combinations (occ_indices (Some n)) k)
                       (combinations (vir_indices (Some n) (Z.of_nat norbs)) k) in
  NoDup (map (fun p => moved n (fst p) (snd p)) prs) /\
  forall m, In m (map (fun p => moved n (fst p) (snd p)) prs) <->
            fits m norbs /\ counts (lost n m) k /\ counts (lost m n) k.
Proof.
  intros n norbs k F prs.
  assert (Io : increasing (occ_indices (Some n))) by apply occ_indices_increasing.
  assert (Iv : increasing (vir_indices (Some n) (Z.of_nat norbs))).
  { rewrite vir_indices_filter. apply increasing_filter, increasing_seq. }
  assert (Ho : forall a, incl a (occ_indices (Some n)) -> forall i, In i a -> bit n i = true).
  { intros a Ha i Hi. apply occ_indices_In. auto. }
  assert (Hv : forall a, incl a (vir_indices (Some n) (Z.of_nat norbs)) ->
               forall i, In i a -> i < norbs /\ bit n i = false).
  { intros a Ha i Hi. apply Ha in Hi. rewrite vir_indices_filter in Hi.
    apply filter_In in Hi as [H1 H2]. apply in_seq in H1. apply negb_true_iff in H2. split; [lia|auto]. }
  assert (Hp : forall p, In p prs -> increasing (fst p) /\ increasing (snd p) /\
            incl (fst p) (occ_indices (Some n)) /\ incl (snd p) (vir_indices (Some n) (Z.of_nat norbs)) /\
            length (fst p) = k /\ length (snd p) = k).
  { intros [a c] Hp. apply in_prod_iff in Hp as [H1 H2].
    apply combinations_increasing_In in H1, H2; auto. simpl. tauto. }
  split.
  - apply NoDup_map_inj.
    + intros p q P1 P2 E. apply Hp in P1 as (a1 & c1 & a2 & c2 & _ & _).
      apply Hp in P2 as (b1 & d1 & b2 & d2 & _ & _).
      destruct p as [a c], q as [b d]. cbn [fst snd] in *. f_equal; apply increasing_setbits_ext; auto.
      * intros i. destruct (moved_lost n a c i) as [<- _]; [eauto|intros; now apply (Hv c)|].
        rewrite E. apply moved_lost; [eauto|intros; now apply (Hv d)].
      * intros i. destruct (moved_lost n a c i) as [_ <-]; [eauto|intros; now apply (Hv c)|].
        rewrite E. apply moved_lost; [eauto|intros; now apply (Hv d)].
    + apply NoDup_prod; apply combinations_NoDup; now apply increasing_NoDup.
  - intros m. rewrite in_map_iff. split.
    + intros ([a c] & <- & P). apply Hp in P as (a1 & c1 & a2 & c2 & L1 & L2). cbn [fst snd] in *.
      assert (H1 : forall i, In i a -> bit n i = true) by eauto.
      assert (H2 : forall i, In i c -> bit n i = false) by (intros; now apply (Hv c)).
      repeat split.
      * intros i Hi. rewrite moved_bits, F by auto. simpl. apply setbits_notIn. intros X.
        apply (Hv c) in X; auto. lia.
      * apply counts_ext with (P := setbits a).
        -- intros i. symmetry. now apply moved_lost.
        -- rewrite <- L1. apply counts_setbits. now apply increasing_NoDup.
      * apply counts_ext with (P := setbits c).
        -- intros i. symmetry. now apply moved_lost.
        -- rewrite <- L2. apply counts_setbits. now apply increasing_NoDup.
    + intros (Fm & C1 & C2).
      set (a := filter (lost n m) (seq 0 norbs)). set (c := filter (lost m n) (seq 0 norbs)).
      assert (La : length a = k).
      { apply counts_filter_len; auto. intros i Hi. unfold lost. now rewrite F. }
      assert (Lc : length c = k).
      { apply counts_filter_len; auto. intros i Hi. unfold lost. now rewrite Fm. }
      assert (Ia : incl a (occ_indices (Some n))).
      { intros i Hi. apply filter_In in Hi as [_ Hi]. apply occ_indices_In. unfold lost in Hi.
        now apply andb_true_iff in Hi. }
      assert (Ic : incl c (vir_indices (Some n) (Z.of_nat norbs))).
      { intros i Hi. apply filter_In in Hi as [Hs Hi]. rewrite vir_indices_filter. apply filter_In.
        split; auto. unfold lost in Hi. now apply andb_true_iff in Hi. }
      exists (a, c). split.
      * apply bit_ext. intros i. cbn [fst snd]. rewrite moved_bits; [|eauto|intros; now apply (Hv c)].
        assert (Sa : setbits a i = lost n m i).
        { apply eq_true_iff_eq. rewrite setbits_In. unfold a. rewrite filter_In, in_seq.
          split; [tauto|]. intros H. split; auto. split; [lia|].
          destruct (Nat.lt_ge_cases i norbs); auto. unfold lost in H. rewrite F in H by auto. discriminate. }
        assert (Sc : setbits c i = lost m n i).
        { apply eq_true_iff_eq. rewrite setbits_In. unfold c. rewrite filter_In, in_seq.
          split; [tauto|]. intros H. split; auto. split; [lia|].
          destruct (Nat.lt_ge_cases i norbs); auto. unfold lost in H. rewrite Fm in H by auto. discriminate. }
        rewrite Sa, Sc. unfold lost. destruct (bit n i), (bit m i); reflexivity.
      * apply in_prod; apply combinations_increasing_In; auto; repeat split; auto;
          apply increasing_filter, increasing_seq.
Qed.
