(** Properties C10, C12-C15: fermionic signs and bulk excitations. *)
From Coq Require Import List ZArith NArith Bool Lia Sorted Permutation Arith.
From Verif Require Import Py BitSpec BitLemmas Slater SlaterBits SlaterBits2 SignSpec SignLemmas
  Fock FockLemmas Combos BulkLemmas BulkAB SignVec SignVec2 SignVec3.
Import ListNotations.

(** C10: sign_perm is (-1)^k for every way of sorting with k exchanges of neighbours *)
Theorem C10_sign_perm : forall l k l', NoDup l -> swaps k l l' -> StronglySorted Z.lt l' ->
  sign_perm l None false = Ok (pow_m1 k).
Proof.
  intros l k l' N W S. rewrite sign_perm_value by auto. f_equal.
  symmetry. apply signature_inversions; auto. now exists k, l'.
Qed.
Print Assumptions C10_sign_perm.

Theorem C10_sign_perm_decreasing : forall l k l', NoDup l -> swaps k l l' ->
  StronglySorted Z.lt (rev l') -> sign_perm l None true = Ok (pow_m1 k).
Proof.
  intros l k l' N W S. apply swaps_rev in W.
  change (sign_perm l None true) with (sign_perm (rev l) None false).
  eapply C10_sign_perm; eauto. now apply NoDup_rev.
Qed.
Print Assumptions C10_sign_perm_decreasing.

Theorem C10_ordered_set : forall l ord k l', NoDup l -> Permutation l ord ->
  StronglySorted Z.lt ord -> swaps k l l' -> StronglySorted Z.lt l' ->
  sign_perm l (Some ord) false = Ok (pow_m1 k).
Proof.
  intros l ord k l' N P So W S. rewrite sign_perm_ord_value by auto. f_equal.
  symmetry. apply signature_inversions; auto. now exists k, l'.
Qed.
Print Assumptions C10_ordered_set.

(** such a sorting sequence always exists, so the theorems above determine the value *)
Theorem C10_sortable : forall l, NoDup l -> exists k l', swaps k l l' /\ StronglySorted Z.lt l'.
Proof. intros l N. destruct (signature_exists l N) as (k & l' & W & S & _). eauto. Qed.
Print Assumptions C10_sortable.

Theorem C10_bad_ordered_set : forall l ord d,
  sign_perm l (Some ord) d = Err ValueError <-> ~ StronglySorted Z.lt ord.
Proof.
  intros l ord d. unfold sign_perm. rewrite <- strictly_increasing_iff.
  destruct (strictly_increasing ord); simpl; split; intros; congruence.
Qed.
Print Assumptions C10_bad_ordered_set.

(** exchanging two neighbouring elements flips the sign *)
Theorem C10_antisymmetric : forall l1 a b l2 s, NoDup (l1 ++ a :: b :: l2) ->
  sign_perm (l1 ++ a :: b :: l2) None false = Ok s ->
  sign_perm (l1 ++ b :: a :: l2) None false = Ok (- s)%Z.
Proof.
  intros l1 a b l2 s N H. rewrite sign_perm_value in H by auto. apply Ok_inj in H. subst s.
  rewrite sign_perm_value.
  - rewrite (inversions_swap l1 a b l2) by (eapply NoDup_swap_neq; eauto). rewrite sgn_negb. f_equal. lia.
  - eapply Permutation_NoDup; [|exact N]. apply Permutation_app_head, perm_swap.
Qed.
Print Assumptions C10_antisymmetric.

Example C10_ex : sign_perm [3; 1; 2; 7; 5]%Z None false = Ok (-1)%Z /\
  swaps 3 [3; 1; 2; 7; 5]%Z [1; 2; 3; 5; 7]%Z /\
  sign_perm [1; 2; 3]%Z None true = Ok (-1)%Z /\
  sign_perm [2; 1]%Z (Some [2; 1]%Z) false = Err ValueError.
Proof.
  repeat split; try reflexivity.
  apply (swaps_S 2 [] 3 1 [2; 7; 5])%Z. apply (swaps_S 1 [1] 3 2 [7; 5])%Z.
  apply (swaps_S 0 [1; 2; 3] 7 5 [])%Z. constructor.
Qed.

(** C12: the specification operators satisfy the canonical anticommutation relations ... *)
Theorem C12_anticommutation : forall i j m n,
  (melem m [Ann i; Ann j] n + melem m [Ann j; Ann i] n = 0)%Z /\
  (melem m [Cre i; Cre j] n + melem m [Cre j; Cre i] n = 0)%Z /\
  (melem m [Cre j; Ann i] n + melem m [Ann i; Cre j] n
   = if Nat.eqb i j && N.eqb m n then 1 else 0)%Z.
Proof.
  intros. split; [apply (car_same false)|]. split; [apply (car_same true)|apply car_mixed].
Qed.
Print Assumptions C12_anticommutation.

(** ... and sign_excite is the coefficient they produce *)
Theorem C12_sign_excite : forall n anns cres s,
  sign_excite (Some n) anns cres = Ok s <->
  exists m, melem m (map Ann anns ++ map Cre cres) n = s /\ s <> 0%Z /\
            forall m', m' <> m -> melem m' (map Ann anns ++ map Cre cres) n = 0%Z.
Proof.
  intros n anns cres s. rewrite sign_excite_eq. unfold melem.
  destruct (applys (map Ann anns ++ map Cre cres) (Some (false, n))) as [[b m]|].
  - split.
    + intros H. apply Ok_inj in H. subst s. exists m. cbn [braket]. rewrite N.eqb_refl. split; [now destruct b|].
      split; [now destruct b|]. intros m' Hm. destruct (N.eqb_spec m' m); congruence.
    + intros (m' & E & Nz & _). cbn [braket] in E. destruct (N.eqb_spec m' m); [|congruence].
      subst. now destruct b.
  - split; [discriminate|]. intros (m & E & Nz & _). simpl in E. congruence.
Qed.
Print Assumptions C12_sign_excite.

(** the determinant reached is the one returned by annihilate and create *)
Theorem C12_state : forall n anns cres s, sign_excite (Some n) anns cres = Ok s ->
  exists m, create (annihilate (Some n) anns) cres = Some m /\
            melem m (map Ann anns ++ map Cre cres) n = s.
Proof.
  intros n anns cres s H. rewrite sign_excite_eq, applys_app in H. unfold melem. rewrite applys_app.
  assert (A : forall l n b m, applys (map Ann l) (Some (false, n)) = Some (b, m) ->
              annihilate (Some n) l = Some m).
  { clear. induction l as [|i l IH]; intros n b m H.
    - simpl in *. congruence.
    - cbn [map] in H. rewrite applys_cons in H. unfold Ann at 2 in H. cbn [apply1 fst snd] in H.
      cbn [annihilate]. rewrite occ_bit. destruct (bit n i); cbn [negb Bool.eqb] in *;
        [|now rewrite applys_None in H].
      replace (Some (xorb false (par n i), flip n i)) with (xor_ket (par n i) (Some (false, flip n i))) in H
        by (simpl; now destruct (par n i)).
      rewrite applys_xor in H. destruct (applys (map Ann l) _) as [[b' m']|] eqn:E; [|discriminate].
      apply IH in E. simpl in H. unfold flip in E. rewrite E. congruence. }
  assert (C : forall l n b m, applys (map Cre l) (Some (false, n)) = Some (b, m) ->
              create (Some n) l = Some m).
  { clear. induction l as [|i l IH]; intros n b m H.
    - simpl in *. congruence.
    - cbn [map] in H. rewrite applys_cons in H. unfold Cre at 2 in H. cbn [apply1 fst snd] in H.
      pose proof (create_one n i) as E1. cbn [create] in *. rewrite occ_bit in *.
      destruct (bit n i); cbn [negb Bool.eqb] in *; [now rewrite applys_None in H|].
      replace (Some (xorb false (par n i), flip n i)) with (xor_ket (par n i) (Some (false, flip n i))) in H
        by (simpl; now destruct (par n i)).
      rewrite applys_xor in H. destruct (applys (map Cre l) _) as [[b' m']|] eqn:E; [|discriminate].
      apply IH in E. simpl in H. assert (E1' : N.lor n (N.shiftl 1 (N.of_nat i)) = flip n i) by congruence. rewrite E1', E. congruence. }
  destruct (applys (map Ann anns) _) as [[b m]|] eqn:E1; [|now rewrite applys_None in H].
  replace (Some (b, m)) with (xor_ket b (Some (false, m))) in * by (simpl; now rewrite xorb_false_r).
  rewrite applys_xor in *. destruct (applys (map Cre cres) _) as [[b' m']|] eqn:E2; [|discriminate].
  exists m'. rewrite (A _ _ _ _ E1), (C _ _ _ _ E2). split; auto.
  cbn [xor_ket] in *. apply Ok_inj in H. subst. cbn [braket]. rewrite N.eqb_refl. now destruct (xorb b b').
Qed.
Print Assumptions C12_state.

Theorem C12_errors : forall n anns cres,
  (exists e, sign_excite (Some n) anns cres = Err e) <->
  sign_excite (Some n) anns cres = Err ValueError /\
  forall m, melem m (map Ann anns ++ map Cre cres) n = 0%Z.
Proof.
  intros n anns cres. rewrite sign_excite_eq. unfold melem.
  destruct (applys _ _) as [[b m]|].
  - split; [intros [e H]; discriminate|intros [H _]; discriminate].
  - split; [intros _; split; auto|eauto].
Qed.
Print Assumptions C12_errors.

Theorem C12_none : forall anns cres, (anns <> [] \/ cres <> []) ->
  sign_excite None anns cres = Err ValueError.
Proof. intros anns cres H. rewrite sign_excite_None. destruct anns, cres; auto. destruct H; congruence. Qed.
Print Assumptions C12_none.

Theorem C12_swap_annihilators : forall n l1 a b l2 cres s, a <> b ->
  sign_excite (Some n) (l1 ++ a :: b :: l2) cres = Ok s ->
  sign_excite (Some n) (l1 ++ b :: a :: l2) cres = Ok (- s)%Z.
Proof.
  intros n l1 a b l2 cres s Hab H. rewrite sign_excite_eq in *.
  rewrite map_app in *. cbn [map] in *. rewrite <- app_assoc in *. simpl app in *.
  unfold Ann at 2 3. unfold Ann at 2 3 in H. rewrite applys_swap by auto.
  destruct (applys _ _) as [[c m]|]; [|discriminate]. cbn [xor_ket]. apply Ok_inj in H. subst.
  now destruct c.
Qed.
Print Assumptions C12_swap_annihilators.

Theorem C12_swap_creators : forall n anns l1 a b l2 s, a <> b ->
  sign_excite (Some n) anns (l1 ++ a :: b :: l2) = Ok s ->
  sign_excite (Some n) anns (l1 ++ b :: a :: l2) = Ok (- s)%Z.
Proof.
  intros n anns l1 a b l2 s Hab H. rewrite sign_excite_eq in *.
  rewrite map_app in *. cbn [map] in *. rewrite !app_assoc in *.
  unfold Cre at 2 3. unfold Cre at 2 3 in H. rewrite applys_swap by auto.
  destruct (applys _ _) as [[c m]|]; [|discriminate]. cbn [xor_ket]. apply Ok_inj in H. subst.
  now destruct c.
Qed.
Print Assumptions C12_swap_creators.

Example C12_ex : sign_excite (Some 0x2d%N) [2; 5] [1; 6] = Ok (-1)%Z /\
  sign_excite (Some 0x2d%N) [5; 2] [1; 6] = Ok 1%Z /\
  sign_excite (Some 0x2d%N) [5; 5] [1; 6] = Err ValueError /\
  melem 0x4b%N [Ann 2; Ann 5; Cre 1; Cre 6] 0x2d%N = (-1)%Z.
Proof. vm_compute. repeat split. Qed.

(** C13: entry by entry, in the order of itertools.combinations *)
Theorem C13_entries : forall n norbs k l, fits n norbs -> norbs <= 63 ->
  excite_bulk n (occ_indices (Some n)) (vir_indices (Some n) (Z.of_nat norbs)) (Z.of_nat k) = Ok l ->
  Forall2 (fun p m => (0 <= m)%Z /\ excite (Some n) (fst p ++ snd p) = Ok (Some (Z.to_N m)))
    (list_prod (combinations (occ_indices (Some n)) k)
               (combinations (vir_indices (Some n) (Z.of_nat norbs)) k)) l.
Proof.
  intros n norbs k l F B H.
  assert (F63 : fits n 63) by (intros i Hi; apply F; lia).
  assert (Hv : forall i, In i (vir_indices (Some n) (Z.of_nat norbs)) -> i < norbs /\ bit n i = false).
  { intros i Hi. rewrite vir_indices_filter in Hi. apply filter_In in Hi as [H1 H2].
    apply in_seq in H1. apply negb_true_iff in H2. split; [lia|auto]. }
  rewrite excite_bulk_value in H; auto.
  2:{ intros i Hi. apply occ_indices_In in Hi. destruct (Nat.lt_ge_cases i 63); auto.
      rewrite F63 in Hi by auto. discriminate. }
  2:{ intros i Hi. apply Hv in Hi. lia. }
  apply Ok_inj in H. subst l.
  match goal with |- Forall2 _ ?x _ => rewrite <- (map_id x) at 1 end.
  apply Forall2_map_same. intros [a c] Hp. cbn [fst snd].
  apply in_prod_iff in Hp as [H1 H2].
  apply combinations_increasing_In in H1 as (H1a & H1b & H1c); [|apply occ_indices_increasing].
  apply combinations_increasing_In in H2 as (H2a & H2b & H2c);
    [|rewrite vir_indices_filter; apply increasing_filter, increasing_seq].
  split; [lia|]. rewrite N2Z.id. apply moved_excite; try lia; try now apply increasing_NoDup.
  - intros i Hi. now apply occ_indices_In, H1b.
  - intros i Hi. now apply Hv, H2b.
Qed.
Print Assumptions C13_entries.

(** every determinant that differs from [n] in exactly k electrons, once, and nothing else *)
Theorem C13_exact : forall n norbs k, fits n norbs -> norbs <= 63 ->
  exists l, excite_bulk n (occ_indices (Some n)) (vir_indices (Some n) (Z.of_nat norbs)) (Z.of_nat k)
            = Ok (map Z.of_N l) /\
  NoDup l /\
  forall m, In m l <-> fits m norbs /\ counts (lost n m) k /\ counts (lost m n) k.
Proof.
  intros n norbs k F B.
  assert (F63 : fits n 63) by (intros i Hi; apply F; lia).
  eexists. rewrite excite_bulk_value; auto.
  - split; [|apply (bulk_exact n norbs k F)]. f_equal. now rewrite map_map.
  - intros i Hi. apply occ_indices_In in Hi. destruct (Nat.lt_ge_cases i 63); auto.
    rewrite F63 in Hi by auto. discriminate.
  - intros i Hi. rewrite vir_indices_filter in Hi. apply filter_In in Hi as [H1 H2].
    apply in_seq in H1. lia.
Qed.
Print Assumptions C13_exact.

(** moved electrons are conserved electrons *)
Theorem C13_electrons : forall n norbs k l ne m, fits n norbs -> norbs <= 63 -> has_electrons n ne ->
  excite_bulk n (occ_indices (Some n)) (vir_indices (Some n) (Z.of_nat norbs)) (Z.of_nat k) = Ok l ->
  In m l -> has_electrons (Z.to_N m) ne.
Proof.
  intros n norbs k l ne m F B E H Hm. pose proof (C13_entries _ _ _ _ F B H) as G.
  revert Hm. clear H. induction G as [|p x ps l [_ H] G IH]; simpl; [tauto|].
  intros [->|Hm]; [|auto]. eapply excite_electrons; eauto.
Qed.
Print Assumptions C13_electrons.

Theorem C13_two_ab_exact : forall n norbs k oa ob va vb, fits n norbs -> norbs <= 63 ->
  NoDup oa -> NoDup ob -> NoDup va -> NoDup vb ->
  (forall i, In i oa <-> i < k /\ bit n i = true) ->
  (forall i, In i ob <-> k <= i /\ bit n i = true) ->
  (forall i, In i va <-> i < k /\ i < norbs /\ bit n i = false) ->
  (forall i, In i vb <-> k <= i /\ i < norbs /\ bit n i = false) ->
  exists l, excite_bulk_two_ab n oa ob va vb = Ok (map Z.of_N l) /\ NoDup l /\
  forall m, In m l <->
    fits m norbs /\ exists a b c d, a < k /\ k <= b /\ c < k /\ k <= d /\
      (forall i, lost n m i = Nat.eqb i a || Nat.eqb i b) /\
      (forall i, lost m n i = Nat.eqb i c || Nat.eqb i d).
Proof.
  intros n norbs k oa ob va vb F B Noa Nob Nva Nvb Hoa Hob Hva Hvb.
  eexists. rewrite excite_bulk_two_value.
  - split; [|eapply (bulk_ab_exact n norbs k oa ob va vb); auto]. f_equal. now rewrite map_map.
  - intros i Hi. apply F. lia.
  - assert (K : forall i, bit n i = true -> i < norbs).
    { intros i Hi. destruct (Nat.lt_ge_cases i norbs); auto. rewrite F in Hi by auto. discriminate. }
    intros i. rewrite !in_app_iff, Hoa, Hob, Hva, Hvb. intros [[_ X]|[[_ X]|[X|X]]].
    + apply K in X. lia.
    + apply K in X. lia.
    + lia.
    + lia.
Qed.
Print Assumptions C13_two_ab_exact.

(** order of the entries of excite_bulk_two_ab *)
Theorem C13_two_ab_entries : forall n oa ob va vb l, fits n 63 ->
  (forall i, In i (oa ++ ob ++ va ++ vb) -> i < 63) ->
  (forall i, In i (oa ++ ob) -> bit n i = true) -> (forall i, In i (va ++ vb) -> bit n i = false) ->
  (forall i, In i oa -> ~ In i ob) -> (forall i, In i va -> ~ In i vb) ->
  excite_bulk_two_ab n oa ob va vb = Ok l ->
  Forall2 (fun p m => (0 <= m)%Z /\
     excite (Some n) [fst (fst p); snd (fst p); fst (snd p); snd (snd p)] = Ok (Some (Z.to_N m)))
    (list_prod (list_prod oa ob) (list_prod va vb)) l.
Proof.
  intros n oa ob va vb l F B Ho Hv D1 D2 H. rewrite excite_bulk_two_value in H by auto.
  apply Ok_inj in H. subst l.
  match goal with |- Forall2 _ ?x _ => rewrite <- (map_id x) at 1 end.
  apply Forall2_map_same. intros [[a b] [c d]] Hp. cbn [fst snd].
  rewrite !in_prod_iff in Hp. destruct Hp as [[Ha Hb] [Hc Hd]].
  split; [lia|]. rewrite N2Z.id.
  change [a; b; c; d] with ([a; b] ++ [c; d]). apply moved_excite; auto.
  - constructor; [|constructor; [intros []|constructor]]. intros [->|[]]. now apply (D1 a).
  - constructor; [|constructor; [intros []|constructor]]. intros [->|[]]. now apply (D2 c).
  - intros i [<-|[<-|[]]]; apply Ho, in_or_app; auto.
  - intros i [<-|[<-|[]]]; apply Hv, in_or_app; auto.
Qed.
Print Assumptions C13_two_ab_entries.

Theorem C13_negative_order : forall n occs virs k, (k < 0)%Z ->
  excite_bulk n occs virs k = Err TypeError.
Proof. intros. unfold excite_bulk. now rewrite (proj2 (Z.ltb_lt _ _)). Qed.
Print Assumptions C13_negative_order.

(** C13 without the 63-orbital limit is false: orbitals from 63 on do not fit an int64 *)
Theorem C13_large_refuted :
  excite_bulk 1 [0] [64] 1 = Ok [0%Z] /\
  excite (Some 1%N) [0; 64] = Ok (Some (2 ^ 64)%N) /\
  excite_bulk (2 ^ 63) [63] [0] 1 = Err OverflowError.
Proof. vm_compute. repeat split. Qed.
Print Assumptions C13_large_refuted.

Example C13_ex : excite_bulk 0x5 [0; 2] [1; 3] 1 = Ok [6; 12; 3; 9]%Z /\
  excite_bulk_two_ab 0x5 [0] [2] [1] [3] = Ok [10]%Z /\
  fits 5 4 /\ occ_indices (Some 5%N) = [0; 2] /\ vir_indices (Some 5%N) 4 = [1; 3].
Proof.
  repeat split. intros i Hi. unfold bit. apply N.bits_above_log2.
  change (N.log2 5) with 2%N. lia.
Qed.

(** C14: [p] ranges over the excitations in the order of excite_bulk *)
Theorem C14_one : forall n norbs,
  Forall2 (fun p s => sign_excite (Some n) (fst p) (rev (snd p)) = Ok s)
    (list_prod (combinations (occ_indices (Some n)) 1) (combinations (vir_indices (Some n) norbs) 1))
    (sign_excite_one (occ_indices (Some n)) (vir_indices (Some n) norbs)).
Proof.
  intros n norbs. apply vector_one.
  - destruct (Z.le_gt_cases norbs 0) as [H|H]; [rewrite vir_indices_neg by auto; constructor|].
    replace norbs with (Z.of_nat (Z.to_nat norbs)) by lia. rewrite vir_indices_filter.
    apply increasing_filter, increasing_seq.
  - intros v. destruct (Z.le_gt_cases norbs 0) as [H|H]; [rewrite vir_indices_neg by auto; intros []|].
    replace norbs with (Z.of_nat (Z.to_nat norbs)) by lia. rewrite vir_indices_filter.
    intros X. apply filter_In in X as [_ X]. now apply negb_true_iff in X.
Qed.
Print Assumptions C14_one.

Theorem C14_two : forall n norbs,
  Forall2 (fun p s => sign_excite (Some n) (fst p) (rev (snd p)) = Ok s)
    (list_prod (combinations (occ_indices (Some n)) 2) (combinations (vir_indices (Some n) norbs) 2))
    (sign_excite_two (occ_indices (Some n)) (vir_indices (Some n) norbs)).
Proof.
  intros n norbs. apply vector_two.
  - destruct (Z.le_gt_cases norbs 0) as [H|H]; [rewrite vir_indices_neg by auto; constructor|].
    replace norbs with (Z.of_nat (Z.to_nat norbs)) by lia. rewrite vir_indices_filter.
    apply increasing_filter, increasing_seq.
  - intros v. destruct (Z.le_gt_cases norbs 0) as [H|H]; [rewrite vir_indices_neg by auto; intros []|].
    replace norbs with (Z.of_nat (Z.to_nat norbs)) by lia. rewrite vir_indices_filter.
    intros X. apply filter_In in X as [_ X]. now apply negb_true_iff in X.
Qed.
Print Assumptions C14_two.

(** any sorted list of empty orbitals may be used (e.g. only the alpha ones) *)
Theorem C14_any_virtuals : forall n virs, increasing virs -> (forall v, In v virs -> bit n v = false) ->
  Forall2 (fun p s => sign_excite (Some n) (fst p) (rev (snd p)) = Ok s)
    (list_prod (combinations (occ_indices (Some n)) 1) (combinations virs 1))
    (sign_excite_one (occ_indices (Some n)) virs) /\
  Forall2 (fun p s => sign_excite (Some n) (fst p) (rev (snd p)) = Ok s)
    (list_prod (combinations (occ_indices (Some n)) 2) (combinations virs 2))
    (sign_excite_two (occ_indices (Some n)) virs).
Proof. intros n virs H1 H2. split; [now apply vector_one|now apply vector_two]. Qed.
Print Assumptions C14_any_virtuals.

Theorem C14_two_ab : forall n k oa ob va vb,
  occ_indices (Some n) = oa ++ ob ->
  increasing va -> increasing vb ->
  (forall v, In v va \/ In v vb -> bit n v = false) ->
  (forall o, In o oa \/ In o va -> o < k) -> (forall o, In o ob \/ In o vb -> k <= o) ->
  Forall2 (fun p s => sign_excite (Some n) [fst (fst p); snd (fst p)] [snd (snd p); fst (snd p)] = Ok s)
    (list_prod (list_prod oa ob) (list_prod va vb))
    (sign_excite_two_ab oa ob va vb).
Proof. intros n k oa ob va vb. exact (vector_two_ab n k oa ob va vb). Qed.
Print Assumptions C14_two_ab.

Example C14_ex : sign_excite_one [0; 2; 3] [1; 4] = [1; 1; 1; -1; -1; 1]%Z /\
  sign_excite_two [0; 2] [1; 3] = [1]%Z /\
  sign_excite_two_ab [0] [2; 3] [1] [5] = [-1; 1]%Z /\
  occ_indices (Some 0xd%N) = [0] ++ [2; 3].
Proof. vm_compute. repeat split. Qed.

(** C15 *)
Theorem C15_array : forall n nspin M A C, fits n nspin ->
  (forall anns, In anns A -> length anns = M /\ NoDup anns /\ forall a, In a anns -> bit n a = true) ->
  (forall cres, In cres C -> length cres = M /\ increasing cres /\ forall c, In c cres -> bit n c = false) ->
  Forall2 (fun anns row => Forall2 (fun cres s => sign_excite (Some n) anns (rev cres) = Ok s) C row)
          A (sign_excite_array (occ_indices (Some n)) A C M nspin).
Proof. exact vector_array. Qed.
Print Assumptions C15_array.

Example C15_ex :
  sign_excite_array [0; 2; 3; 5] [[0; 3]; [5; 2]] [[1; 4]; [4; 6]] 2 7 = [[1; 1]; [-1; 1]]%Z /\
  occ_indices (Some 0x2d%N) = [0; 2; 3; 5] /\
  sign_excite (Some 0x2d%N) [0; 3] [4; 1] = Ok 1%Z.
Proof. vm_compute. repeat split. Qed.
