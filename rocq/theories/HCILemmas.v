(** Lemmas about excitation order, seniority and the hierarchy of hCI. *)
From Coq Require Import List ZArith NArith Arith Bool Lia QArith Qround Permutation.
From Verif Require Import Py Slater SdList Alg BitSpec BitLemmas SlaterBits SlaterBits2 SdSpec SdLemmas P_Slater1 P_SdList
  WfnCI WfnHCI.
From Coq Require Qcanon.
Import ListNotations.
Local Open Scope nat_scope.

(** *** counting over spatial orbitals *)
Definition cnt (P : nat -> bool) (k : nat) : nat := length (filter P (seq 0 k)).
Lemma cnt_S : forall P k, cnt P (S k) = cnt P k + (if P k then 1 else 0).
Proof. intros. unfold cnt. rewrite seq_S, filter_app, app_length. cbn. destruct (P k); reflexivity. Qed.
Lemma cnt_split : forall P k, cnt P (k + k) = cnt P k + cnt (fun i => P (i + k)) k.
Proof.
  intros P k. assert (G : forall j, cnt P (k + j) = cnt P k + cnt (fun i => P (i + k)) j).
  { induction j. - rewrite Nat.add_0_r. unfold cnt at 3. cbn. lia.
    - rewrite Nat.add_succ_r, !cnt_S, IHj. rewrite (Nat.add_comm j k). lia. }
  apply G.
Qed.
Lemma counts_cnt : forall P v k, counts P v -> (forall i, k <= i -> P i = false) -> v = cnt P k.
Proof. intros P v k C H. eapply counts_unique; [exact C|]. now apply counts_filter. Qed.

Section TwoDets.
Variables (g m : N) (k e s sg ne : nat).
Hypothesis Fg : fits g (k + k).
Hypothesis Fm : fits m (k + k).
Hypothesis Eg : has_electrons g ne.
Hypothesis Em : has_electrons m ne.
Hypothesis X : excitation g m e.
Hypothesis Sm : has_seniority m k s.
Hypothesis Sg : has_seniority g k sg.

Lemma single_out : forall d, fits d (k + k) -> forall i, k <= i -> single_at d k i = false.
Proof.
  intros d F i H. unfold single_at, alpha_at, beta_at. destruct (Nat.ltb_spec i k); [lia|]. cbn [andb xorb]. now rewrite F by lia.
Qed.
Lemma lost_out : forall a b, fits a (k + k) -> forall i, k + k <= i -> lost a b i = false.
Proof. intros a b F i H. unfold lost. now rewrite F. Qed.
Lemma sen_electrons : exists d, s + 2 * d = ne.
Proof.
  rewrite (counts_cnt _ _ k Sm (single_out m Fm)). apply counts_electrons in Em. rewrite (counts_cnt _ _ (k + k) Em Fm).
  rewrite cnt_split. exists (cnt (fun i => bit m i && bit m (i + k)) k).
  assert (G : forall j, j <= k -> cnt (single_at m k) j + 2 * cnt (fun i => bit m i && bit m (i + k)) j = cnt (bit m) j + cnt (fun i => bit m (i + k)) j).
  { induction j; intros H; [reflexivity|]. rewrite !cnt_S. specialize (IHj ltac:(lia)).
    unfold single_at at 2, alpha_at, beta_at. destruct (Nat.ltb_spec j k); [|lia]. destruct (bit m j), (bit m (j + k)); cbn; lia. }
  apply G. lia.
Qed.
Lemma sen_bound : s <= sg + 2 * e.
Proof.
  rewrite (counts_cnt _ _ k Sm (single_out m Fm)), (counts_cnt _ _ k Sg (single_out g Fg)).
  destruct X as [X1 X2]. apply counts_cnt with (k := k + k) in X1; [|now apply lost_out].
  apply counts_cnt with (k := k + k) in X2; [|now apply lost_out]. rewrite cnt_split in X1, X2.
  assert (G : forall j, j <= k -> cnt (single_at m k) j <= cnt (single_at g k) j + (cnt (lost g m) j + cnt (fun i => lost g m (i + k)) j)
     + (cnt (lost m g) j + cnt (fun i => lost m g (i + k)) j)).
  { induction j; intros H; [unfold cnt; cbn; lia|]. rewrite !cnt_S. specialize (IHj ltac:(lia)).
    unfold lost at 2 4 6 8. unfold single_at at 2 4. unfold alpha_at, beta_at. destruct (Nat.ltb_spec j k); [|lia].
    destruct (bit m j), (bit m (j + k)), (bit g j), (bit g (j + k)); cbn; lia. }
  specialize (G k ltac:(lia)). lia.
Qed.
Lemma paired_even : s = 0 -> sg = 0 -> exists q, e = 2 * q.
Proof.
  intros -> ->. destruct X as [X1 _]. apply counts_cnt with (k := k + k) in X1; [|now apply lost_out].
  rewrite X1, cnt_split. exists (cnt (lost g m) k).
  assert (Z0 : forall d, has_seniority d k 0 -> forall i, i < k -> bit d i = bit d (i + k)).
  { intros d (l & _ & H & L) i Hi. destruct l; [|discriminate]. specialize (H i). unfold single_at, alpha_at, beta_at in H.
    destruct (Nat.ltb_spec i k); [|lia]. destruct (bit d i), (bit d (i + k)); auto; destruct (proj2 H eq_refl). }
  assert (G : forall j, j <= k -> cnt (fun i => lost g m (i + k)) j = cnt (lost g m) j).
  { induction j; intros H; [reflexivity|]. rewrite !cnt_S. rewrite IHj by lia. unfold lost at 2 4.
    rewrite (Z0 g Sg j), (Z0 m Sm j) by lia. reflexivity. }
  rewrite G by lia. lia.
Qed.
End TwoDets.

Lemma aufbau_seniority : forall g ne k, (ne <= k + k) -> is_aufbau g ne k -> has_seniority g k (ne mod 2).
Proof.
  intros g ne k B A.
  assert (D : exists q, ne = 2 * q \/ ne = 2 * q + 1).
  { exists (ne / 2). pose proof (Nat.div_mod ne 2 ltac:(lia)). pose proof (Nat.mod_upper_bound ne 2). lia. }
  destruct D as [q [->| ->]].
  - replace ((2 * q) mod 2) with 0 by (rewrite Nat.mul_comm, Nat.mod_mul; lia). exists []. split; [constructor|]. split; [|reflexivity].
    intros i. cbn [In]. split; [tauto|]. unfold single_at, alpha_at, beta_at. rewrite !A. unfold ground_bits.
    replace ((2 * q + 1) / 2) with q by (rewrite Nat.mul_comm, Nat.div_add_l; cbn; lia).
    replace ((2 * q) / 2) with q by (rewrite Nat.mul_comm, Nat.div_mul; lia).
    destruct (Nat.ltb_spec i k), (Nat.ltb_spec i q), (Nat.leb_spec k i), (Nat.ltb_spec i (k + q)), (Nat.ltb_spec (i + k) q), (Nat.leb_spec k (i + k)), (Nat.ltb_spec (i + k) (k + q)); cbn; try lia; discriminate.
  - replace ((2 * q + 1) mod 2) with 1 by (rewrite Nat.add_comm, Nat.mul_comm, Nat.mod_add; auto).
    exists [q]. split; [repeat constructor; auto|]. split; [|reflexivity].
    intros i. cbn [In]. unfold single_at, alpha_at, beta_at. rewrite !A. unfold ground_bits.
    replace ((2 * q + 1 + 1) / 2) with (q + 1) by (replace (2 * q + 1 + 1) with ((q + 1) * 2) by lia; rewrite Nat.div_mul; lia).
    replace ((2 * q + 1) / 2) with q by (rewrite Nat.mul_comm, Nat.div_add_l; cbn; lia).
    destruct (Nat.ltb_spec i k), (Nat.ltb_spec i (q + 1)), (Nat.leb_spec k i), (Nat.ltb_spec i (k + q)), (Nat.ltb_spec (i + k) (q + 1)), (Nat.leb_spec k (i + k)), (Nat.ltb_spec (i + k) (k + q)); cbn; try lia; split; intros Q; try lia; try discriminate.
Qed.

(** *** rational arithmetic *)
Lemma q_int_spec : forall x z, q_int x = Some z <-> (x == inject_Z z)%Q.
Proof.
  intros x z. unfold q_int. split.
  - destruct (Pos.eqb_spec (Qden (Qred x)) 1) as [E|E]; [|discriminate]. intros [= <-].
    rewrite <- (Qred_correct x) at 1. unfold inject_Z. rewrite <- E. destruct (Qred x); cbn. reflexivity.
  - intros H. apply Qred_complete in H. rewrite (Qcanon.Qred_identity (inject_Z z)) in H; [|apply Z.gcd_1_r].
    rewrite H. reflexivity.
Qed.
Lemma arange_In : forall a b st x, (0 < st)%Q ->
  In x (arange a b st) -> exists i, x = (a + inject_Z (Z.of_nat i) * st)%Q /\ (x < b)%Q.
Proof.
  intros a b st x P H. apply in_map_iff in H as (i & <- & H). exists i. split; auto.
  apply in_seq in H. cbn in H.
  assert (Q1 : (inject_Z (Z.of_nat i) < (b - a) / st)%Q).
  { apply Qnot_le_lt. intros L. apply Qceiling_resp_le in L. rewrite Qceiling_Z in L. lia. }
  assert (Q2 : (inject_Z (Z.of_nat i) * st < (b - a) / st * st)%Q) by (apply Qmult_lt_r; auto).
  assert (E : ((b - a) / st * st == b - a)%Q) by (field; intros Z; rewrite Z in P; now apply Qlt_irrefl in P).
  rewrite E in Q2. apply (Qplus_lt_r _ _ a) in Q2. ring_simplify (a + (b - a))%Q in Q2. exact Q2.
Qed.
Lemma arange_In2 : forall a b st i, (0 < st)%Q -> (a + inject_Z (Z.of_nat i) * st < b)%Q ->
  In (a + inject_Z (Z.of_nat i) * st)%Q (arange a b st).
Proof.
  intros a b st i P H. apply in_map_iff. exists i. split; auto. apply in_seq. split; [lia|]. cbn.
  assert (Q1 : (inject_Z (Z.of_nat i) < (b - a) / st)%Q).
  { apply Qlt_shift_div_l; auto. apply (Qplus_lt_r _ _ a). ring_simplify (a + (b - a))%Q. exact H. }
  assert (Z.of_nat i < Qceiling ((b - a) / st))%Z; [|lia].
  apply Z.nle_gt. intros L. rewrite Zle_Qle in L. pose proof (Qle_ceiling ((b - a) / st)) as C.
  apply (Qlt_irrefl (inject_Z (Z.of_nat i))). eapply Qlt_le_trans; [exact Q1|]. eapply Qle_trans; eauto.
Qed.
