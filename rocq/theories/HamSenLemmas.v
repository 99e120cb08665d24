(** The seniority-zero Hamiltonian against the restricted one. *)
From Coq Require Import List ZArith NArith Bool Lia Arith Permutation Sorted.
From Verif Require Import Py BitSpec BitLemmas Slater SlaterBits SlaterBits2 SignSpec Fock FockLemmas SignLemmas Alg Combos BulkLemmas
  SignVec2 PermLemmas HamSpec HamGen FockInner HamLemmas HamSC HamMain HamWfn HamRes SpinSpec HamSpin HamSpinSign HamSpinWfn HamSpinSum HamSen.
Import ListNotations.

Lemma paired_seniority : forall k m, (0 < k)%nat -> (get_seniority m (Z.of_nat k) = Ok 0%nat <-> paired k m).
Proof.
  intros k m P. destruct (spin_summary m (Z.of_nat k)) as (na & nb & d & v & _ & _ & _ & _ & _ & E & _ & _ & _ & Z); [lia|].
  rewrite Nat2Z.id in Z. rewrite E. split.
  - intros H. apply Ok_inj in H. intros i. apply (proj1 Z H i).
  - intros H. f_equal. apply Z. exact H.
Qed.
Lemma seniority_ok : forall k m, (0 < k)%nat -> exists v, get_seniority m (Z.of_nat k) = Ok v.
Proof.
  intros k m P. destruct (spin_summary m (Z.of_nat k)) as (na & nb & d & v & _ & _ & _ & _ & _ & E & _); [lia|]. eauto.
Qed.
Lemma paired_fits : forall k m, paired k m -> fits m (2 * k).
Proof.
  intros k m H i L. specialize (H (i - k)%nat). replace (i - k + k)%nat with i in H by lia. rewrite <- H.
  destruct (Nat.ltb_spec (i - k) k); auto. lia.
Qed.

(** the spatial determinant *)
Lemma paired_split : forall k m, (0 < k)%nat -> paired k m -> exists a, split_spin m (Z.of_nat k) = Ok (a, a) /\ fits a k /\
  (forall i, bit m i = if Nat.ltb i k then bit a i else bit a (i - k)).
Proof.
  intros k m P H. destruct (split_occ m k P) as (a & b & E & A & B & _).
  assert (X : a = b). { apply bit_ext. intros i. rewrite A, B. apply H. }
  subst b. exists a. split; auto. split.
  - intros i L. rewrite A. destruct (Nat.ltb_spec i k); auto. lia.
  - intros i. destruct (Nat.ltb_spec i k) as [L|L].
    + rewrite A. now rewrite (proj2 (Nat.ltb_lt i k) L).
    + rewrite B. now replace (i - k + k)%nat with i by lia.
Qed.

Lemma increasing_double : forall k l, increasing l -> (forall i, In i l -> (i < k)%nat) ->
  increasing (l ++ map (fun i => i + k)%nat l).
Proof.
  intros k l I B. apply increasing_app. split; auto. split.
  - clear B. induction I as [|x l I IH F]; cbn [map]; constructor; auto.
    rewrite Forall_map. eapply Forall_impl; [|exact F]. cbn beta. intros; lia.
  - intros x y Hx Hy. apply in_map_iff in Hy as (z & <- & _). apply B in Hx. lia.
Qed.

Definition doubled (k : nat) (l : list nat) : list nat := l ++ map (fun i => i + k)%nat l.
Lemma doubled_In : forall k l i, (forall i, In i l -> (i < k)%nat) ->
  (In i (doubled k l) <-> if Nat.ltb i k then In i l else In (i - k)%nat l).
Proof.
  intros k l i B. unfold doubled. rewrite in_app_iff, in_map_iff. destruct (Nat.ltb_spec i k) as [L|L].
  - split; [|auto]. intros [H|(x & E & _)]; auto. lia.
  - split.
    + intros [H|(x & <- & H)]; [apply B in H; lia|]. now replace (x + k - k)%nat with x by lia.
    + intros H. right. exists (i - k)%nat. split; auto. lia.
Qed.
Lemma double_diff : forall k m d a b, fits a k -> fits b k ->
  (forall i, bit m i = if Nat.ltb i k then bit a i else bit a (i - k)) ->
  (forall i, bit d i = if Nat.ltb i k then bit b i else bit b (i - k)) ->
  diff_orbs m d = (doubled k (fst (diff_orbs a b)), doubled k (snd (diff_orbs a b))).
Proof.
  intros k m d a b Fa Fb A B. rewrite (surjective_pairing (diff_orbs m d)).
  assert (B1 : forall i, In i (fst (diff_orbs a b)) -> (i < k)%nat).
  { intros i Hi. apply diff_orbs_In1 in Hi as [Hi _]. exact (fits_lt _ _ _ Fa Hi). }
  assert (B2 : forall i, In i (snd (diff_orbs a b)) -> (i < k)%nat).
  { intros i Hi. apply diff_orbs_In2 in Hi as [Hi _]. exact (fits_lt _ _ _ Fb Hi). }
  f_equal.
  - apply increasing_ext; [apply occ_indices_increasing|apply increasing_double; auto; apply occ_indices_increasing|].
    intros x. rewrite diff_orbs_In1, doubled_In, A, B by auto. destruct (Nat.ltb x k); now rewrite diff_orbs_In1.
  - apply increasing_ext; [apply occ_indices_increasing|apply increasing_double; auto; apply occ_indices_increasing|].
    intros x. rewrite diff_orbs_In2, doubled_In, A, B by auto. destruct (Nat.ltb x k); now rewrite diff_orbs_In2.
Qed.

(** pair excitations have positive sign *)
Lemma pair_sign : forall k m a x y, fits a k ->
  (forall i, bit m i = if Nat.ltb i k then bit a i else bit a (i - k)) ->
  bit a x = true -> bit a y = false -> (y < k)%nat ->
  sign_excite (Some m) [x; x + k]%nat [y + k; y]%nat = Ok 1%Z.
Proof.
  intros k m a x y Fa A X Y Ly. assert (Lx : (x < k)%nat) by exact (fits_lt _ _ _ Fa X).
  assert (Hb : forall i, bit a i = bit m (i + k)).
  { intros i. rewrite A. destruct (Nat.ltb_spec (i + k) k); [lia|]. now replace (i + k - k)%nat with i by lia. }
  assert (P1 : forall i, (i < k)%nat -> par m i = par a i).
  { intros i Li. apply par_ext. intros j Lj. rewrite A. destruct (Nat.ltb_spec j k); auto. lia. }
  assert (P2 : forall i, par m (i + k) = xorb (par m k) (par a i)) by (intros; now apply par_shift).
  rewrite sign_excite_eq. cbn [map app].
  destruct (applys_ab m x (x + k) y (y + k)) as (w & E); try lia.
  - rewrite A. now rewrite (proj2 (Nat.ltb_lt x k) Lx).
  - now rewrite <- Hb.
  - rewrite A. now rewrite (proj2 (Nat.ltb_lt y k) Ly).
  - now rewrite <- Hb.
  - rewrite E, !P2, (P1 x), (P1 y) by auto. replace (Nat.ltb (x + k) (y + k)) with (Nat.ltb x y).
    + destruct (par m k), (par a x), (par a y), (Nat.ltb x y); reflexivity.
    + destruct (Nat.ltb_spec x y), (Nat.ltb_spec (x + k) (y + k)); auto; lia.
Qed.

Section Sen.
Context {K : CRing}.
Local Open Scope cr_scope.
Add Ring K_ring21 : (rth K).
Variable h : rham K.
Notation k := (rh_n h).
Hypothesis P : (0 < k)%nat.

Lemma sz_not_paired : forall m d, ~ (paired k m /\ paired k d) -> sz_decomposed h m d = Ok t_zero.
Proof.
  intros m d H. unfold sz_decomposed. destruct (seniority_ok k m P) as [s1 E1]. destruct (seniority_ok k d P) as [s2 E2].
  rewrite E1, E2. cbn [bind]. destruct (Nat.eqb_spec s1 s2) as [->|N]; auto. destruct (Nat.eqb_spec s2 0) as [->|N]; auto.
  exfalso. apply H. split; now apply paired_seniority.
Qed.

Lemma sz_eq : forall m d, paired k m -> paired k d -> sz_decomposed h m d = r_decomposed h m d.
Proof.
  intros m d Pm Pd. unfold sz_decomposed.
  rewrite (proj2 (paired_seniority k m P) Pm), (proj2 (paired_seniority k d P) Pd). cbn [bind Nat.eqb andb negb].
  destruct (paired_split k m P Pm) as (a & Ea & Fa & A). destruct (paired_split k d P Pd) as (b & Eb & Fb & B).
  rewrite Ea, Eb. cbn [bind fst snd]. assert (D := double_diff k m d a b Fa Fb A B).
  unfold r_decomposed, spin_decomposed. rewrite D.
  destruct (diff_cases a b) as [E|[(x & y & E)|[(x & y & z & w & E)|H]]].
  - subst b. assert (m = d) by (apply bit_ext; intros i; now rewrite A, B). subst d.
    rewrite diff_same, shared_same. unfold doubled.
    assert (S : shared_sd m m = m) by (unfold shared_sd; apply N.land_diag).
    rewrite S, Ea. cbn [fst snd map app length Nat.eqb negb Nat.ltb Nat.leb bind rev].
    rewrite sign_excite_eq. cbn [map app applys bind sgn]. unfold applys. cbn [bind fold_left sgn sgnr].
    unfold r_sd_zero, spin_sd_zero. 
    assert (L : forall i, In i (occ_indices (Some a)) -> (i < k)%nat).
    { intros i Hi. apply occ_indices_In in Hi. exact (fits_lt _ _ _ Fa Hi). }
    rewrite !chk_ok; auto. 
    + cbn [bind t_scale]. change (sgnr (K := K) 1) with (1 : K). f_equal. f_equal; [f_equal|]; ring.
    + intros i Hi. apply in_app_iff in Hi as [Hi|Hi]; auto.
  - rewrite E. unfold doubled. cbn [fst snd map app length Nat.eqb negb Nat.ltb Nat.leb bind rev].
    destruct (split_spin (shared_sd m d) (Z.of_nat k)) as [[s1 s2]|] eqn:Es.
    2:{ destruct (split_occ (shared_sd m d) k P) as (? & ? & X & _). congruence. }
    cbn [bind]. assert (X : In x (fst (diff_orbs a b))) by (rewrite E; now left).
    assert (Y : In y (snd (diff_orbs a b))) by (rewrite E; now left).
    apply diff_orbs_In1 in X as [X _]. apply diff_orbs_In2 in Y as [Y Y'].
    assert (Lx : (x < k)%nat) by exact (fits_lt _ _ _ Fa X). assert (Ly : (y < k)%nat) by exact (fits_lt _ _ _ Fb Y).
    rewrite (pair_sign k m a x y) by auto. cbn [bind r_sd_two].
    rewrite !spatial_ok, !alpha_ok by lia. cbn [bind]. rewrite !up_add, !up_lt, !place_add, !place_low by auto.
    cbn [eqb andb]. rewrite !chk_ok.
    + cbn [bind t_scale]. change (sgnr (K := K) 1) with (1 : K). f_equal. f_equal; [f_equal|]; ring.
    + intros i [<-|[<-|[<-|[<-|[]]]]]; auto.
    + intros i [<-|[<-|[]]]; auto.
  - rewrite E. unfold doubled. cbn [fst snd map app length Nat.eqb negb Nat.ltb Nat.leb bind rev].
    destruct (split_spin (shared_sd m d) (Z.of_nat k)) as [[s1 s2]|] eqn:Es; auto.
    destruct (split_occ (shared_sd m d) k P) as (? & ? & X & _). congruence.
  - destruct (split_spin (shared_sd m d) (Z.of_nat k)) as [[s1 s2]|] eqn:Es.
    2:{ destruct (split_occ (shared_sd m d) k P) as (? & ? & X & _). congruence. }
    cbn [bind]. destruct (diff_orbs a b) as [d1 d2]. cbn [fst snd] in *. unfold doubled. rewrite !app_length, !map_length.
    destruct (Nat.eqb_spec (length d1) (length d2)) as [E|E]; destruct (Nat.eqb_spec (length d1 + length d1) (length d2 + length d2)); try lia; cbn [negb]; auto.
    destruct (Nat.ltb_spec 1 (length d1)); [|lia]. destruct (Nat.ltb_spec 2 (length d1 + length d1)); auto. lia.
Qed.

Lemma sz_total : forall m d, exists t, sz_decomposed h m d = Ok t.
Proof.
  intros m d. destruct (seniority_ok k m P) as [s1 E1]. destruct (seniority_ok k d P) as [s2 E2].
  destruct (Nat.eq_dec s1 0) as [->|N1]; [destruct (Nat.eq_dec s2 0) as [->|N2]|].
  - apply paired_seniority in E1, E2; auto. 
    destruct (paired_split k m P E1) as (a & Ea & Fa & A). destruct (paired_split k d P E2) as (b & Eb & Fb & B).
    unfold sz_decomposed. rewrite (proj2 (paired_seniority k m P) E1), (proj2 (paired_seniority k d P) E2), Ea, Eb.
    cbn [bind fst snd Nat.eqb andb negb]. destruct (diff_orbs a b) as [d1 d2] eqn:D.
    assert (D1 : forall x, In x d1 -> (x < k)%nat).
    { intros x Hx. change d1 with (fst (d1, d2)) in Hx. rewrite <- D in Hx. apply diff_orbs_In1 in Hx as [Hx _]. exact (fits_lt _ _ _ Fa Hx). }
    assert (D2 : forall x, In x d2 -> (x < k)%nat).
    { intros x Hx. change d2 with (snd (d1, d2)) in Hx. rewrite <- D in Hx. apply diff_orbs_In2 in Hx as [Hx _]. exact (fits_lt _ _ _ Fb Hx). }
    destruct (Nat.eqb_spec (length d1) (length d2)) as [E|E]; cbn [negb]; eauto.
    destruct (Nat.ltb_spec 1 (length d1)); eauto. destruct (Nat.eqb_spec (length d1) 0).
    + rewrite chk_ok; eauto. intros i Hi. apply shared_orbs_In in Hi as [Hi _]. exact (fits_lt _ _ _ Fa Hi).
    + destruct d1 as [|x []]; cbn in *; try lia. destruct d2 as [|y []]; cbn in *; try lia.
      rewrite !spatial_ok; [|specialize (D2 y); lia|specialize (D1 x); lia]. cbn [bind].
      rewrite !place_low by auto. rewrite chk_ok; eauto. intros i [<-|[<-|[]]]; auto.
  - exists t_zero. apply sz_not_paired. intros [_ H]. apply paired_seniority in H; auto. congruence.
  - exists t_zero. apply sz_not_paired. intros [H _]. apply paired_seniority in H; auto. congruence.
Qed.

(** ** The projection *)
Section Project.
Variable m : N.
Hypothesis Pm : paired k m.
Variable a : N.
Hypothesis Ea : split_spin m (Z.of_nat k) = Ok (a, a).
Hypothesis Fa : fits a k.
Hypothesis A : forall i, bit m i = if Nat.ltb i k then bit a i else bit a (i - k).
Notation occs := (occ_indices (Some a)).
Notation virs := (vir_indices (Some a) (Z.of_nat k)).
Notation pv := (fun p : nat * nat => moved m [fst p; fst p + k]%nat [snd p; snd p + k]%nat).

Lemma low_bit : forall i, (i < k)%nat -> bit m i = bit a i.
Proof. intros i L. rewrite A. now rewrite (proj2 (Nat.ltb_lt i k) L). Qed.
Lemma high_bit : forall i, bit m (i + k) = bit a i.
Proof. intros i. rewrite A. destruct (Nat.ltb_spec (i + k) k); [lia|]. now replace (i + k - k)%nat with i by lia. Qed.
Lemma pair_legal : forall p, In p (list_prod occs virs) -> (fst p < k)%nat /\ (snd p < k)%nat /\
  bit a (fst p) = true /\ bit a (snd p) = false /\
  (forall i, In i [fst p; fst p + k]%nat -> bit m i = true) /\ (forall i, In i [snd p; snd p + k]%nat -> bit m i = false).
Proof.
  intros [i x] H. apply in_prod_iff in H as [Hi Hx]. apply occ_indices_In in Hi.
  rewrite vir_indices_filter, filter_In, in_seq, negb_true_iff in Hx. destruct Hx as [Lx Hx].
  assert (Li : (i < k)%nat) by exact (fits_lt _ _ _ Fa Hi). cbn [fst snd].
  repeat split; auto; try lia.
  - intros j [<-|[<-|[]]]; [now rewrite low_bit|now rewrite high_bit].
  - intros j [<-|[<-|[]]]; [rewrite low_bit; auto; lia|now rewrite high_bit].
Qed.

Lemma sz_excite_moved : forall p, In p (list_prod occs virs) -> sz_excite k m (fst p) (snd p) = Ok (pv p).
Proof.
  intros p H. destruct (pair_legal p H) as (L1 & L2 & B1 & B2 & H1 & H2). destruct p as [i x]. cbn [fst snd] in *.
  unfold sz_excite, spin_index. destruct (Z.leb_spec (Z.of_nat k) 0); [lia|].
  replace ((0 <=? Z.of_nat i) && (Z.of_nat i <? Z.of_nat k))%Z with true by lia.
  replace ((0 <=? Z.of_nat x) && (Z.of_nat x <? Z.of_nat k))%Z with true by lia. cbn [negb bind].
  rewrite <- !Nat2Z.inj_add, !Nat2Z.id.
  change [i; (i + k)%nat; (x + k)%nat; x] with ([i; (i + k)%nat] ++ [(x + k)%nat; x]).
  assert (H2' : forall j, In j [x + k; x]%nat -> bit m j = false) by (intros j [<-|[<-|[]]]; apply H2; cbn; auto).
  rewrite moved_excite; auto.
  - cbn [bind]. f_equal. apply bit_ext. intros j. rewrite !moved_bits by auto. f_equal.
    apply eq_true_iff_eq. rewrite !setbits_In. cbn. tauto.
  - constructor; [cbn; lia|constructor; auto; constructor].
  - constructor; [cbn; lia|constructor; auto; constructor].
Qed.

Lemma pv_diff : forall p, In p (list_prod occs virs) ->
  diff_orbs m (pv p) = ([fst p; fst p + k], [snd p; snd p + k])%nat.
Proof.
  intros p H. destruct (pair_legal p H) as (L1 & L2 & B1 & B2 & H1 & H2).
  apply moved_diff; auto; (constructor; [constructor; [constructor|constructor]|constructor; [lia|constructor]]).
Qed.

Definition pdets : list N := m :: map pv (list_prod occs virs).
Lemma pdets_NoDup : NoDup pdets.
Proof.
  constructor.
  - intros H. apply in_map_iff in H as (p & E & H). apply pv_diff in H. rewrite E, diff_same in H. discriminate.
  - apply NoDup_map_inj.
    + intros p q Hp Hq E. apply pv_diff in Hp. apply pv_diff in Hq. rewrite E, Hq in Hp. injection Hp as E1 _ E2 _.
      destruct p, q. cbn in *. congruence.
    + apply list_prod_NoDup; apply increasing_NoDup; [apply occ_indices_increasing|].
      rewrite vir_indices_filter. apply increasing_filter, increasing_seq.
Qed.
Lemma pdets_fits : forall d, In d pdets -> fits d (2 * k).
Proof.
  intros d [<-|H]; [now apply paired_fits|]. apply in_map_iff in H as (p & <- & H).
  destruct (pair_legal p H) as (L1 & L2 & B1 & B2 & H1 & H2). apply moved_fits; auto; [now apply paired_fits|].
  intros i [<-|[<-|[]]]; lia.
Qed.
Lemma pdets_cover : forall d, sz_decomposed h m d = Ok t_zero \/ In d pdets.
Proof.
  intros d. destruct (get_seniority d (Z.of_nat k)) as [[|s]|] eqn:S.
  2:{ left. apply sz_not_paired. intros [_ H]. apply paired_seniority in H; auto. congruence. }
  2:{ destruct (seniority_ok k d P) as [? X]. congruence. }
  apply paired_seniority in S; auto. destruct (paired_split k d P S) as (b & Eb & Fb & B).
  assert (D := double_diff k m d a b Fa Fb A B).
  destruct (diff_cases a b) as [E|[(x & y & E)|[(x & y & z & w & E)|H]]].
  - right. left. apply bit_ext. intros i. now rewrite A, B, E.
  - right. right. apply in_map_iff. exists (x, y). cbn [fst snd]. split.
    + rewrite E in D. unfold doubled in D. cbn [fst snd map app] in D. rewrite <- (moved_back m d), D. reflexivity.
    + assert (X : In x (fst (diff_orbs a b))) by (rewrite E; now left).
      assert (Y : In y (snd (diff_orbs a b))) by (rewrite E; now left).
      apply diff_orbs_In1 in X as [X _]. apply diff_orbs_In2 in Y as [Y Y'].
      apply in_prod_iff. split; [now apply occ_indices_In|]. 
      rewrite vir_indices_filter, filter_In, in_seq, negb_true_iff. split; auto.
      assert (y < k)%nat by exact (fits_lt _ _ _ Fb Y). lia.
  - left. unfold sz_decomposed. rewrite (proj2 (paired_seniority k m P) Pm), (proj2 (paired_seniority k d P) S), Ea, Eb.
    cbn [bind fst snd Nat.eqb andb negb]. rewrite E. reflexivity.
  - left. unfold sz_decomposed. rewrite (proj2 (paired_seniority k m P) Pm), (proj2 (paired_seniority k d P) S), Ea, Eb.
    cbn [bind fst snd Nat.eqb andb negb]. destruct (diff_orbs a b) as [d1 d2]. cbn [fst snd] in *.
    destruct (Nat.eqb_spec (length d1) (length d2)) as [E|E]; cbn [negb]; auto.
    destruct (Nat.ltb_spec 1 (length d1)); auto. lia.
Qed.

Lemma sz_loop_sum : forall (f : N -> K) ps acc, incl ps (list_prod occs virs) ->
  sz_loop k (sz_decomposed h) (fun acc c x => t_add acc (t_scale c x)) m f ps acc
  = Ok (t_add acc (tsumf (fun d => t_scale (f d) (value3 (sz_decomposed h m d))) (map pv ps))).
Proof.
  intros f. induction ps as [|p ps IH]; intros acc I.
  - cbn [sz_loop map]. unfold tsumf. cbn. f_equal. symmetry. apply t_add_0_r.
  - cbn [sz_loop map]. destruct p as [i x] eqn:Ep. rewrite <- Ep in *.
    assert (Hp := sz_excite_moved p (I p (or_introl eq_refl))). rewrite Ep in Hp at 1 2. cbn [fst snd] in Hp. rewrite Hp. cbn [bind].
    destruct (sz_total m (pv p)) as [t Et]. rewrite Et. cbn [bind]. rewrite IH by (intros q Hq; apply I; now right).
    rewrite tsumf_cons, t_add_assoc, Et. reflexivity.
Qed.
Lemma sz_loop_sum1 : forall (f : N -> K) ps acc, incl ps (list_prod occs virs) ->
  sz_loop k (sz_sd_sd h) (fun acc c x => acc + c * x) m f ps acc
  = Ok (acc + sumf (fun d => f d * t_sum (value3 (sz_decomposed h m d))) (map pv ps)).
Proof.
  intros f. induction ps as [|p ps IH]; intros acc I.
  - cbn [sz_loop map sumf fold_right]. unfold sumf. cbn. f_equal. ring.
  - cbn [sz_loop map]. destruct p as [i x] eqn:Ep. rewrite <- Ep in *.
    assert (Hp := sz_excite_moved p (I p (or_introl eq_refl))). rewrite Ep in Hp at 1 2. cbn [fst snd] in Hp. rewrite Hp. cbn [bind].
    unfold sz_sd_sd at 1. destruct (sz_total m (pv p)) as [t Et]. rewrite Et. cbn [bind].
    rewrite IH by (intros q Hq; apply I; now right). rewrite sumf_cons, Et. cbn [value3]. f_equal. ring.
Qed.
Lemma pdets_sum : forall (g : N -> K), (forall d, sz_decomposed h m d = Ok t_zero -> g d = 0) ->
  sumf g (alldets (2 * k)) = sumf g pdets.
Proof.
  intros g Z. apply sumf_support; [apply alldets_NoDup|apply pdets_NoDup| |].
  - intros d Hd. apply alldets_In. now apply pdets_fits.
  - intros d _. destruct (pdets_cover d) as [E|E]; auto.
Qed.
End Project.

Lemma sz_wfn3_value : forall m (f : N -> K),
  sz_wfn3 h m f = Ok (tsumf (fun d => t_scale (f d) (value3 (sz_decomposed h m d))) (alldets (2 * k))).
Proof.
  intros m f. unfold sz_wfn3, sz_integrate. destruct (get_seniority m (Z.of_nat k)) as [[|s]|] eqn:S.
  - cbn [bind Nat.eqb negb]. apply paired_seniority in S; auto. destruct (paired_split k m P S) as (a & Ea & Fa & A).
    rewrite Ea. cbn [bind fst]. destruct (sz_total m m) as [t Et]. rewrite Et. cbn [bind].
    rewrite (sz_loop_sum m a Fa A) by apply incl_refl. f_equal.
    replace (t_scale (f m) t) with (t_scale (f m) (value3 (sz_decomposed h m m))) by now rewrite Et.
    rewrite <- (tsumf_cons (fun d => t_scale (f d) (value3 (sz_decomposed h m d)))).
    unfold tsumf. f_equal; [f_equal|]; symmetry; apply (pdets_sum m S a Ea Fa A); intros d E; rewrite E; cbn; ring.
  - cbn [bind Nat.eqb negb]. f_equal. unfold tsumf. symmetry.
    assert (Z : forall d, sz_decomposed h m d = Ok t_zero).
    { intros d. apply sz_not_paired. intros [H _]. apply paired_seniority in H; auto. congruence. }
    change (t_zero (K := K)) with ((0 : K), (0 : K), (0 : K)). f_equal; [f_equal|]; apply sumf_zero; intros d _; rewrite Z; cbn; ring.
  - destruct (seniority_ok k m P) as [? X]. congruence.
Qed.
Lemma sz_wfn_value : forall m (f : N -> K),
  sz_wfn h m f = Ok (t_sum (tsumf (fun d => t_scale (f d) (value3 (sz_decomposed h m d))) (alldets (2 * k)))).
Proof.
  intros m f. unfold tsumf, t_sum. rewrite <- !sumf_add.
  rewrite (sumf_ext _ (fun d => f d * t_sum (value3 (sz_decomposed h m d)))).
  2:{ intros d _. destruct (value3 (sz_decomposed h m d)) as [[? ?] ?]. cbn. ring. }
  unfold sz_wfn, sz_integrate. destruct (get_seniority m (Z.of_nat k)) as [[|s]|] eqn:S.
  - cbn [bind Nat.eqb negb]. apply paired_seniority in S; auto. destruct (paired_split k m P S) as (a & Ea & Fa & A).
    rewrite Ea. cbn [bind fst]. unfold sz_sd_sd at 1. destruct (sz_total m m) as [t Et]. rewrite Et. cbn [bind].
    rewrite (sz_loop_sum1 m a Fa A) by apply incl_refl. f_equal.
    rewrite (pdets_sum m S a Ea Fa A) by (intros d E; rewrite E; cbn; ring).
    unfold pdets. rewrite sumf_cons, Et. reflexivity.
  - cbn [bind Nat.eqb negb]. f_equal. symmetry.
    assert (Z : forall d, sz_decomposed h m d = Ok t_zero).
    { intros d. apply sz_not_paired. intros [H _]. apply paired_seniority in H; auto. congruence. }
    apply sumf_zero; intros d _; rewrite Z; cbn; ring.
  - destruct (seniority_ok k m P) as [? X]. congruence.
Qed.
End Sen.
