From Coq Require Import List ZArith NArith Bool Lia Arith Permutation Sorted.
From Verif Require Import Py BitSpec BitLemmas Slater SlaterBits SlaterBits2 Fock FockLemmas SignLemmas Alg Combos BulkLemmas
  SignVec2 PermLemmas HamSpec HamGen FockInner HamLemmas HamSC HamMain.
Import ListNotations.

Lemma moved_diff : forall m a c, increasing a -> increasing c ->
  (forall i, In i a -> bit m i = true) -> (forall i, In i c -> bit m i = false) ->
  diff_orbs m (moved m a c) = (a, c).
Proof.
  intros m a c Ia Ic Ha Hc. rewrite (surjective_pairing (diff_orbs m (moved m a c))).
  f_equal; (apply increasing_ext; [apply occ_indices_increasing|auto|]); intros x.
  - rewrite diff_orbs_In1. destruct (moved_lost m a c x Ha Hc) as [E _]. unfold lost in E.
    rewrite <- setbits_In, <- E, andb_true_iff, negb_true_iff. tauto.
  - rewrite diff_orbs_In2. destruct (moved_lost m a c x Ha Hc) as [_ E]. unfold lost in E.
    rewrite <- setbits_In, <- E, andb_true_iff, negb_true_iff. tauto.
Qed.
Lemma moved_shared : forall m a c, 
  (forall i, In i a -> bit m i = true) -> (forall i, In i c -> bit m i = false) ->
  shared_orbs m (moved m a c) = filter (fun x => negb (setbits a x)) (occ_indices (Some m)).
Proof.
  intros m a c Ha Hc. apply increasing_ext; [apply occ_indices_increasing|apply increasing_filter, occ_indices_increasing|].
  intros x. rewrite shared_orbs_In, filter_In, occ_indices_In, moved_bits, orb_true_iff, andb_true_iff by auto.
  split; [|tauto]. intros [A [B|B]]; [tauto|]. apply setbits_In in B. rewrite Hc in A by auto. discriminate.
Qed.
Lemma moved_fits : forall m a c k, fits m k -> (forall i, In i c -> (i < k)%nat) -> 
  (forall i, In i a -> bit m i = true) -> (forall i, In i c -> bit m i = false) -> fits (moved m a c) k.
Proof.
  intros m a c k F C Ha Hc i Hi. rewrite moved_bits by auto. rewrite F by auto. simpl.
  apply setbits_notIn. intros X. apply C in X. lia.
Qed.

Lemma remove_at_filter : forall l k, increasing l -> (k < length l)%nat ->
  remove_at l k = filter (fun x => negb (setbits [nth k l 0%nat] x)) l.
Proof.
  induction l as [|x l IH]; intros k I L; [simpl in L; lia|].
  apply SS_cons_inv in I as [I F]. rewrite Forall_forall in F. destruct k as [|k].
  - cbn [remove_at nth filter]. rewrite setbits_cons, Nat.eqb_refl. cbn [orb negb].
    symmetry. rewrite <- (app_nil_r l) at 2. 
    assert (E : forall l', (forall y, In y l' -> x < y)%nat -> filter (fun x0 => negb (setbits [x] x0)) l' = l').
    { induction l' as [|y l' IH']; intros G; auto. cbn [filter].
      rewrite setbits_cons, setbits_nil. destruct (Nat.eqb_spec y x) as [->|Ne].
      - specialize (G x (or_introl eq_refl)). lia.
      - cbn [orb negb]. f_equal. apply IH'. intros; apply G; now right. }
    rewrite app_nil_r. apply E. auto.
  - simpl in L. cbn [remove_at nth filter]. rewrite setbits_cons, setbits_nil.
    destruct (Nat.eqb_spec x (nth k l 0%nat)) as [E|E].
    + assert (x < nth k l 0)%nat by (apply F, nth_In; lia). lia.
    + cbn [orb negb]. f_equal. apply IH; auto. lia.
Qed.

Lemma flat_map_map : forall {A B C} (g : B -> list C) (f : A -> B) l, flat_map g (map f l) = flat_map (fun x => g (f x)) l.
Proof. induction l as [|x l IH]; simpl; auto. now rewrite IH. Qed.
Lemma flat_map_ext' : forall {A B} (f g : A -> list B) l, (forall x, In x l -> f x = g x) -> flat_map f l = flat_map g l.
Proof.
  induction l as [|x l IH]; intros H; simpl; auto. rewrite H by now left. f_equal. apply IH. intros; apply H; now right.
Qed.
Lemma map_list_prod : forall {A B C} (f : A * B -> C) a b,
  map f (list_prod a b) = flat_map (fun x => map (fun y => f (x, y)) b) a.
Proof. induction a as [|x a IH]; intros b; simpl; auto. now rewrite map_app, map_map, IH. Qed.
Lemma list_prod_map : forall {A B C D} (f : A -> C) (g : B -> D) a b,
  list_prod (map f a) (map g b) = map (fun p => (f (fst p), g (snd p))) (list_prod a b).
Proof.
  induction a as [|x a IH]; intros b; simpl; auto. rewrite map_app, !map_map, IH. reflexivity.
Qed.
Lemma nth_map_seq : forall (l : list nat), map (fun k => nth k l 0%nat) (seq 0 (length l)) = l.
Proof.
  induction l as [|x l IH]; auto. cbn [length seq map nth]. f_equal. rewrite <- seq_shift, map_map. exact IH.
Qed.

Section Wfn.
Context {K : CRing}.
Local Open Scope cr_scope.
Add Ring K_ring15 : (rth K).
Variable h : gham K.
Notation nn := (gh_n h).

Definition tsumf {A} (F : A -> triple K) (l : list A) : triple K :=
  (sumf (fun x => comp1 (F x)) l, sumf (fun x => comp2 (F x)) l, sumf (fun x => comp3 (F x)) l).
Lemma tsumf_app : forall {A} (F : A -> triple K) a b, tsumf F (a ++ b) = t_add (tsumf F a) (tsumf F b).
Proof. intros. unfold tsumf. now rewrite !sumf_app. Qed.
Lemma t_add_assoc : forall a b c : triple K, t_add (t_add a b) c = t_add a (t_add b c).
Proof. intros [[? ?] ?] [[? ?] ?] [[? ?] ?]. unfold t_add. f_equal; [f_equal|]; ring. Qed.
Lemma t_add_0_l : forall a : triple K, t_add t_zero a = a.
Proof. intros [[? ?] ?]. unfold t_add, t_zero. f_equal; [f_equal|]; ring. Qed.
Lemma t_add_0_r : forall a : triple K, t_add a t_zero = a.
Proof. intros [[? ?] ?]. unfold t_add, t_zero. f_equal; [f_equal|]; ring. Qed.
Lemma t_scale_0 : forall c : K, t_scale c t_zero = t_zero.
Proof. intros. unfold t_scale, t_zero. f_equal; [f_equal|]; ring. Qed.

Lemma tsumf_cons : forall {A} (F : A -> triple K) x l, tsumf F (x :: l) = t_add (F x) (tsumf F l).
Proof. intros. unfold tsumf. rewrite !sumf_cons. destruct (F x) as [[? ?] ?]. reflexivity. Qed.

Lemma tsumf_linear : forall {A} (f g : A -> K) (c : K) (T : A -> triple K) l,
  t_sum (tsumf (fun n => t_scale (f n + c * g n) (T n)) l)
  = t_sum (tsumf (fun n => t_scale (f n) (T n)) l) + c * t_sum (tsumf (fun n => t_scale (g n) (T n)) l).
Proof.
  intros. induction l as [|x l IH]; [cbn; ring|]. rewrite !tsumf_cons.
  assert (E : forall s t : triple K, t_sum (t_add s t) = t_sum s + t_sum t).
  { intros [[? ?] ?] [[? ?] ?]. cbn. ring. }
  rewrite !E, IH. destruct (T x) as [[? ?] ?]. cbn. ring.
Qed.

Lemma fold_t_add : forall (ps : list (triple K * K)) acc,
  fold_left (fun acc p => t_add acc (t_scale (snd p) (fst p))) ps acc
  = t_add acc (tsumf (fun p => t_scale (snd p) (fst p)) ps).
Proof.
  induction ps as [|p ps IH]; intros acc; cbn [fold_left].
  - change (tsumf _ []) with (t_zero : triple K). now rewrite t_add_0_r.
  - rewrite IH, tsumf_cons, t_add_assoc. reflexivity.
Qed.

Lemma dot3_sum : forall {A} (T : A -> triple K) (g : A -> K) l,
  dot3 (map T l) (map g l) = Ok (tsumf (fun x => t_scale (g x) (T x)) l).
Proof.
  intros A T g l. unfold dot3. rewrite !map_length, Nat.eqb_refl, fold_t_add, t_add_0_l. f_equal.
  induction l as [|x l IH]; auto. cbn [map combine]. rewrite !tsumf_cons, IH. reflexivity.
Qed.

Definition decT (m n : N) : triple K := value3 (integrate_sd_sd_decomposed h m n).

Lemma sign_times_dec : forall m (L : list (list nat * list nat)) signs (T : list nat * list nat -> triple K),
  Forall2 (signs_agree m) L signs ->
  (forall p s, In p L -> signs_agree m p s -> t_scale (sgnr s) (T p) = decT m (moved m (fst p) (snd p))) ->
  sign_times signs (map T L) = map (fun p => decT m (moved m (fst p) (snd p))) L.
Proof.
  intros m L signs T F H. unfold sign_times. induction F as [|p s L signs R F IH]; auto.
  cbn [map combine fst snd]. f_equal.
  - apply H; auto. now left.
  - apply IH. intros; apply H; auto. now right.
Qed.

Notation occs m := (occ_indices (Some m)).
Notation virs m := (vir_indices (Some m) (Z.of_nat nn)).
Notation pairsk m k := (list_prod (combinations (occs m) k) (combinations (virs m) k)).

Lemma vir_In : forall m i, In i (virs m) <-> (i < nn)%nat /\ bit m i = false.
Proof.
  intros. rewrite vir_indices_filter, filter_In, in_seq, negb_true_iff. split; intros [? ?]; split; auto; lia.
Qed.
Lemma vir_incr : forall m, increasing (virs m).
Proof. intros. rewrite vir_indices_filter. apply increasing_filter, increasing_seq. Qed.

Lemma pairsk_In : forall m k a c, In (a, c) (pairsk m k) ->
  increasing a /\ increasing c /\ length a = k /\ length c = k /\
  (forall i, In i a -> bit m i = true) /\ (forall i, In i c -> bit m i = false) /\ (forall i, In i c -> (i < nn)%nat).
Proof.
  intros m k a c H. apply in_prod_iff in H as [Ha Hc].
  apply combinations_increasing_In in Ha as (A1 & A2 & A3); [|apply occ_indices_increasing].
  apply combinations_increasing_In in Hc as (C1 & C2 & C3); [|apply vir_incr].
  repeat split; auto.
  - intros i Hi. apply A2, occ_indices_In in Hi. auto.
  - intros i Hi. apply C2, vir_In in Hi. tauto.
  - intros i Hi. apply C2, vir_In in Hi. tauto.
Qed.

Lemma sds_one_dec : forall m, fits m nn ->
  sd_sds_one h (occs m) (virs m) = map (fun p => decT m (moved m (fst p) (snd p))) (pairsk m 1).
Proof.
  intros m F. unfold sd_sds_one.
  rewrite <- (sign_times_dec m (pairsk m 1) (sign_excite_one (occs m) (virs m))
    (fun p => let a := nth 0 (fst p) 0%nat in let v := nth 0 (snd p) 0%nat in
              let sh := filter (fun x => negb (setbits [a] x)) (occs m) in
       (gh_one h a v, psum (fun s => gh_two h s a s v) sh, - psum (fun s => gh_two h s a v s) sh))).
  - f_equal. rewrite !combinations_1, list_prod_map, map_map, map_list_prod. cbn [fst snd nth].
    match goal with |- _ = flat_map ?G (occs m) =>
      transitivity (flat_map G (map (fun k => nth k (occs m) 0%nat) (seq 0 (length (occs m)))));
      [|now rewrite nth_map_seq] end.
    rewrite flat_map_map.
    apply flat_map_ext'. intros k Hk. apply in_seq in Hk. cbv zeta.
    apply map_ext. intros v.
    unfold shared_indices_remove_one_index.
    rewrite (nth_indep _ [] (remove_at (occs m) 0)) by (rewrite map_length, seq_length; lia).
    rewrite map_nth, seq_nth by lia. cbn [plus].
    rewrite remove_at_filter by (try apply occ_indices_increasing; lia). reflexivity.
  - apply vector_one; [apply vir_incr|]. intros v Hv. apply vir_In in Hv. tauto.
  - intros [a c] s Hp R. apply pairsk_In in Hp as (Ia & Ic & La & Lc & Ha & Hc & Hn).
    destruct a as [|a []]; try discriminate. destruct c as [|c []]; try discriminate. cbn [fst snd nth] in *.
    unfold signs_agree in R. cbn [fst snd] in R.
    unfold decT, integrate_sd_sd_decomposed. rewrite moved_diff, moved_shared by auto.
    cbn [length Nat.eqb negb Nat.ltb Nat.leb andb]. rewrite R. cbn [bind].
    unfold sd_sd_one. rewrite chk_ok; [reflexivity|].
    intros i [<-|[<-|Hi]].
    + eapply fits_lt; [exact F|]. apply Ha. now left.
    + apply Hn. now left.
    + apply filter_In in Hi as [Hi _]. apply occ_indices_In in Hi. exact (fits_lt _ _ _ F Hi).
Qed.

Lemma sds_two_dec : forall m, fits m nn ->
  sd_sds_two h (occs m) (virs m) = map (fun p => decT m (moved m (fst p) (snd p))) (pairsk m 2).
Proof.
  intros m F. unfold sd_sds_two.
  rewrite <- (sign_times_dec m (pairsk m 2) (sign_excite_two (occs m) (virs m))
    (fun p => let a := nth 0 (fst p) 0%nat in let b := nth 1 (fst p) 0%nat in
              let c := nth 0 (snd p) 0%nat in let d := nth 1 (snd p) 0%nat in
       (0, gh_two h a b c d, - gh_two h a b d c))).
  - f_equal. now rewrite map_list_prod.
  - apply vector_two; [apply vir_incr|]. intros v Hv. apply vir_In in Hv. tauto.
  - intros [a c] s Hp R. apply pairsk_In in Hp as (Ia & Ic & La & Lc & Ha & Hc & Hn).
    destruct a as [|a [|b []]]; try discriminate. destruct c as [|c [|d []]]; try discriminate. cbn [fst snd nth] in *.
    unfold signs_agree in R. cbn [fst snd] in R.
    unfold decT, integrate_sd_sd_decomposed. rewrite moved_diff by auto.
    cbn [length Nat.eqb negb Nat.ltb Nat.leb andb]. rewrite R. cbn [bind].
    unfold sd_sd_two. rewrite chk_ok; [reflexivity|].
    intros i [<-|[<-|[<-|[<-|[]]]]].
    + eapply fits_lt; [exact F|]. apply Ha. simpl; auto.
    + eapply fits_lt; [exact F|]. apply Ha. simpl; auto.
    + apply Hn. simpl; auto.
    + apply Hn. simpl; auto.
Qed.

Lemma sds_zero_dec : forall m, fits m nn -> sd_sds_zero h (occs m) = [decT m m].
Proof.
  intros m F. unfold decT. destruct (N.eq_dec m 0) as [->|M].
  - change (occs 0%N) with (@nil nat). cbn. unfold sd_sds_zero. cbn. f_equal. f_equal. ring.
  - rewrite dec_same by auto. unfold sd_sds_zero. now rewrite !psum_sumf, !triu_sum_pairs.
Qed.

Definition reach (m : N) : list N :=
  [m] ++ map (fun p => moved m (fst p) (snd p)) (pairsk m 1) ++ map (fun p => moved m (fst p) (snd p)) (pairsk m 2).

Lemma combos2_short : forall {A} (l : list A), (length l <= 1)%nat -> combinations l 2 = [].
Proof. intros A [|x [|]] L; simpl in *; auto. lia. Qed.

Lemma wfn3_value : forall m f, fits m nn -> (nn <= 63)%nat ->
  integrate_sd_wfn3 h m f = Ok (tsumf (fun n => t_scale (f n) (decT m n)) (reach m)).
Proof.
  intros m f F B. unfold integrate_sd_wfn3.
  assert (F63 : fits m 63) by (intros i Hi; apply F; lia).
  assert (O63 : forall i, In i (occs m) -> (i < 63)%nat).
  { intros i Hi. apply occ_indices_In in Hi. exact (fits_lt _ _ _ F63 Hi). }
  assert (V63 : forall i, In i (virs m) -> (i < 63)%nat).
  { intros i Hi. apply vir_In in Hi. lia. }
  rewrite chk_ok.
  2:{ intros i Hi. apply occ_indices_In in Hi. exact (fits_lt _ _ _ F Hi). }
  cbn [bind]. rewrite sds_zero_dec by auto.
  change [decT m m] with (map (decT m) [m]). change [f m] with (map f [m]). rewrite dot3_sum. cbn [bind].
  change 1%Z with (Z.of_nat 1). change 2%Z with (Z.of_nat 2).
  rewrite !excite_bulk_value by auto. cbn [bind].
  assert (E : forall k, map (fun z => f (Z.to_N z)) (map (fun p => Z.of_N (moved m (fst p) (snd p))) (pairsk m k))
              = map (fun p => f (moved m (fst p) (snd p))) (pairsk m k)).
  { intros k. rewrite map_map. apply map_ext. intros p. now rewrite N2Z.id. }
  rewrite !E, sds_one_dec, dot3_sum by auto. cbn [bind].
  assert (E2 : (if (Nat.ltb 1 (length (occs m)) && Nat.ltb 1 (length (virs m)))%bool
    then dot3 (sd_sds_two h (occs m) (virs m)) (map (fun p => f (moved m (fst p) (snd p))) (pairsk m 2))
    else Ok t_zero) = Ok (tsumf (fun p => t_scale (f (moved m (fst p) (snd p))) (decT m (moved m (fst p) (snd p)))) (pairsk m 2))).
  { rewrite sds_two_dec, dot3_sum by auto. destruct (Nat.ltb_spec 1 (length (occs m))), (Nat.ltb_spec 1 (length (virs m))); auto.
    - rewrite (combos2_short (virs m)) by auto. cbn [andb].
      assert (X : forall (X : list (list nat)), list_prod X (@nil (list nat)) = []) by (induction X; auto). now rewrite X.
    - rewrite (combos2_short (occs m)) by auto. reflexivity.
    - rewrite (combos2_short (occs m)) by auto. reflexivity. }
  rewrite E2. cbn [bind]. f_equal. rewrite t_add_0_l. unfold reach. rewrite !tsumf_app, t_add_assoc. f_equal.
  f_equal; unfold tsumf; now rewrite !sumf_map.
Qed.

(** [reach] covers every determinant with a non-zero element *)
Lemma counts_diff1 : forall m n, counts (lost m n) (length (fst (diff_orbs m n))).
Proof.
  intros. exists (fst (diff_orbs m n)). split; [apply d1_NoDup|]. split; auto. intros i.
  rewrite diff_orbs_In1. unfold lost. now rewrite andb_true_iff, negb_true_iff.
Qed.
Lemma counts_diff2 : forall m n, counts (lost n m) (length (snd (diff_orbs m n))).
Proof.
  intros. exists (snd (diff_orbs m n)). split; [apply d2_NoDup|]. split; auto. intros i.
  rewrite diff_orbs_In2. unfold lost. now rewrite andb_true_iff, negb_true_iff.
Qed.

Lemma reach_In : forall m n, fits m nn -> (In n (reach m) <->
  fits n nn /\ length (fst (diff_orbs m n)) = length (snd (diff_orbs m n)) /\ (length (fst (diff_orbs m n)) <= 2)%nat).
Proof.
  intros m n F. unfold reach. rewrite !in_app_iff. 
  destruct (bulk_exact m nn 1 F) as [_ B1]. destruct (bulk_exact m nn 2 F) as [_ B2]. rewrite B1, B2. clear B1 B2.
  pose proof (counts_diff1 m n) as C1. pose proof (counts_diff2 m n) as C2. split.
  - intros [[<-|[]]|[(Fn & H1 & H2)|(Fn & H1 & H2)]].
    + split; auto. rewrite diff_same. simpl. lia.
    + rewrite (counts_unique _ _ _ C1 H1), (counts_unique _ _ _ C2 H2). auto.
    + rewrite (counts_unique _ _ _ C1 H1), (counts_unique _ _ _ C2 H2). auto.
  - intros (Fn & L1 & L2). destruct (diff_cases m n) as [->|[(a & b & D)|[(a & b & c & d & D)|X]]]; [left; now left| | |lia].
    + right. left. rewrite D in *. auto.
    + right. right. rewrite D in *. auto.
Qed.
Lemma reach_NoDup : forall m, fits m nn -> NoDup (reach m).
Proof.
  intros m F. unfold reach. destruct (bulk_exact m nn 1 F) as [N1 B1]. destruct (bulk_exact m nn 2 F) as [N2 B2].
  apply NoDup_app_intro'; [constructor; [tauto|constructor]| |].
  - apply NoDup_app_intro'; auto. intros n H1 H2. apply B1 in H1 as (_ & H1 & _). apply B2 in H2 as (_ & H2 & _).
    pose proof (counts_unique _ _ _ H1 H2). discriminate.
  - intros n [<-|[]] H. pose proof (counts_diff1 m m) as C. rewrite diff_same in C. apply in_app_iff in H as [H|H].
    + apply B1 in H as (_ & H & _). pose proof (counts_unique _ _ _ C H). discriminate.
    + apply B2 in H as (_ & H & _). pose proof (counts_unique _ _ _ C H). discriminate.
Qed.

Definition alldets (k : nat) : list N := map N.of_nat (seq 0 (2 ^ k)).
Lemma alldets_In : forall k n, In n (alldets k) <-> fits n k.
Proof.
  intros. unfold alldets. rewrite in_map_iff, fits_pow2. split.
  - intros (x & <- & H). apply in_seq in H. 
    replace (2 ^ N.of_nat k)%N with (N.of_nat (2 ^ k)) by (rewrite Nat2N.inj_pow; auto). lia.
  - intros H. exists (N.to_nat n). rewrite N2Nat.id. split; auto. apply in_seq.
    replace (2 ^ N.of_nat k)%N with (N.of_nat (2 ^ k)) in H by (rewrite Nat2N.inj_pow; auto). lia.
Qed.
Lemma alldets_NoDup : forall k, NoDup (alldets k).
Proof. intros. apply NoDup_map_inj; [intros; lia|apply seq_NoDup]. Qed.

Lemma reach_sum : forall m (g : N -> K), fits m nn ->
  (forall n, length (fst (diff_orbs m n)) <> length (snd (diff_orbs m n)) \/ (2 < length (fst (diff_orbs m n)))%nat -> g n = 0) ->
  sum_over (fun n => fits n nn) g (sumf g (reach m)).
Proof.
  intros m g F Z. exists (alldets nn). split; [apply alldets_NoDup|]. split; [intros; apply alldets_In|].
  symmetry. apply sumf_support; [apply alldets_NoDup|now apply reach_NoDup| |].
  - intros n Hn. apply alldets_In. apply reach_In in Hn; tauto.
  - intros n Hn. apply alldets_In in Hn. rewrite reach_In by auto.
    destruct (Nat.eq_dec (length (fst (diff_orbs m n))) (length (snd (diff_orbs m n)))) as [E|E]; [|left; auto].
    destruct (Nat.le_gt_cases (length (fst (diff_orbs m n))) 2) as [L|L]; [right; auto|left; auto].
Qed.

Lemma wfn3_sum : forall m f, fits m nn -> (nn <= 63)%nat -> exists a b c,
  integrate_sd_wfn3 h m f = Ok (a, b, c) /\
  sum_over (fun n => fits n nn) (fun n => f n * comp1 (decT m n)) a /\
  sum_over (fun n => fits n nn) (fun n => f n * comp2 (decT m n)) b /\
  sum_over (fun n => fits n nn) (fun n => f n * comp3 (decT m n)) c.
Proof.
  intros m f F B. eexists _, _, _. split; [rewrite wfn3_value by auto; reflexivity|].
  assert (E1 : forall n, comp1 (t_scale (f n) (decT m n)) = f n * comp1 (decT m n)).
  { intros n. destruct (decT m n) as [[? ?] ?]. reflexivity. }
  assert (E2 : forall n, comp2 (t_scale (f n) (decT m n)) = f n * comp2 (decT m n)).
  { intros n. destruct (decT m n) as [[? ?] ?]. reflexivity. }
  assert (E3 : forall n, comp3 (t_scale (f n) (decT m n)) = f n * comp3 (decT m n)).
  { intros n. destruct (decT m n) as [[? ?] ?]. reflexivity. }
  rewrite (sumf_ext _ _ _ (fun n _ => E1 n)), (sumf_ext _ _ _ (fun n _ => E2 n)), (sumf_ext _ _ _ (fun n _ => E3 n)).
  repeat split; (apply reach_sum; auto; intros n Hn; unfold decT; rewrite dec_far by auto; cbn; ring).
Qed.

Lemma wfn_sum : forall m f, consistent h -> two_sym (gh_two h) -> fits m nn -> (nn <= 63)%nat -> exists v,
  integrate_sd_wfn h m f = Ok v /\
  sum_over (fun n => fits n nn)
    (fun n => (one_body nn (gh_one h) m n + pair_body nn (gh_two h) m n) * f n) v.
Proof.
  intros m f C S F B. eexists. split.
  - unfold integrate_sd_wfn. rewrite wfn3_value by auto. cbn [bind]. reflexivity.
  - unfold tsumf, t_sum. rewrite <- !sumf_add.
    erewrite sumf_ext; [apply reach_sum; auto|].
    + intros n Hn. rewrite pair_far by auto. rewrite one_far by (destruct Hn; [left; auto|right; lia]). ring.
    + intros n Hn. cbv beta. apply reach_In in Hn as (Fn & _); auto.
      unfold decT. destruct (N.eq_dec m 0) as [Em|Em]; [destruct (N.eq_dec n 0) as [En|En]|].
      * subst. rewrite one_same, pair_same by auto. change (occ_indices (Some 0%N)) with (@nil nat). cbn. ring.
      * destruct (decomposed_value h m n C S F Fn) as (a & b & c & E & <- & <-); [tauto|].
        rewrite E. cbn. ring.
      * destruct (decomposed_value h m n C S F Fn) as (a & b & c & E & <- & <-); [tauto|].
        rewrite E. cbn. ring.
Qed.

(** the loop of the base class *)
Lemma base_loop_value : forall elem (e : N -> K) m f L acc,
  (forall p, In p L -> excite (Some m) (fst p ++ snd p) = Ok (Some (moved m (fst p) (snd p))) /\
                       elem m (moved m (fst p) (snd p)) = Ok (e (moved m (fst p) (snd p)))) ->
  base_loop elem m f L acc = Ok (acc + sumf (fun n => f n * e n) (map (fun p => moved m (fst p) (snd p)) L)).
Proof.
  intros elem e m f. induction L as [|[a c] L IH]; intros acc H; cbn [base_loop].
  - cbn. f_equal. ring.
  - destruct (H (a, c) (or_introl eq_refl)) as [E1 E2]. cbn [fst snd] in E1, E2. rewrite E1. cbn [bind].
    rewrite E2. cbn [bind]. rewrite IH by (intros; apply H; now right). cbn [map]. rewrite sumf_cons. cbn [fst snd].
    f_equal. ring.
Qed.

Lemma base_value : forall elem (e : N -> K) m f,
  fits m nn -> (forall n, fits n nn -> elem m n = Ok (e n)) ->
  base_integrate_sd_wfn elem nn [1; 2]%nat m f = Ok (sumf (fun n => e n * f n) (reach m)).
Proof.
  intros elem e m f F H. unfold base_integrate_sd_wfn. rewrite H by auto. cbn [bind flat_map].
  rewrite app_nil_r.
  rewrite (base_loop_value _ e).
  - f_equal. unfold reach. rewrite map_app, !sumf_app. cbn [sumf fold_right].
    rewrite (sumf_ext (fun n => f n * e n) (fun n => e n * f n)) by (intros; ring).
    rewrite (sumf_ext (fun n => f n * e n) (fun n => e n * f n)) by (intros; ring). ring.
  - intros [a c] Hp. cbn [fst snd].
    assert (exists k, In (a, c) (pairsk m k)) as [k Hk] by (apply in_app_iff in Hp as [Hp|Hp]; eauto).
    apply pairsk_In in Hk as (Ia & Ic & La & Lc & Ha & Hc & Hn). split.
    + apply moved_excite; auto; [congruence| |]; now apply increasing_NoDup.
    + apply H. now apply moved_fits.
Qed.
End Wfn.
