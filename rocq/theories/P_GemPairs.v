(** C42: orbital pairs and columns of the geminal coefficients *)
From Coq Require Import List ZArith NArith Arith Bool Lia QArith Qround.
From Verif Require Import Py Slater Alg Graphs MathTools WfnCI Geminal GemPairs GemSpec GemEx.
Import ListNotations.
Local Open Scope nat_scope.

(** *** base class *)
Lemma orbpair_nth : forall l c p, base_orbpair l c = Ok p <-> (0 <= c)%Z /\ nth_error l (Z.to_nat c) = Some p.
Proof.
  intros l c p. unfold base_orbpair. destruct (Z.ltb_spec c 0).
  - split; [discriminate|lia].
  - destruct (nth_error l (Z.to_nat c)); split; try discriminate; try tauto.
    + intros [= <-]. auto.
    + intros [_ [= <-]]. auto.
    + intros [_ Q]. discriminate.
Qed.
Lemma nth_range : forall {A} (l : list A) c, (0 <= c < Z.of_nat (length l))%Z <-> exists p, (0 <= c)%Z /\ nth_error l (Z.to_nat c) = Some p.
Proof.
  intros A l c. split.
  - intros H. destruct (nth_error l (Z.to_nat c)) as [p|] eqn:E; [exists p; split; auto; lia|]. apply nth_error_None in E. lia.
  - intros (p & P & E). assert (Z.to_nat c < length l) by (apply nth_error_Some; congruence). lia.
Qed.
(** C42: explicit list of pairs (base class, APIG): the pairs are stored sorted, in the given order *)
Theorem C42_assign : forall ns l,
  ((forall p, In p l -> fst p <> snd p) /\ NoDup (map sort_pair l) ->
     base_assign_orbpairs ns (Some l) = Ok (map sort_pair l)) /\
  (~ ((forall p, In p l -> fst p <> snd p) /\ NoDup (map sort_pair l)) -> base_assign_orbpairs ns (Some l) = Err ValueError).
Proof.
  intros ns l. unfold base_assign_orbpairs. destruct (base_loop_spec l [] (NoDup_nil _)) as [A B]. cbn [rev app] in *.
  destruct (base_pairs_loop [] l) as [r|e] eqn:E.
  - destruct (A r eq_refl) as (-> & N & H). split; [reflexivity|]. intros X. exfalso. auto.
  - destruct (B e eq_refl) as [-> H]. split; [|reflexivity]. intros X. contradiction.
Qed.
Lemma bijective_list : forall l, NoDup l ->
  bijective_index (fun p => In p l) (Z.of_nat (length l)) (base_col_ind l) (base_orbpair l).
Proof.
  intros l N. split; [|split; [|split]].
  - intros p H. apply In_nth_error in H as [i H]. exists (Z.of_nat i). rewrite orbpair_nth, base_col_spec, Nat2Z.id; auto.
    assert (i < length l) by (apply nth_error_Some; congruence). repeat split; auto; lia.
  - intros c H. apply nth_range in H as (p & P & E). exists p. rewrite orbpair_nth, base_col_spec; auto. repeat split; auto.
    eapply nth_error_In; eauto.
  - intros p H. unfold base_col_ind. now rewrite (proj2 (pair_index_none l p) H).
  - intros c H. destruct (base_orbpair l c) as [p|e] eqn:E.
    + exfalso. apply H, nth_range. apply orbpair_nth in E. eauto.
    + unfold base_orbpair in E. destruct (c <? 0)%Z; [congruence|]. destruct (nth_error _ _); congruence.
Qed.
Theorem C42_base : forall ns o l, base_assign_orbpairs ns o = Ok l ->
  (forall p, In p l -> (fst p < snd p)%Z) /\
  bijective_index (fun p => In p l) (Z.of_nat (length l)) (base_col_ind l) (base_orbpair l).
Proof.
  intros ns o l E. unfold base_assign_orbpairs in E. set (l0 := match o with None => _ | Some l => l end) in E.
  destruct (base_loop_spec l0 [] (NoDup_nil _)) as [A _]. destruct (A l E) as (-> & N & H). cbn [rev app] in *. split.
  - intros p Hp. apply in_map_iff in Hp as (q & <- & Hq). apply sort_pair_lt. auto.
  - now apply bijective_list.
Qed.
(** the default of the base class is the list of all pairs *)
Theorem C42_base_default : forall ns, base_assign_orbpairs ns None = Ok (all_pairs (Z.to_nat ns)) /\
  forall p, In p (all_pairs (Z.to_nat ns)) <-> (0 <= fst p < snd p)%Z /\ (snd p < Z.of_nat (Z.to_nat ns))%Z.
Proof.
  intros ns. split; [|apply all_pairs_In].
  assert (M : map sort_pair (all_pairs (Z.to_nat ns)) = all_pairs (Z.to_nat ns)).
  { rewrite <- map_id. apply map_ext_in. intros p Hp. apply all_pairs_In in Hp. apply sort_pair_id. lia. }
  destruct (C42_assign ns (all_pairs (Z.to_nat ns))) as [A _]. rewrite M in A. apply A. split; [|apply all_pairs_NoDup].
  intros p Hp. apply all_pairs_In in Hp. lia.
Qed.

(** *** APG *)
Lemma Qle_grid : forall a b, (grid a <= grid b)%Q <-> (a <= b)%Z.
Proof. intros a b. unfold grid, Qle. cbn [Qnum Qden]. split; intros H; nia. Qed.
Lemma grid_Z : forall z, (grid (z * 2 ^ 26) == inject_Z z)%Q.
Proof. intros z. unfold grid, Qeq, inject_Z. cbn [Qnum Qden]. lia. Qed.
Lemma apg_inverse : forall root rnd n i j, faithful_sqrt root -> faithful_rounding rnd ->
  (0 <= i)%Z -> (i < j)%Z -> (j < n)%Z -> (n <= 2 ^ 25)%Z ->
  forall t, (i * (i + 1) = 2 * t)%Z -> apg_orbpair root rnd n (n * i - t + (j - i - 1)) = Ok (i, j).
Proof.
  intros root rnd n i j Fs Fr Hi Hj Hn B t T. set (c := (n * i - t + (j - i - 1))%Z).
  assert (Hc : (0 <= c)%Z) by (unfold c; nia).
  assert (Hc2 : (2 * c < n * (n - 1))%Z) by (unfold c; nia).
  unfold apg_orbpair. rewrite (proj2 (Z.leb_le _ _) Hc), (proj2 (Z.ltb_lt _ _) Hc2). cbn [andb].
  set (d := ((1 - 2 * n) * (1 - 2 * n) - 8 * c)%Z). set (a := (2 * n - 3 - 2 * i)%Z).
  assert (D : (d = (a + 2) * (a + 2) - 8 * (j - i - 1))%Z) by (unfold d, c, a; nia).
  assert (Dl : (a * a + 8 <= d)%Z) by (rewrite D; unfold a; nia).
  assert (Du : (d <= (a + 2) * (a + 2))%Z) by (rewrite D; nia).
  assert (Ha : (1 <= a < 2 ^ 26)%Z) by (unfold a; lia).
  assert (Dr : (0 <= d <= 2 ^ 53)%Z) by nia.
  destruct (Fs d (a * 2 ^ 26 + 1)%Z Dr ltac:(lia)) as [L _]. specialize (L ltac:(nia)).
  destruct (Fs d ((a + 2) * 2 ^ 26)%Z Dr ltac:(unfold a; lia)) as [_ U]. specialize (U ltac:(nia)).
  set (x := (inject_Z (2 * n - 1) - root d)%Q).
  assert (X1 : (grid (2 * i * 2 ^ 26) <= x)%Q).
  { unfold x. rewrite grid_Z in *. apply (Qplus_le_l _ _ (root d)). ring_simplify (inject_Z (2 * n - 1) - root d + root d)%Q.
    eapply Qle_trans; [apply Qplus_le_compat; [apply Qle_refl|exact U]|]. rewrite <- inject_Z_plus. rewrite <- Zle_Qle. unfold a. lia. }
  assert (X2 : (x <= grid ((2 * i + 2) * 2 ^ 26 - 1))%Q).
  { unfold x. apply (Qplus_le_l _ _ (root d)). ring_simplify (inject_Z (2 * n - 1) - root d + root d)%Q.
    apply Qle_trans with (y := (grid ((2 * i + 2) * 2 ^ 26 - 1) + grid (a * 2 ^ 26 + 1))%Q).
    - assert (E : (grid ((2 * i + 2) * 2 ^ 26 - 1) + grid (a * 2 ^ 26 + 1) == inject_Z (2 * n - 1))%Q).
      { unfold grid, Qeq, Qplus, inject_Z. cbn [Qnum Qden]. unfold a. lia. }
      rewrite E. apply Qle_refl.
    - apply Qplus_le_compat; [apply Qle_refl|exact L]. }
  destruct (Fr x (2 * i * 2 ^ 26)%Z ltac:(lia)) as [Y1 _]. specialize (Y1 X1).
  destruct (Fr x ((2 * i + 2) * 2 ^ 26 - 1)%Z ltac:(lia)) as [_ Y2]. specialize (Y2 X2).
  assert (F : Qfloor (rnd x / 2) = i).
  { apply Z.le_antisymm.
    - assert (Lt : (rnd x / 2 < inject_Z (i + 1))%Q).
      { apply Qlt_shift_div_r; [reflexivity|]. eapply Qle_lt_trans; [exact Y2|].
        unfold grid, Qlt, Qmult, inject_Z. cbn [Qnum Qden]. lia. }
      pose proof (Qfloor_le (rnd x / 2)) as Fl. assert (Z1 : (inject_Z (Qfloor (rnd x / 2)) < inject_Z (i + 1))%Q) by (eapply Qle_lt_trans; eauto).
      rewrite <- Zlt_Qlt in Z1. lia.
    - rewrite <- (Qfloor_Z i). apply Qfloor_resp_le. apply Qle_shift_div_l; [reflexivity|]. eapply Qle_trans; [|exact Y1].
      unfold grid, Qle, Qmult, inject_Z. cbn [Qnum Qden]. lia. }
  rewrite F. f_equal. f_equal. rewrite (tri_div _ _ T). unfold c. lia.
Qed.
(** C42: APG.  The inverse uses a floating point square root; up to 2^25 spin orbitals no faithfully
    rounded evaluation can go wrong.  A pair may be given in either order. *)
Theorem C42_apg : forall root rnd n, faithful_sqrt root -> faithful_rounding rnd -> (0 < n <= 2 ^ 25)%Z ->
  bijective_index (fun p => (0 <= fst p < snd p)%Z /\ (snd p < n)%Z) (n * (n - 1) / 2)
    (fun p => if (fst p <? snd p)%Z then apg_col_ind n p else Err ValueError) (apg_orbpair root rnd n) /\
  (forall i j, apg_col_ind n (j, i) = apg_col_ind n (i, j)) /\
  (forall i j, ~ ((0 <= i < n)%Z /\ (0 <= j < n)%Z /\ i <> j) -> apg_col_ind n (i, j) = Err ValueError).
Proof.
  intros root rnd n Fs Fr B.
  assert (Ev : exists h, (n * (n - 1) = 2 * h)%Z).
  { destruct (tri_even (n - 1)) as [h H]. exists h. rewrite <- H. ring. }
  destruct Ev as [h Eh].
  assert (Dv : (n * (n - 1) / 2 = h)%Z) by (rewrite Eh, Z.mul_comm, Z.div_mul; lia).
  rewrite Dv.
  assert (Col : forall i j t, (0 <= i)%Z -> (i < j)%Z -> (j < n)%Z -> (i * (i + 1) = 2 * t)%Z ->
     apg_col_ind n (i, j) = Ok (n * i - t + (j - i - 1))%Z).
  { intros i j t Hi Hj Hn T. unfold apg_col_ind. rewrite sort_pair_id by (cbn [fst snd]; lia). cbn [fst snd].
    rewrite (proj2 (Z.leb_le 0 i) Hi), (proj2 (Z.ltb_lt i j) Hj), (proj2 (Z.ltb_lt j n) Hn), (tri_div _ _ T). reflexivity. }
  split; [split; [|split; [|split]]|split].
  - intros [i j] [[Hi Hj] Hn]. cbn [fst snd] in *. destruct (tri_even i) as [t T]. rewrite (proj2 (Z.ltb_lt i j) Hj).
    rewrite (Col i j t) by auto. eexists. split; [reflexivity|]. split.
    + split; nia.
    + now apply apg_inverse.
  - intros c [H1 H2].
    assert (C2 : (2 * c < n * (n - 1))%Z) by lia.
    assert (L2 : 2 * length (all_pairs (Z.to_nat n)) + Z.to_nat n * (Z.to_nat n + 1) = 2 * Z.to_nat n * Z.to_nat n).
    { pose proof (prefix_length (Z.to_nat n) (Z.to_nat n) ltac:(lia)) as P. now rewrite <- all_pairs_row in P. }
    assert (R : (0 <= c < Z.of_nat (length (all_pairs (Z.to_nat n))))%Z) by nia.
    apply nth_range in R as (p & _ & Ep). pose proof (nth_error_In _ _ Ep) as Ip. apply all_pairs_In in Ip. destruct p as [i j]. cbn [fst snd] in *.
    rewrite Z2Nat.id in Ip by lia. destruct Ip as [[Hi Hj] Hn].
    assert (Ec : apg_col_ind n (i, j) = Ok c).
    { replace n with (Z.of_nat (Z.to_nat n)) by lia. apply apg_col_spec. split; [lia|].
      rewrite sort_pair_id by (cbn [fst snd]; lia). exact Ep. }
    exists (i, j). cbn [fst snd]. rewrite (proj2 (Z.ltb_lt i j) Hj). split; [|auto].
    destruct (tri_even i) as [t T]. rewrite (Col i j t) in Ec by auto. injection Ec as <-. now apply apg_inverse.
  - intros [i j] H. cbn [fst snd] in *. destruct (Z.ltb_spec i j); [|reflexivity]. unfold apg_col_ind.
    rewrite sort_pair_id by (cbn [fst snd]; lia). cbn [fst snd].
    destruct (Z.leb_spec 0 i), (Z.ltb_spec i j), (Z.ltb_spec j n); try reflexivity. exfalso. apply H. lia.
  - intros c H. unfold apg_orbpair. destruct (Z.leb_spec 0 c), (Z.ltb_spec (2 * c) (n * (n - 1))); try reflexivity. exfalso. apply H. lia.
  - intros i j. assert (S : sort_pair (j, i) = sort_pair (i, j)).
    { unfold sort_pair. cbn [fst snd]. destruct (Z.ltb_spec i j), (Z.ltb_spec j i); try reflexivity; f_equal; lia. }
    unfold apg_col_ind. now rewrite S.
  - intros i j H. unfold apg_col_ind, sort_pair. cbn [fst snd]. destruct (Z.ltb_spec j i); cbn [fst snd].
    + destruct (Z.leb_spec 0 j), (Z.ltb_spec j i), (Z.ltb_spec i n); try reflexivity. exfalso. apply H. lia.
    + destruct (Z.leb_spec 0 i), (Z.ltb_spec i j), (Z.ltb_spec j n); try reflexivity. exfalso. apply H. lia.
Qed.

(** *** set-divided geminals *)
Theorem C42_set : forall n, (0 < n)%Z -> Z.Even n ->
  bijective_index (fun p => (0 <= fst p < n / 2)%Z /\ (n / 2 <= snd p < n)%Z) (n / 2 * (n / 2)) (set_col_ind n) (set_orbpair n).
Proof.
  intros n P [k ->]. rewrite (Z.mul_comm 2), Z.div_mul by lia.
  assert (E : forall i j, set_col_ind (k * 2) (i, j) = if ((0 <=? i) && (i <? k) && (k <=? j) && (j <? k * 2))%Z then Ok (k * i + j - k)%Z else Err ValueError).
  { intros i j. unfold set_col_ind. now rewrite Z.div_mul by lia. }
  assert (G : forall c, set_orbpair (k * 2) c = if ((0 <=? c) && (c <? k * k))%Z then Ok (c / k, c - c / k * k + k)%Z else Err ValueError).
  { intros c. unfold set_orbpair. now rewrite Z.div_mul by lia. }
  split; [|split; [|split]].
  - intros [i j] [H1 H2]. cbn [fst snd] in *. rewrite E.
    rewrite (proj2 (Z.leb_le 0 i)), (proj2 (Z.ltb_lt i k)), (proj2 (Z.leb_le k j)), (proj2 (Z.ltb_lt j (k * 2))) by lia. cbn [andb].
    eexists. split; [reflexivity|]. split; [nia|]. rewrite G.
    rewrite (proj2 (Z.leb_le 0 _)), (proj2 (Z.ltb_lt _ (k * k))) by nia. cbn [andb].
    assert (D : ((k * i + j - k) / k = i)%Z). { replace (k * i + j - k)%Z with ((j - k) + i * k)%Z by ring. rewrite Z.div_add, Z.div_small by lia. lia. }
    rewrite D. f_equal. f_equal. ring.
  - intros c H. rewrite G. rewrite (proj2 (Z.leb_le 0 c)), (proj2 (Z.ltb_lt c (k * k))) by lia. cbn [andb]. eexists. split; [reflexivity|].
    cbn [fst snd]. pose proof (Z.div_mod c k ltac:(lia)). pose proof (Z.mod_pos_bound c k ltac:(lia)).
    assert ((0 <= c / k < k)%Z) by nia. split; [split; nia|]. rewrite E.
    rewrite (proj2 (Z.leb_le 0 _)), (proj2 (Z.ltb_lt _ k)), (proj2 (Z.leb_le k _)), (proj2 (Z.ltb_lt _ (k * 2))) by nia. cbn [andb]. f_equal. ring.
  - intros [i j] H. cbn [fst snd] in *. rewrite E. destruct (Z.leb_spec 0 i), (Z.ltb_spec i k), (Z.leb_spec k j), (Z.ltb_spec j (k * 2)); try reflexivity.
    exfalso. apply H. lia.
  - intros c H. rewrite G. destruct (Z.leb_spec 0 c), (Z.ltb_spec c (k * k)); try reflexivity. exfalso. apply H. lia.
Qed.

(** *** APIG *)
Lemma no_dup_iff : forall l, no_dup l = true <-> NoDup l.
Proof.
  induction l as [|x l IH]; cbn [no_dup]; [split; auto; constructor|]. rewrite andb_true_iff, negb_true_iff, IH. split.
  - intros [H N]. constructor; auto. intros I. assert (existsb (Z.eqb x) l = true); [|congruence]. apply existsb_exists. exists x. split; auto. apply Z.eqb_refl.
  - intros H. inversion H as [|? ? H1 H2]; subst. split; auto. destruct (existsb (Z.eqb x) l) eqn:Q; auto. apply existsb_exists in Q as (y & Hy & Ey).
    apply Z.eqb_eq in Ey. subst. contradiction.
Qed.
(** the pairs accepted by APIG use every orbital once; there are as many orbitals as spin orbitals *)
Theorem C42_apig : forall ns o l, apig_assign_orbpairs ns o = Ok l ->
  (forall p, In p l -> (fst p < snd p)%Z) /\ NoDup (pair_orbs l) /\ Z.of_nat (length (pair_orbs l)) = ns /\
  bijective_index (fun p => In p l) (Z.of_nat (length l)) (base_col_ind l) (base_orbpair l).
Proof.
  intros ns o l E. unfold apig_assign_orbpairs in E. destruct (base_assign_orbpairs _ _) as [l'|] eqn:A; [|discriminate]. cbn [bind] in E.
  destruct (no_dup (pair_orbs l')) eqn:N; [|discriminate]. cbn [negb] in E.
  destruct (Z.eqb_spec (Z.of_nat (length (pair_orbs l'))) ns); [|discriminate]. cbn [negb] in E. injection E as <-.
  apply C42_base in A as [A1 A2]. apply no_dup_iff in N. auto.
Qed.
Theorem C42_apig_default : forall ns, (0 < ns)%Z -> Z.Even ns ->
  apig_assign_orbpairs ns None = Ok (map (fun i => (Z.of_nat i, Z.of_nat i + ns / 2)%Z) (seq 0 (Z.to_nat (ns / 2)))).
Proof.
  intros ns P [k ->]. unfold apig_assign_orbpairs. rewrite (Z.mul_comm 2), Z.div_mul by lia. rewrite Z2Nat.id by lia.
  set (l := map _ _).
  assert (L : forall p, In p l -> (0 <= fst p < k)%Z /\ snd p = (fst p + k)%Z).
  { intros p H. apply in_map_iff in H as (i & <- & H). apply in_seq in H. cbn [fst snd]. lia. }
  assert (M : map sort_pair l = l).
  { rewrite <- (map_id l) at 2. apply map_ext_in. intros p H. apply L in H. apply sort_pair_id. lia. }
  assert (Nl : NoDup l). { apply FinFun.Injective_map_NoDup; [|apply seq_NoDup]. intros x y [= E _]. lia. }
  rewrite (proj1 (C42_assign (k * 2) l)).
  2:{ rewrite M. split; auto. intros p H. apply L in H. lia. }
  cbn [bind]. rewrite M.
  assert (Np : NoDup (pair_orbs l)).
  { clear M. revert Nl L. generalize l. clear l. induction l as [|[a b] l IH]; intros N H; [constructor|]. inversion N as [|? ? N1 N2]; subst.
    cbn [pair_orbs flat_map app fst snd]. pose proof (H (a, b) (or_introl eq_refl)) as Hab. cbn [fst snd] in Hab.
    assert (I : forall x, In x (pair_orbs l) -> exists c, In (c, c + k)%Z l /\ (0 <= c < k)%Z /\ (x = c \/ x = (c + k)%Z)).
    { intros x Hx. apply in_flat_map in Hx as ([c d] & Hc & Hx). destruct (H (c, d) (or_intror Hc)) as [R S]. cbn [fst snd] in *. subst d.
      exists c. repeat split; auto; try lia. destruct Hx as [<-|[<-|[]]]; auto. }
    destruct Hab as [Ra ->]. constructor; [|constructor].
    - intros [Q|Q]; [lia|]. apply I in Q as (c & Hc & R & [->| ->]); [contradiction|lia].
    - intros Q. apply I in Q as (c & Hc & R & [Q|Q]); [lia|]. assert (c = a) by lia. subst. contradiction.
    - apply IH; auto. intros p Hp. apply H. now right. }
  rewrite (proj2 (no_dup_iff _) Np). cbn [negb].
  assert (Le : length (pair_orbs l) = 2 * length l). { clear. generalize l. clear l. induction l as [|q l IH]; [reflexivity|]. unfold pair_orbs in *. cbn [flat_map app length]. lia. }
  rewrite Le. unfold l at 1. rewrite map_length, seq_length. destruct (Z.eqb_spec (Z.of_nat (2 * Z.to_nat k)) (k * 2)); [reflexivity|lia].
Qed.
Print Assumptions C42_assign.
Print Assumptions C42_base.
Print Assumptions C42_base_default.
Print Assumptions C42_apg.
Print Assumptions C42_set.
Print Assumptions C42_apig.
Print Assumptions C42_apig_default.

(** truncation to the grid is an instance of the rounding hypotheses *)
Lemma trunc_sqrt_faithful : faithful_sqrt trunc_sqrt.
Proof.
  intros d m Hd Hm. unfold trunc_sqrt. rewrite !Qle_grid. split; intros H.
  - apply Z.sqrt_le_mono in H. now rewrite Z.sqrt_square in H by lia.
  - apply Z.sqrt_le_mono in H. now rewrite Z.sqrt_square in H by lia.
Qed.
Lemma trunc_faithful : faithful_rounding trunc.
Proof.
  intros x m _. unfold trunc. rewrite !Qle_grid.
  assert (E : forall z, (grid z * (2 ^ 26 # 1) == inject_Z z)%Q) by (intros z; unfold grid, Qeq, Qmult, inject_Z; cbn [Qnum Qden]; lia).
  split; intros H.
  - rewrite <- (Qfloor_Z m). apply Qfloor_resp_le. rewrite <- E. apply Qmult_le_compat_r; [exact H|]. discriminate.
  - rewrite <- (Qfloor_Z m). apply Qfloor_resp_le. rewrite <- E. apply Qmult_le_compat_r; [exact H|]. discriminate.
Qed.
Example C42_ex :
  apg_col_ind 6 (1, 4)%Z = Ok 7%Z /\ apg_col_ind 6 (4, 1)%Z = Ok 7%Z /\ apg_orbpair trunc_sqrt trunc 6 7 = Ok (1, 4)%Z /\
  apg_orbpair trunc_sqrt trunc 6 14 = Ok (4, 5)%Z /\ apg_orbpair trunc_sqrt trunc 6 15 = Err ValueError /\
  apg_orbpair trunc_sqrt trunc (2 ^ 25) (2 ^ 48 + 12345) = Ok (9827865, 28846232)%Z /\
  set_col_ind 6 (1, 4)%Z = Ok 4%Z /\ set_orbpair 6 4 = Ok (1, 4)%Z /\ set_col_ind 6 (4, 1)%Z = Err ValueError /\
  apig_assign_orbpairs 4 (Some [(3, 0); (1, 2)]%Z) = Ok [(0, 3); (1, 2)]%Z /\
  apig_assign_orbpairs 4 (Some [(3, 0); (1, 3)]%Z) = Err ValueError.
Proof. vm_compute. repeat split. Qed.
