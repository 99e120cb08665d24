(** sign_excite_array against sign_excite. *)
From Coq Require Import List ZArith NArith Bool Lia Arith Sorted Permutation.
From Verif Require Import Py BitSpec BitLemmas Slater SlaterBits SlaterBits2 SignSpec Fock FockLemmas
  SignLemmas Combos BulkLemmas SignVec SignVec2.
Import ListNotations.

(** position table *)
Lemma position_table_gen : forall l off tbl, NoDup l -> (forall o, In o l -> o < length tbl) ->
  let r := fold_left (fun tbl p => upd tbl (snd p) (fst p)) (combine (seq off (length l)) l) tbl in
  length r = length tbl /\
  (forall i, i < length l -> nth (nth i l 0) r 0 = off + i) /\
  (forall a, ~ In a l -> nth a r 0 = nth a tbl 0).
Proof.
  induction l as [|o l IH]; intros off tbl N H; cbn [length seq combine fold_left].
  - repeat split; auto. intros i Hi. simpl in Hi. lia.
  - inversion N; subst. cbn [fst snd].
    assert (Ho : o < length tbl) by (apply H; now left).
    destruct (IH (S off) (upd tbl o off)) as (L & P & Q); auto.
    { intros x Hx. rewrite upd_length. apply H. now right. }
    repeat split.
    + now rewrite L, upd_length.
    + intros [|i] Hi; cbn [nth].
      * rewrite Q by auto. rewrite upd_nth, Nat.eqb_refl by auto. lia.
      * rewrite P by lia. lia.
    + intros a Ha. rewrite Q by (intros X; apply Ha; now right). rewrite upd_nth by auto.
      destruct (Nat.eqb_spec a o); auto. subst. exfalso. apply Ha. now left.
Qed.

Lemma position_table_spec : forall occs nspin i, NoDup occs -> (forall o, In o occs -> o < nspin) ->
  i < length occs -> nth (nth i occs 0) (position_table occs nspin) 0 = i.
Proof.
  intros occs nspin i N H Hi. unfold position_table, enumerate.
  destruct (position_table_gen occs 0 (repeat 0 nspin)) as (_ & P & _); auto.
  - intros; rewrite repeat_length; auto.
  - now apply P.
Qed.

Definition shown (occs : list nat) (cur : N) : list Z :=
  map (fun o => if bit cur o then Z.of_nat o else (-1)%Z) occs.

Lemma upd_map : forall {A B} (f g : A -> B) l i d, i < length l -> NoDup l ->
  (forall x, In x l -> x <> nth i l d -> f x = g x) ->
  upd (map f l) i (g (nth i l d)) = map g l.
Proof.
  induction l as [|x l IH]; intros i d Hi N H; [simpl in Hi; lia|].
  inversion N; subst. destruct i as [|i]; cbn [nth map upd] in *.
  - f_equal. apply map_ext_in. intros y Hy. apply H; [now right|]. congruence.
  - f_equal.
    + apply H; [now left|]. intros E. apply H2. rewrite E. apply nth_In. simpl in Hi. lia.
    + apply IH; auto; [simpl in Hi; lia|]. intros y Hy Ny. apply H; auto. now right.
Qed.

Lemma shown_upd : forall occs cur i, NoDup occs -> i < length occs ->
  bit cur (nth i occs 0) = true ->
  upd (shown occs cur) i (-1)%Z = shown occs (flip cur (nth i occs 0)).
Proof.
  intros occs cur i N Hi B. unfold shown.
  rewrite <- (upd_map (fun o => if bit cur o then Z.of_nat o else (-1)%Z)
     (fun o => if bit (flip cur (nth i occs 0)) o then Z.of_nat o else (-1)%Z) occs i 0); auto.
  - f_equal. now rewrite bit_flip_eq, B.
  - intros x Hx Nx. rewrite bit_flip_neq by congruence. reflexivity.
Qed.

Definition tot (occs : list nat) (cur : N) : nat := length (filter (bit cur) occs).
Definition above (occs : list nat) (cur : N) (a : nat) : nat :=
  length (filter (fun o => bit cur o && Nat.ltb a o) occs).

Lemma shown_count : forall occs cur a,
  count_pred (fun s => (Z.of_nat a <? s)%Z) (shown occs cur) = above occs cur a.
Proof.
  intros. unfold count_pred, shown, above. induction occs as [|o occs IH]; auto. cbn [map filter].
  destruct (bit cur o); cbn [andb].
  - destruct (Z.ltb_spec (Z.of_nat a) (Z.of_nat o)), (Nat.ltb_spec a o); try lia; simpl; auto.
  - destruct (Z.ltb_spec (Z.of_nat a) (-1)); try lia; auto.
Qed.

Definition within (occs : list nat) (cur : N) : Prop := forall i, bit cur i = true -> In i occs.

Lemma above_below : forall occs cur a, NoDup occs -> within occs cur ->
  nbelow cur a + (if bit cur a then 1 else 0) + above occs cur a = tot occs cur.
Proof.
  intros occs cur a N W.
  assert (E : nbelow cur a = length (filter (fun o => bit cur o && Nat.ltb o a) occs)).
  { unfold nbelow. apply Permutation_length, NoDup_Permutation.
    - apply NoDup_filter, seq_NoDup.
    - now apply NoDup_filter.
    - intros x. rewrite !filter_In, in_seq, andb_true_iff, Nat.ltb_lt. split.
      + intros [H1 H2]. repeat split; auto. lia.
      + intros [H1 H2]. split; [lia|tauto]. }
  assert (E2 : (if bit cur a then 1 else 0) = length (filter (fun o => bit cur o && Nat.eqb o a) occs)).
  { destruct (bit cur a) eqn:B.
    - specialize (W a B). apply in_split in W as (l1 & l2 & ->). apply NoDup_remove_2 in N.
      rewrite filter_app. cbn [filter]. rewrite B, Nat.eqb_refl. cbn [andb].
      rewrite !filter_false; auto.
      + intros x Hx. apply andb_false_iff. right. apply Nat.eqb_neq. intros ->. apply N, in_or_app. auto.
      + intros x Hx. apply andb_false_iff. right. apply Nat.eqb_neq. intros ->. apply N, in_or_app. auto.
    - rewrite filter_false; auto. intros x Hx. destruct (Nat.eqb_spec x a); [subst; now rewrite B|].
      apply andb_false_r. }
  rewrite E, E2. unfold above, tot. clear. induction occs as [|o occs IH]; auto. cbn [filter].
  destruct (bit cur o); cbn [andb]; auto.
  destruct (Nat.ltb_spec o a), (Nat.eqb_spec o a), (Nat.ltb_spec a o); simpl; lia.
Qed.

Fixpoint os (N M : nat) : bool :=
  match M with 0 => false | S M' => xorb (Nat.odd (N - 1)) (os (N - 1) M') end.

Lemma odd_half : forall M, Nat.odd (S M / 2) = xorb (Nat.odd (M / 2)) (Nat.odd M).
Proof.
  intros M. rewrite <- !Nat.div2_div. 
  pose proof (Nat.div2_odd M) as D1. pose proof (Nat.div2_odd (S M)) as D2.
  rewrite Nat.odd_succ, <- Nat.negb_odd in D2.
  destruct (Nat.odd M) eqn:O; simpl Nat.b2n in *.
  - assert (E : Nat.div2 (S M) = S (Nat.div2 M)) by lia.
    rewrite E, Nat.odd_succ, <- Nat.negb_odd. now rewrite xorb_true_r.
  - assert (E : Nat.div2 (S M) = Nat.div2 M) by lia. rewrite E. now rewrite xorb_false_r.
Qed.

Lemma os_closed : forall M N, M <= N -> os N M = xorb (Nat.odd (M / 2)) (Nat.odd (M * (N - M))).
Proof.
  induction M as [|M IH]; intros N H; [reflexivity|].
  cbn [os]. rewrite IH by lia. rewrite odd_half.
  replace (S M * (N - S M)) with (M * (N - 1 - M) + (N - 1 - M)) by nia.
  replace (Nat.odd (N - 1)) with (xorb (Nat.odd M) (Nat.odd (N - 1 - M))).
  - rewrite Nat.odd_add.
    destruct (Nat.odd M), (Nat.odd (N - 1 - M)), (Nat.odd (M / 2)), (Nat.odd (M * (N - 1 - M))); reflexivity.
  - rewrite <- Nat.odd_add. f_equal. lia.
Qed.

Lemma sea_ann_spec : forall occs nspin, NoDup occs -> (forall o, In o occs -> o < nspin) ->
  forall anns cur jumps b m, within occs cur ->
  applys (map Ann anns) (Some (false, cur)) = Some (b, m) ->
  exists J, sea_ann (position_table occs nspin) (shown occs cur) jumps anns = (jumps + J, shown occs m) /\
            Nat.odd J = xorb b (os (tot occs cur) (length anns)) /\ within occs m /\
            tot occs m + length anns = tot occs cur.
Proof.
  intros occs nspin N Hs. induction anns as [|a t IH]; intros cur jumps b m W H.
  - simpl in H. injection H as <- <-. exists 0. simpl. rewrite Nat.add_0_r. repeat split; auto.
  - cbn [map] in H. rewrite applys_cons in H. unfold Ann at 2 in H. cbn [apply1 fst snd] in H.
    destruct (bit cur a) eqn:B; cbn [Bool.eqb] in H; [|now rewrite applys_None in H].
    rewrite xorb_false_l in H.
    replace (Some (par cur a, flip cur a)) with (xor_ket (par cur a) (Some (false, flip cur a))) in H
        by (simpl; now rewrite xorb_false_r).
    rewrite applys_xor in H.
    destruct (applys (map Ann t) (Some (false, flip cur a))) as [[b' m']|] eqn:E; [|discriminate].
    simpl in H. injection H as <- <-.
    assert (W' : within occs (flip cur a)).
    { intros i Hi. rewrite bit_flip in Hi. destruct (Nat.eqb_spec a i); [subst; rewrite B in Hi; discriminate|].
      rewrite xorb_false_r in Hi. auto. }
    destruct (In_nth occs a 0 (W a B)) as (i & Hi & Ei).
    assert (T : tot occs (flip cur a) + 1 = tot occs cur).
    { pose proof (above_below occs cur a N W) as A1. pose proof (above_below occs (flip cur a) a N W') as A2.
      rewrite B in A1. rewrite bit_flip_eq, B in A2. cbn [negb] in A2.
      assert (nbelow (flip cur a) a = nbelow cur a).
      { apply nbelow_ext. intros j Hj. apply bit_flip_neq. lia. }
      assert (above occs (flip cur a) a = above occs cur a).
      { unfold above. f_equal. apply filter_ext. intros o. rewrite bit_flip.
        destruct (Nat.eqb_spec a o); [subst; now rewrite Nat.ltb_irrefl, !andb_false_r|].
        now rewrite xorb_false_r. }
      lia. }
    edestruct (IH (flip cur a) (jumps + above occs cur a) b' m' W' E) as (J & E1 & E2 & E3 & E4).
    exists (above occs cur a + J). cbn [sea_ann]. rewrite shown_count.
    assert (Pos : nth a (position_table occs nspin) 0 = i).
    { rewrite <- Ei. now apply position_table_spec. }
    rewrite Pos. rewrite (shown_upd occs cur i) by (auto; now rewrite Ei). rewrite Ei, E1.
    split; [f_equal; lia|]. split.
    + rewrite Nat.odd_add, E2. cbn [length os].
      pose proof (above_below occs cur a N W) as A1. rewrite B in A1.
      replace (tot occs cur - 1) with (tot occs (flip cur a)) by lia.
      assert (X : Nat.odd (above occs cur a) = xorb (par cur a) (Nat.odd (tot occs (flip cur a)))).
      { replace (tot occs (flip cur a)) with (nbelow cur a + above occs cur a) by lia.
        rewrite Nat.odd_add. fold (par cur a). destruct (par cur a), (Nat.odd (above occs cur a)); reflexivity. }
      rewrite X. destruct (par cur a), b', (Nat.odd (tot occs (flip cur a))), (os (tot occs (flip cur a)) (length t)); reflexivity.
    + split; auto. cbn [length]. lia.
Qed.

Definition xor_par (m : N) (l : list nat) : bool := fold_right (fun c b => xorb (par m c) b) false l.

Lemma sea_cre_spec : forall occs m, NoDup occs -> within occs m -> forall cres jumps,
  (forall c, In c cres -> bit m c = false) ->
  exists J, sea_cre (shown occs m) jumps cres = jumps + J /\
            Nat.odd J = xorb (xor_par m cres) (Nat.odd (length cres * tot occs m)).
Proof.
  intros occs m N W. induction cres as [|c t IH]; intros jumps H.
  - exists 0. simpl. split; auto.
  - cbn [sea_cre]. rewrite shown_count.
    destruct (IH (jumps + above occs m c)) as (J & E1 & E2). { intros; apply H; now right. }
    exists (above occs m c + J). rewrite E1. split; [lia|].
    rewrite Nat.odd_add, E2. cbn [xor_par fold_right length]. fold (xor_par m t).
    replace (S (length t) * tot occs m) with (tot occs m + length t * tot occs m) by lia.
    rewrite (Nat.odd_add (tot occs m)).
    pose proof (above_below occs m c N W) as A. rewrite H in A by now left.
    assert (X : Nat.odd (tot occs m) = xorb (par m c) (Nat.odd (above occs m c))).
    { rewrite <- A. rewrite Nat.add_0_r, Nat.odd_add. reflexivity. }
    rewrite X. destruct (par m c), (Nat.odd (above occs m c)), (xor_par m t), (Nat.odd (length t * tot occs m)); reflexivity.
Qed.

Lemma applys_cre_rev : forall cres m, increasing cres -> (forall c, In c cres -> bit m c = false) ->
  exists m', applys (map Cre (rev cres)) (Some (false, m)) = Some (xor_par m cres, m') /\
             forall i, (forall c, In c cres -> i < c) -> bit m' i = bit m i.
Proof.
  induction cres as [|c t IH]; intros m S H.
  - exists m. simpl. split; auto.
  - apply SS_cons_inv in S as [S1 S2]. rewrite Forall_forall in S2.
    destruct (IH m) as (m' & E & K); auto. { intros; apply H; now right. }
    cbn [rev]. rewrite map_app, applys_app, E. cbn [map applys fold_left]. unfold Cre. cbn [apply1 fst snd].
    rewrite K by auto. rewrite H by now left. cbn [Bool.eqb].
    exists (flip m' c). split.
    + do 2 f_equal. cbn [xor_par fold_right]. fold (xor_par m t).
      assert (X : par m' c = par m c).
      { apply par_ext. intros j Hj. apply K. intros d Hd. specialize (S2 d Hd). lia. }
      rewrite X. apply xorb_comm.
    + intros i Hi. rewrite bit_flip_neq.
      * apply K. intros; apply Hi; now right.
      * assert (i < c) by (apply Hi; now left). lia.
Qed.

Lemma applys_ann_ok : forall anns n, NoDup anns -> (forall a, In a anns -> bit n a = true) ->
  exists b m, applys (map Ann anns) (Some (false, n)) = Some (b, m) /\
              (forall i, bit n i = false -> bit m i = false).
Proof.
  induction anns as [|a t IH]; intros n N H.
  - exists false, n. simpl. auto.
  - inversion N; subst. cbn [map]. rewrite applys_cons. unfold Ann at 2. cbn [apply1 fst snd].
    rewrite (H a) by now left. cbn [Bool.eqb]. rewrite xorb_false_l.
    replace (Some (par n a, flip n a)) with (xor_ket (par n a) (Some (false, flip n a)))
        by (simpl; now rewrite xorb_false_r).
    rewrite applys_xor.
    destruct (IH (flip n a)) as (b & m & E & K); auto.
    { intros x Hx. rewrite bit_flip_neq by congruence. apply H. now right. }
    rewrite E. cbn [xor_ket]. do 2 eexists. split; [reflexivity|].
    intros i Hi. apply K. rewrite bit_flip_neq; auto. intros ->. rewrite H in Hi by now left. discriminate.
Qed.

Lemma array_entry : forall n nspin M anns cres, fits n nspin ->
  let occs := occ_indices (Some n) in
  length anns = M -> length cres = M -> NoDup anns -> increasing cres ->
  (forall a, In a anns -> bit n a = true) -> (forall c, In c cres -> bit n c = false) ->
  exists ja sh, sea_ann (position_table occs nspin) (map Z.of_nat occs) 0 anns = (ja, sh) /\
   sign_excite (Some n) anns (rev cres)
   = Ok (sgn (Nat.odd (ja + sea_cre sh 0 cres)) * sgn (Nat.odd (Nat.modulo (Nat.div M 2) 2)))%Z.
Proof.
  intros n nspin M anns cres F occs La Lc Na Ic Ha Hc.
  assert (No : NoDup occs) by (apply increasing_NoDup, occ_indices_increasing).
  assert (Ho : forall o, In o occs -> o < nspin).
  { intros o Hin. apply occ_indices_In in Hin. destruct (Nat.lt_ge_cases o nspin); auto.
    rewrite F in Hin by auto. discriminate. }
  assert (W : within occs n) by (intros i Hi; now apply occ_indices_In).
  assert (S0 : map Z.of_nat occs = shown occs n).
  { unfold shown. apply map_ext_in. intros o Hin. apply occ_indices_In in Hin. now rewrite Hin. }
  destruct (applys_ann_ok anns n Na Ha) as (b & m & E & K).
  destruct (sea_ann_spec occs nspin No Ho anns n 0 b m W E) as (J & E1 & E2 & Wm & T).
  rewrite S0, E1. do 2 eexists. split; [reflexivity|].
  assert (Hcm : forall c, In c cres -> bit m c = false) by auto.
  destruct (sea_cre_spec occs m No Wm cres 0 Hcm) as (Jc & E3 & E4).
  destruct (applys_cre_rev cres m Ic Hcm) as (m' & E5 & _).
  rewrite sign_excite_eq, applys_app, E.
  replace (Some (b, m)) with (xor_ket b (Some (false, m))) by (simpl; now rewrite xorb_false_r).
  rewrite applys_xor, E5. cbn [xor_ket]. rewrite E3, Nat.add_0_l, Nat.add_0_l, Nat.odd_add, E2, E4.
  rewrite <- sgn_xorb. do 2 f_equal. rewrite La, Lc in *. rewrite os_closed by lia.
  replace (tot occs n - M) with (tot occs m) by lia.
  assert (X : Nat.odd (Nat.modulo (M / 2) 2) = Nat.odd (M / 2)).
  { rewrite <- Nat.bit0_mod. change (Nat.testbit (M / 2) 0) with (Nat.odd (M / 2)). now destruct (Nat.odd (M / 2)). }
  rewrite X.
  destruct b, (xor_par m cres), (Nat.odd (M / 2)), (Nat.odd (M * tot occs m)); reflexivity.
Qed.

Lemma vector_array : forall n nspin M A C, fits n nspin ->
  (forall anns, In anns A -> length anns = M /\ NoDup anns /\ forall a, In a anns -> bit n a = true) ->
  (forall cres, In cres C -> length cres = M /\ increasing cres /\ forall c, In c cres -> bit n c = false) ->
  Forall2 (fun anns row => Forall2 (fun cres s => signs_agree n (anns, cres) s) C row)
          A (sign_excite_array (occ_indices (Some n)) A C M nspin).
Proof.
  intros n nspin M A C F HA HC. unfold sign_excite_array.
  rewrite <- (map_id A) at 1. apply Forall2_map_same. intros anns Ia.
  destruct (sea_ann _ _ 0 anns) as [ja sh] eqn:E.
  rewrite <- (map_id C) at 1. apply Forall2_map_same. intros cres Ic. unfold signs_agree. cbn [fst snd].
  destruct (HA _ Ia) as (A1 & A2 & A3). destruct (HC _ Ic) as (C1 & C2 & C3).
  destruct (array_entry n nspin M anns cres) as (ja' & sh' & E' & R); auto.
  rewrite E in E'. injection E' as <- <-. exact R.
Qed.
