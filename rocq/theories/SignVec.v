(** sign_excite_one / two / two_ab / array against sign_excite. *)
From Coq Require Import List ZArith NArith Bool Lia Arith Sorted Permutation.
From Verif Require Import Py BitSpec BitLemmas Slater SlaterBits SlaterBits2 SignSpec Fock FockLemmas
  SignLemmas Combos BulkLemmas.
Import ListNotations.

Definition rank (occs : list nat) (v : nat) : nat := length (filter (fun o => Nat.ltb o v) occs).

Lemma rank_mono : forall occs v w, v <= w -> rank occs v <= rank occs w.
Proof.
  intros occs v w H. unfold rank. induction occs as [|o occs IH]; auto. cbn [filter].
  destruct (Nat.ltb_spec o v), (Nat.ltb_spec o w); simpl; lia.
Qed.
Lemma rank_le : forall occs v, rank occs v <= length occs.
Proof.
  intros occs v. unfold rank. induction occs as [|o occs IH]; auto. cbn [filter].
  destruct (Nat.ltb o v); simpl; lia.
Qed.

(** in an increasing list the elements below v are exactly the first [rank] ones *)
Lemma rank_nth : forall occs v i, increasing occs -> i < length occs ->
  (nth i occs 0 < v <-> i < rank occs v).
Proof.
  induction occs as [|o occs IH]; intros v i H Hi; [simpl in Hi; lia|].
  apply SS_cons_inv in H as [H1 H2]. unfold rank. cbn [filter].
  destruct (Nat.ltb_spec o v).
  - cbn [length]. destruct i as [|i]; cbn [nth].
    + split; lia.
    + simpl in Hi. rewrite IH by (auto; lia). unfold rank. lia.
  - assert (E : filter (fun o0 => Nat.ltb o0 v) occs = []).
    { apply filter_false. intros x Hx. rewrite Forall_forall in H2. specialize (H2 x Hx).
      apply Nat.ltb_ge. lia. }
    rewrite E. simpl length. split; [|lia]. intros X. exfalso.
    destruct i as [|i]; cbn [nth] in X; [lia|]. simpl in Hi.
    rewrite Forall_forall in H2. assert (In (nth i occs 0) occs) by (apply nth_In; lia).
    specialize (H2 _ H0). lia.
Qed.

Lemma skip_occ_rank : forall occs a, increasing occs -> forall fuel c,
  c <= rank occs a -> rank occs a - c <= fuel -> skip_occ a occs c fuel = rank occs a.
Proof.
  intros occs a H. induction fuel as [|f IH]; intros c Hc Hf; cbn [skip_occ].
  - lia.
  - pose proof (rank_le occs a).
    destruct (Nat.ltb_spec c (length occs)); cbn [andb].
    + destruct (Nat.ltb_spec (nth c occs 0) a).
      * apply IH; [|lia]. apply rank_nth in H2; auto; lia.
      * assert (~ c < rank occs a) by (intros X; apply rank_nth in X; auto; lia). lia.
    + lia.
Qed.

Lemma upd_length : forall {A} (l : list A) k v, length (upd l k v) = length l.
Proof. induction l as [|x l IH]; intros [|k] v; simpl; auto. Qed.
Lemma upd_nth : forall {A} (l : list A) k v i d, k < length l ->
  nth i (upd l k v) d = if Nat.eqb i k then v else nth i l d.
Proof.
  induction l as [|x l IH]; intros [|k] v [|i] d H; simpl in *; try lia; auto.
  apply IH. lia.
Qed.

Definition cnt (f : nat -> nat) (l : list nat) (j : nat) : nat := count_occ Nat.eq_dec (map f l) j.

Lemma bin_sizes_fold : forall occs, increasing occs -> forall virs c bins,
  increasing virs -> (forall v, In v virs -> c <= rank occs v) ->
  length bins = length occs + 1 ->
  let r := snd (fold_left (bin_sizes_step occs) virs (c, bins)) in
  length r = length occs + 1 /\
  forall j, nth j r 0 = nth j bins 0 + cnt (rank occs) virs j.
Proof.
  intros occs Ho. induction virs as [|v virs IH]; intros c bins Hv Hc Hl.
  - cbn. split; auto.
  - apply SS_cons_inv in Hv as [Hv1 Hv2]. cbn [fold_left bin_sizes_step].
    rewrite skip_occ_rank; auto.
    2:{ apply Hc. now left. }
    2:{ pose proof (rank_le occs v). lia. }
    pose proof (rank_le occs v) as Lv.
    edestruct (IH (rank occs v) (upd bins (rank occs v) (nth (rank occs v) bins 0 + 1))) as [I1 I2]; auto.
    + intros w Hw. apply rank_mono. rewrite Forall_forall in Hv2. specialize (Hv2 w Hw). lia.
    + now rewrite upd_length.
    + split; auto. intros j. rewrite I2, upd_nth by lia. unfold cnt. cbn [map count_occ].
      destruct (Nat.eqb_spec j (rank occs v)), (Nat.eq_dec (rank occs v) j); subst; try lia; congruence.
Qed.

Lemma nth_repeat0 : forall j k, nth j (repeat 0 k) 0 = 0.
Proof. induction j; intros [|k]; simpl; auto. Qed.

Lemma bin_sizes_cnt : forall occs virs j, increasing occs -> increasing virs ->
  nth j (bin_sizes occs virs) 0 = cnt (rank occs) virs j.
Proof.
  intros occs virs j Ho Hv. unfold bin_sizes.
  edestruct (bin_sizes_fold occs Ho virs 0 (repeat 0 (length occs + 1))) as [_ H]; auto.
  - intros; lia.
  - now rewrite repeat_length.
  - rewrite H, nth_repeat0. reflexivity.
Qed.

(** a non-decreasing list is the concatenation of its groups *)
Lemma group_head : forall a R, StronglySorted le R -> (forall x, In x R -> a <= x) ->
  exists R', R = repeat a (count_occ Nat.eq_dec R a) ++ R' /\ StronglySorted le R' /\
             (forall x, In x R' -> S a <= x) /\
             (forall j, a <> j -> count_occ Nat.eq_dec R j = count_occ Nat.eq_dec R' j).
Proof.
  intros a. induction R as [|x R IH]; intros S H.
  - exists []. repeat split; auto. intros x [].
  - inversion S as [|? ? S1 S2]; subst. destruct (Nat.eq_dec x a) as [->|Hx].
    + destruct IH as (R' & E & S' & B & C); auto. { intros y Hy. apply H. now right. }
      exists R'. cbn [count_occ]. destruct (Nat.eq_dec a a); [|congruence].
      cbn [repeat app]. repeat split; auto.
      * now rewrite <- E.
      * intros j Hj. destruct (Nat.eq_dec a j); [congruence|]. now apply C.
    + assert (a <= x) by (apply H; now left).
      assert (B : forall y, In y (x :: R) -> Datatypes.S a <= y).
      { intros y [<-|Hy]; [lia|]. rewrite Forall_forall in S2. specialize (S2 y Hy). lia. }
      exists (x :: R). repeat split; auto.
      assert (E : count_occ Nat.eq_dec (x :: R) a = 0).
      { apply count_occ_not_In. intros X. specialize (B _ X). lia. }
      rewrite E. reflexivity.
Qed.

Lemma group_all : forall K a R, StronglySorted le R -> (forall x, In x R -> a <= x < a + K) ->
  flat_map (fun j => repeat j (count_occ Nat.eq_dec R j)) (seq a K) = R.
Proof.
  induction K as [|K IH]; intros a R S H.
  - simpl. destruct R as [|x R]; auto. exfalso. specialize (H x (or_introl eq_refl)). lia.
  - cbn [seq flat_map].
    destruct (group_head a R S) as (R' & E & S' & B & C). { intros x Hx. apply H; auto. }
    transitivity (repeat a (count_occ Nat.eq_dec R a) ++ R'); [|now symmetry]. f_equal.
    transitivity (flat_map (fun j => repeat j (count_occ Nat.eq_dec R' j)) (seq (Datatypes.S a) K)).
    + rewrite !flat_map_concat_map. f_equal. apply map_ext_in. intros j Hj. apply in_seq in Hj.
      rewrite C by lia. reflexivity.
    + apply IH; auto. intros x Hx. specialize (B x Hx). assert (In x R) by (rewrite E; apply in_or_app; now right).
      specialize (H x H0). lia.
Qed.

Lemma ranks_sorted : forall occs virs, increasing virs -> StronglySorted le (map (rank occs) virs).
Proof.
  intros occs. induction virs as [|v virs IH]; intros H; simpl; constructor.
  - apply SS_cons_inv in H as [H _]. auto.
  - apply SS_cons_inv in H as [_ H]. rewrite Forall_forall in *. intros x Hx.
    apply in_map_iff in Hx as (w & <- & Hw). specialize (H w Hw). apply rank_mono. lia.
Qed.

Lemma bins_ranks : forall occs virs, increasing occs -> increasing virs ->
  flat_map (fun j => repeat j (nth j (bin_sizes occs virs) 0)) (seq 0 (length occs + 1))
  = map (rank occs) virs.
Proof.
  intros occs virs Ho Hv.
  rewrite <- (group_all (length occs + 1) 0 (map (rank occs) virs)).
  - rewrite !flat_map_concat_map. f_equal. apply map_ext. intros j. now rewrite bin_sizes_cnt.
  - now apply ranks_sorted.
  - intros x Hx. apply in_map_iff in Hx as (w & <- & Hw). pose proof (rank_le occs w). lia.
Qed.

Lemma map_repeat' : forall {A B} (f : A -> B) x k, map f (repeat x k) = repeat (f x) k.
Proof. induction k; simpl; congruence. Qed.
Lemma map_flat_map : forall {A B C} (f : B -> C) (g : A -> list B) l,
  map f (flat_map g l) = flat_map (fun x => map f (g x)) l.
Proof. induction l as [|x l IH]; auto. simpl. now rewrite map_app, IH. Qed.
Lemma flat_map_ext_in : forall {A B} (f g : A -> list B) l,
  (forall x, In x l -> f x = g x) -> flat_map f l = flat_map g l.
Proof.
  intros A B f g l H. induction l as [|x l IH]; auto. simpl. rewrite H by now left. f_equal. apply IH.
  intros; apply H; now right.
Qed.
Lemma flat_map_map : forall {A B C} (f : B -> list C) (g : A -> B) l,
  flat_map f (map g l) = flat_map (fun x => f (g x)) l.
Proof. induction l as [|x l IH]; auto. simpl. now rewrite IH. Qed.

Lemma nth_seq_map : forall (l : list nat), map (fun i => nth i l 0) (seq 0 (length l)) = l.
Proof.
  intros. apply nth_ext with (d := 0) (d' := 0).
  - now rewrite map_length, seq_length.
  - intros i Hi. rewrite map_length, seq_length in Hi.
    rewrite (nth_indep _ 0 (nth 0 l 0)) by (rewrite map_length, seq_length; auto).
    rewrite (map_nth (fun i => nth i l 0) (seq 0 (length l)) 0 i), seq_nth by auto. reflexivity.
Qed.

Lemma even_sgn : forall k (b : bool), Nat.odd k = b ->
  (if Nat.eqb (k mod 2) 0 then 1%Z else (-1)%Z) = sgn b.
Proof.
  intros k b <-. rewrite <- Nat.bit0_mod. change (Nat.testbit k 0) with (Nat.odd k).
  now destruct (Nat.odd k).
Qed.
Lemma even_sgn_rep : forall k m, (if Nat.eqb (k mod 2) 0 then repeat 1%Z m else repeat (-1)%Z m)
  = repeat (sgn (Nat.odd k)) m.
Proof. intros. rewrite <- (even_sgn k _ eq_refl). now destruct (Nat.eqb _ _). Qed.

(** ranks in terms of parities *)
Lemma rank_occ_nbelow : forall n v, rank (occ_indices (Some n)) v = nbelow n v.
Proof.
  intros. unfold rank, nbelow.
  replace (filter (fun o => Nat.ltb o v) (occ_indices (Some n))) with (filter (bit n) (seq 0 v)); auto.
  apply increasing_ext.
  - apply increasing_filter, increasing_seq.
  - apply increasing_filter, occ_indices_increasing.
  - intros x. rewrite !filter_In, in_seq, occ_indices_In, Nat.ltb_lt. intuition lia.
Qed.

Lemma rank_self : forall occs i, increasing occs -> i < length occs -> rank occs (nth i occs 0) = i.
Proof.
  intros occs i H Hi. destruct (lt_eq_lt_dec (rank occs (nth i occs 0)) i) as [[L|E]|G]; auto.
  - exfalso. pose proof (rank_nth occs (nth i occs 0) (rank occs (nth i occs 0)) H ltac:(lia)).
    assert (X : nth (rank occs (nth i occs 0)) occs 0 < nth i occs 0).
    { clear - H Hi L. remember (rank occs (nth i occs 0)) as r. clear Heqr.
      revert r i Hi L. induction H as [|o occs H IH F]; intros r i Hi L; [simpl in Hi; lia|].
      destruct i as [|i]; [lia|]. destruct r as [|r]; cbn [nth].
      - rewrite Forall_forall in F. apply F, nth_In. simpl in Hi. lia.
      - apply IH; simpl in Hi; lia. }
    lia.
  - apply rank_nth in G; auto. lia.
Qed.

(** ** sign_excite_one *)
Definition sgn_one (i j : nat) : Z := sgn (Nat.odd (if Nat.ltb i j then i + j - 1 else i + j)).

Lemma sign_excite_one_value : forall occs virs, increasing occs -> increasing virs ->
  sign_excite_one occs virs
  = flat_map (fun i => map (fun v => sgn_one i (rank occs v)) virs) (seq 0 (length occs)).
Proof.
  intros occs virs Ho Hv. unfold sign_excite_one. apply flat_map_ext_in. intros i Hi.
  transitivity (map (sgn_one i) (map (rank occs) virs)); [|now rewrite map_map].
  rewrite <- bins_ranks by auto. rewrite map_flat_map. apply flat_map_ext_in. intros j Hj.
  rewrite map_repeat'. unfold sgn_one. cbv zeta. apply even_sgn_rep.
Qed.

Lemma applys_one : forall n a v, bit n a = true -> bit n v = false ->
  applys [Ann a; Cre v] (Some (false, n))
  = Some (xorb (par n a) (xorb (par n v) (Nat.ltb a v)), flip (flip n a) v).
Proof.
  intros n a v Ha Hv. assert (a <> v) by congruence.
  cbn [applys fold_left]. unfold Ann, Cre. cbn [apply1 fst snd]. rewrite Ha. cbn [Bool.eqb apply1 fst snd].
  rewrite bit_flip_neq, Hv by auto. cbn [Bool.eqb]. rewrite par_flip. now rewrite xorb_false_l.
Qed.

Lemma sign_excite_one_entry : forall n i v, let occs := occ_indices (Some n) in
  i < length occs -> bit n v = false ->
  sign_excite (Some n) [nth i occs 0] [v] = Ok (sgn_one i (rank occs v)).
Proof.
  intros n i v occs Hi Hv. set (a := nth i occs 0).
  assert (Ha : bit n a = true) by (apply occ_indices_In, nth_In; auto).
  rewrite sign_excite_eq. cbn [map app]. rewrite applys_one by auto. f_equal. unfold sgn_one.
  f_equal. assert (Io : increasing occs) by apply occ_indices_increasing.
  assert (E : par n a = Nat.odd i).
  { unfold par. rewrite <- rank_occ_nbelow. fold occs. unfold a. now rewrite rank_self. }
  rewrite E. unfold par. rewrite <- rank_occ_nbelow. fold occs.
  pose proof (rank_nth occs v i Io Hi) as R. fold a in R.
  destruct (Nat.ltb_spec a v), (Nat.ltb_spec i (rank occs v)); try lia.
  - replace (i + rank occs v - 1) with (i + (rank occs v - 1)) by lia. rewrite Nat.odd_add.
    f_equal. rewrite Nat.odd_sub by lia. reflexivity.
  - rewrite Nat.odd_add, xorb_false_r. reflexivity.
Qed.
