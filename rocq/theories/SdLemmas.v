From Coq Require Import List ZArith NArith Bool Lia Arith Sorted Permutation.
From Verif Require Import Py BitSpec BitLemmas Slater SlaterBits SlaterBits2 Combos BulkLemmas SdList SdSpec.
Import ListNotations.

(** ** combinations of a list without repetitions are determined by their elements *)
Lemma subseq_filter : forall c l, subseq c l -> NoDup l -> c = filter (setbits c) l.
Proof.
  induction 1 as [l|x a l H IH|x a l H IH]; intros N.
  - symmetry. apply filter_false. intros. reflexivity.
  - inversion N; subst. cbn [filter].
    assert (Sx : setbits (x :: a) x = true) by (apply setbits_In; now left).
    rewrite Sx. f_equal. rewrite IH at 1 by auto. apply filter_ext_in. intros y Hy.
    unfold setbits. cbn [existsb]. destruct (Nat.eqb_spec y x); [subst; contradiction|reflexivity].
  - inversion N; subst. cbn [filter].
    assert (Sx : setbits a x = false).
    { apply setbits_notIn. intros X. apply subseq_incl in H. auto. }
    rewrite Sx. auto.
Qed.

Lemma subseq_of_filter : forall {A} (f : A -> bool) l, subseq (filter f l) l.
Proof.
  induction l as [|x l IH]; simpl; [constructor|]. destruct (f x); now constructor.
Qed.

Lemma combo_ext : forall l a b, NoDup l -> subseq a l -> subseq b l ->
  (forall i, setbits a i = setbits b i) -> a = b.
Proof.
  intros l a b N Ha Hb E. rewrite (subseq_filter a l), (subseq_filter b l) by auto.
  apply filter_ext. auto.
Qed.

(** general version of [bulk_exact]: any ordering of the orbital lists *)
Lemma moved_exact : forall n norbs k occs virs, fits n norbs -> NoDup occs -> NoDup virs ->
  (forall i, In i occs <-> bit n i = true) ->
  (forall i, In i virs <-> i < norbs /\ bit n i = false) ->
  let prs := list_prod (combinations occs k) (combinations virs k) in
  NoDup (map (fun p => moved n (fst p) (snd p)) prs) /\
  forall m, In m (map (fun p => moved n (fst p) (snd p)) prs) <->
            fits m norbs /\ excitation n m k.
Proof.
  intros n norbs k occs virs F No Nv Ho Hv prs.
  assert (Hp : forall p, In p prs -> subseq (fst p) occs /\ subseq (snd p) virs /\
            length (fst p) = k /\ length (snd p) = k /\
            (forall i, In i (fst p) -> bit n i = true) /\ 
            (forall i, In i (snd p) -> i < norbs /\ bit n i = false)).
  { intros [a c] Hp. apply in_prod_iff in Hp as [H1 H2].
    apply combinations_In in H1 as [S1 L1]. apply combinations_In in H2 as [S2 L2].
    simpl. repeat split; auto.
    - intros i Hi. apply Ho. eapply subseq_incl; eauto.
    - apply Hv. eapply subseq_incl; eauto.
    - apply Hv. eapply subseq_incl; eauto. }
  split.
  - apply NoDup_map_inj.
    + intros p q P1 P2 E. apply Hp in P1 as (a1 & c1 & _ & _ & A1 & C1).
      apply Hp in P2 as (b1 & d1 & _ & _ & B1 & D1).
      destruct p as [a c], q as [b d]. cbn [fst snd] in *.
      assert (Ca : forall i, In i c -> bit n i = false) by (intros; now apply C1).
      assert (Da : forall i, In i d -> bit n i = false) by (intros; now apply D1).
      f_equal.
      * apply (combo_ext occs); auto. intros i. destruct (moved_lost n a c i A1 Ca) as [<- _].
        rewrite E. now apply moved_lost.
      * apply (combo_ext virs); auto. intros i. destruct (moved_lost n a c i A1 Ca) as [_ <-].
        rewrite E. now apply moved_lost.
    + apply NoDup_prod; apply combinations_NoDup; auto.
  - intros m. rewrite in_map_iff. split.
    + intros ([a c] & <- & P). apply Hp in P as (a1 & c1 & L1 & L2 & H1 & H2). cbn [fst snd] in *.
      assert (H2' : forall i, In i c -> bit n i = false) by (intros; now apply H2).
      split; [|split].
      * intros i Hi. rewrite moved_bits, F by auto. simpl. apply setbits_notIn. intros X.
        apply H2 in X. lia.
      * apply counts_ext with (P := setbits a).
        -- intros i. symmetry. now apply moved_lost.
        -- rewrite <- L1. apply counts_setbits. eapply subseq_NoDup; eauto.
      * apply counts_ext with (P := setbits c).
        -- intros i. symmetry. now apply moved_lost.
        -- rewrite <- L2. apply counts_setbits. eapply subseq_NoDup; eauto.
    + intros (Fm & C1 & C2).
      set (a := filter (lost n m) occs). set (c := filter (lost m n) virs).
      assert (Sa : forall i, In i a <-> lost n m i = true).
      { intros i. unfold a. rewrite filter_In, Ho. unfold lost. rewrite andb_true_iff. tauto. }
      assert (Sc : forall i, In i c <-> lost m n i = true).
      { intros i. unfold c. rewrite filter_In, Hv. unfold lost. rewrite andb_true_iff, negb_true_iff.
        split; [tauto|]. intros [Bm Bn]. repeat split; auto.
        destruct (Nat.lt_ge_cases i norbs); auto. rewrite Fm in Bm by auto. discriminate. }
      assert (La : length a = k).
      { eapply counts_unique; [|exact C1]. exists a. repeat split; try apply Sa. now apply NoDup_filter. }
      assert (Lc : length c = k).
      { eapply counts_unique; [|exact C2]. exists c. repeat split; try apply Sc. now apply NoDup_filter. }
      exists (a, c). split.
      * apply bit_ext. intros i. cbn [fst snd]. rewrite moved_bits.
        -- assert (Ea : setbits a i = lost n m i).
           { apply eq_true_iff_eq. now rewrite setbits_In. }
           assert (Ec : setbits c i = lost m n i).
           { apply eq_true_iff_eq. now rewrite setbits_In. }
           rewrite Ea, Ec. unfold lost. destruct (bit n i), (bit m i); reflexivity.
        -- intros j Hj. apply Sa in Hj. now apply andb_true_iff in Hj.
        -- intros j Hj. apply Sc in Hj. apply andb_true_iff in Hj. now apply negb_true_iff.
      * apply in_prod; apply combinations_In; split; auto; apply subseq_of_filter.
Qed.

(** ** sorting by key *)
Lemma insert_key_perm : forall {A} (f : A -> Z) x l, Permutation (insert_key f x l) (x :: l).
Proof.
  induction l as [|y l IH]; simpl; auto. destruct (f x <=? f y)%Z; auto. rewrite IH. apply perm_swap.
Qed.
Lemma sorted_key_perm : forall {A} (f : A -> Z) l, Permutation (sorted_key f l) l.
Proof. induction l as [|x l IH]; simpl; auto. rewrite insert_key_perm. now constructor. Qed.
Lemma sorted_key_rev_perm : forall {A} (f : A -> Z) l, Permutation (sorted_key_rev f l) l.
Proof. intros. apply sorted_key_perm. Qed.

(** ** the filter *)
Lemma has_spin2_unique : forall n k s s', has_spin2 n k s -> has_spin2 n k s' -> s = s'.
Proof.
  intros n k s s' (a & b & Ha & Hb & ->) (a' & b' & Ha' & Hb' & ->).
  now rewrite (counts_unique _ _ _ Ha Ha'), (counts_unique _ _ _ Hb Hb').
Qed.

Lemma satisfies_spec : forall n ns spin2 sen h, (0 < ns)%Z ->
  exists b, satisfies_conditions n ns spin2 sen h = Ok b /\
            (b = true <-> wanted_sd h n (Z.to_nat ns) spin2 sen).
Proof.
  intros n ns spin2 sen h Hns.
  destruct (spin_summary n ns Hns) as (na & nb & d & v & C1 & C2 & C3 & _ & S & V & _).
  assert (Hs : has_spin2 n (Z.to_nat ns) (Z.of_nat na - Z.of_nat nb)) by (exists na, nb; auto).
  assert (Sp : forall x, (x =? Z.of_nat na - Z.of_nat nb)%Z = true <-> has_spin2 n (Z.to_nat ns) x).
  { intros x. rewrite Z.eqb_eq. split; [now intros ->|]. intros H. eapply has_spin2_unique; eauto. }
  unfold satisfies_conditions. rewrite S. cbn [bind]. destruct h; cbn [wanted_sd].
  - destruct (match spin2 with None => true | Some x => _ end) eqn:E.
    + rewrite V. cbn [bind]. eexists. split; [reflexivity|].
      assert (X : spin2 = Some 2%Z \/ spin_is n (Z.to_nat ns) spin2).
      { destruct spin2 as [x|]; [|right; intros s Q; discriminate].
        apply orb_true_iff in E as [E|E].
        - left. apply Z.eqb_eq in E. now subst.
        - right. intros s [= <-]. now apply Sp. }
      unfold wanted_h. split.
      * intros B. split; auto. destruct sen as [y|]; [|discriminate]. apply Z.eqb_eq in B. subst. eauto.
      * intros [_ (w & -> & W)]. rewrite (counts_unique _ _ _ W C3). apply Z.eqb_refl.
    + eexists. split; [reflexivity|]. split; [discriminate|]. intros [X _].
      destruct spin2 as [x|]; [|discriminate]. apply orb_false_iff in E as [E1 E2].
      destruct X as [[= ->]|X]; [discriminate|].
      specialize (X x eq_refl). apply Sp in X. congruence.
  - destruct (match spin2 with None => true | Some x => _ end) eqn:E.
    + assert (X : spin_is n (Z.to_nat ns) spin2).
      { intros s ->. now apply Sp. }
      destruct sen as [y|].
      * rewrite V. cbn [bind]. eexists. split; [reflexivity|]. rewrite Z.leb_le. split.
        -- intros L. split; auto. intros y' [= <-]. eauto.
        -- intros [_ Y]. destruct (Y y eq_refl) as (w & W & L). now rewrite (counts_unique _ _ _ C3 W).
      * eexists. split; [reflexivity|]. split; auto. intros _. split; auto. intros y Q; discriminate.
    + eexists. split; [reflexivity|]. split; [discriminate|]. intros [X _].
      destruct spin2 as [x|]; [|discriminate]. specialize (X x eq_refl). apply Sp in X. congruence.
Qed.

(** boolean version of the filter *)
Definition sat (ns : Z) (spin2 sen : option Z) (h : bool) (m : N) : bool :=
  match satisfies_conditions m ns spin2 sen h with Ok b => b | Err _ => false end.

Lemma sat_eq : forall ns spin2 sen h m, (0 < ns)%Z ->
  satisfies_conditions m ns spin2 sen h = Ok (sat ns spin2 sen h m).
Proof.
  intros. unfold sat. destruct (satisfies_spec m ns spin2 sen h) as (b & -> & _); auto.
Qed.
Lemma sat_wanted : forall ns spin2 sen h m, (0 < ns)%Z ->
  sat ns spin2 sen h m = true <-> wanted_sd h m (Z.to_nat ns) spin2 sen.
Proof.
  intros. unfold sat. destruct (satisfies_spec m ns spin2 sen h) as (b & -> & W); auto.
Qed.

(** ** the loops *)
Definition room (limit : option Z) (count : Z) : Prop :=
  forall k, limit = Some k -> (count < k)%Z.
Definition take (limit : option Z) (count : Z) (l : list N) : list N :=
  match limit with None => l | Some k => firstn (Z.to_nat (k - count)) l end.

Lemma inner_spec : forall g ns limit spin2 sen h, (0 < ns)%Z -> forall prs,
  (forall p, In p prs -> excite (Some g) (fst p ++ snd p) = Ok (Some (moved g (fst p) (snd p)))) ->
  forall sds count, room limit count ->
  let F := filter (sat ns spin2 sen h) (map (fun p => moved g (fst p) (snd p)) prs) in
  sd_inner g ns limit spin2 sen h prs sds count
  = Ok (if match limit with Some k => (k <=? count + Z.of_nat (length F))%Z | None => false end
        then Done (sds ++ take limit count F)
        else More (sds ++ F) (count + Z.of_nat (length F))%Z).
Proof.
  intros g ns limit spin2 sen h Hns. induction prs as [|[a c] t IH]; intros Hex sds count R F.
  - subst F. cbn [sd_inner map filter length]. rewrite app_nil_r, Z.add_0_r.
    destruct limit as [k|]; auto. specialize (R k eq_refl). destruct (Z.leb_spec k count); auto. lia.
  - subst F. cbn [sd_inner map filter]. pose proof (Hex (a, c) (or_introl eq_refl)) as E.
    cbn [fst snd] in *. rewrite E. cbn [bind]. rewrite sat_eq by auto. cbn [bind].
    assert (Hex' : forall p, In p t -> excite (Some g) (fst p ++ snd p) = Ok (Some (moved g (fst p) (snd p)))).
    { intros; apply Hex; now right. }
    destruct (sat ns spin2 sen h (moved g a c)) eqn:B; cbn [negb].
    2:{ now apply IH. }
    set (F := filter (sat ns spin2 sen h) (map (fun p => moved g (fst p) (snd p)) t)) in *.
    destruct limit as [k|].
    + specialize (R k eq_refl). destruct (Z.eqb_spec (count + 1) k) as [Q|Q].
      * cbn [length]. destruct (Z.leb_spec k (count + Z.of_nat (S (length F)))); [|lia].
        cbn [take]. replace (Z.to_nat (k - count)) with 1 by lia. reflexivity.
      * rewrite IH; auto.
        2:{ intros k' [= <-]. lia. }
        cbn [length].
        replace (count + 1 + Z.of_nat (length F))%Z with (count + Z.of_nat (S (length F)))%Z by lia.
        destruct (Z.leb_spec k (count + Z.of_nat (S (length F)))).
        -- cbn [take]. replace (Z.to_nat (k - count)) with (S (Z.to_nat (k - (count + 1)))) by lia.
           cbn [firstn]. now rewrite <- app_assoc.
        -- now rewrite <- app_assoc.
    + rewrite IH; auto.
      2:{ intros k' Q. discriminate. }
      cbn [length]. rewrite <- app_assoc. do 2 f_equal. lia.
Qed.

Definition candidates (g : N) (occs virs : list nat) (orders : list Z) : list N :=
  flat_map (fun k => map (fun p => moved g (fst p) (snd p))
     (list_prod (combinations occs (Z.to_nat k)) (combinations virs (Z.to_nat k)))) orders.

Lemma outer_spec : forall g ns limit spin2 sen h occs virs, (0 < ns)%Z -> 
  (forall k a c, In (a, c) (list_prod (combinations occs k) (combinations virs k)) ->
     excite (Some g) (a ++ c) = Ok (Some (moved g a c))) ->
  forall orders sds count, room limit count -> (forall k, In k orders -> (0 <= k)%Z) ->
  sd_outer g ns limit spin2 sen h occs virs orders sds count
  = Ok (sds ++ take limit count (filter (sat ns spin2 sen h) (candidates g occs virs orders))).
Proof.
  intros g ns limit spin2 sen h occs virs Hns Hex.
  induction orders as [|k t IH]; intros sds count R Hk.
  - cbn [sd_outer candidates flat_map filter]. destruct limit as [q|]; cbn [take]; rewrite ?firstn_nil, ?app_nil_r; auto.
  - cbn [sd_outer]. assert (0 <= k)%Z by (apply Hk; now left). destruct (Z.ltb_spec k 0); [lia|].
    rewrite inner_spec; auto.
    2:{ intros [a c] Hp. cbn [fst snd]. eapply Hex; eauto. }
    cbn [bind]. unfold candidates. cbn [flat_map]. fold (candidates g occs virs t).
    rewrite filter_app.
    set (F := filter (sat ns spin2 sen h) (map _ (list_prod (combinations occs (Z.to_nat k)) _))).
    assert (Hk' : forall k, In k t -> (0 <= k)%Z) by (intros; apply Hk; now right).
    destruct limit as [q|].
    + specialize (R q eq_refl). destruct (Z.leb_spec q (count + Z.of_nat (length F))).
      * cbn [take]. rewrite firstn_app. replace (Z.to_nat (q - count) - length F) with 0 by lia.
        rewrite firstn_O, app_nil_r. reflexivity.
      * rewrite IH; auto.
        2:{ intros q' [= <-]. lia. }
        cbn [take]. rewrite firstn_app, (firstn_all2 F) by lia. rewrite <- app_assoc. do 4 f_equal. lia.
    + rewrite IH; auto.
      2:{ intros q' Q. discriminate. }
      cbn [take]. now rewrite app_assoc.
Qed.

(** ** the whole function *)
Definition orders_of (nelec : Z) (exc_orders : option (list Z)) : list Z :=
  match exc_orders with None => map (fun i => Z.of_nat (i + 1)) (range nelec) | Some l => l end.
Definition consistent (num_limit spin2 seniority : option Z) : Prop :=
  (forall k, num_limit = Some k -> (0 < k)%Z) /\
  (forall s v, spin2 = Some s -> seniority = Some v -> (Z.abs s <= v)%Z).

Definition occs_of (nspin : Z) (g : N) := sorted_key_rev (spatial_key (nspin / 2)) (occ_indices (Some g)).
Definition virs_of (nspin : Z) (g : N) := sorted_key (spatial_key (nspin / 2)) (vir_indices (Some g) nspin).

Lemma occs_of_spec : forall nspin g, NoDup (occs_of nspin g) /\ forall i, In i (occs_of nspin g) <-> bit g i = true.
Proof.
  intros nspin g. pose proof (sorted_key_rev_perm (spatial_key (nspin / 2)) (occ_indices (Some g))) as P.
  fold (occs_of nspin g) in P. split.
  - eapply Permutation_NoDup; [symmetry; exact P|]. apply increasing_NoDup, occ_indices_increasing.
  - intros i. rewrite <- occ_indices_In. split; apply Permutation_in; auto. now symmetry.
Qed.
Lemma virs_of_spec : forall nspin g, (0 <= nspin)%Z -> NoDup (virs_of nspin g) /\
  forall i, In i (virs_of nspin g) <-> i < Z.to_nat nspin /\ bit g i = false.
Proof.
  intros nspin g H. pose proof (sorted_key_perm (spatial_key (nspin / 2)) (vir_indices (Some g) nspin)) as P.
  fold (virs_of nspin g) in P. remember (virs_of nspin g) as V.
  replace nspin with (Z.of_nat (Z.to_nat nspin)) in P by lia. rewrite vir_indices_filter in P. split.
  - eapply Permutation_NoDup; [symmetry; exact P|]. apply NoDup_filter, seq_NoDup.
  - intros i. rewrite (Permutation_in' eq_refl P). rewrite filter_In, in_seq, negb_true_iff. split; intros [? ?]; split; auto; lia.
Qed.

Lemma pairs_excite : forall nspin g k a c, (0 <= nspin)%Z ->
  In (a, c) (list_prod (combinations (occs_of nspin g) k) (combinations (virs_of nspin g) k)) ->
  excite (Some g) (a ++ c) = Ok (Some (moved g a c)).
Proof.
  intros nspin g k a c Hn Hp. apply in_prod_iff in Hp as [H1 H2].
  destruct (occs_of_spec nspin g) as [O1 O2]. destruct (virs_of_spec nspin g Hn) as [V1 V2].
  apply combinations_In in H1 as [S1 L1]. apply combinations_In in H2 as [S2 L2].
  apply moved_excite; try lia.
  - eapply subseq_NoDup; eauto.
  - eapply subseq_NoDup; eauto.
  - intros i Hi. apply O2. eapply subseq_incl; eauto.
  - intros i Hi. apply V2. eapply subseq_incl; eauto.
Qed.

Lemma sd_list_value : forall nelec nspin limit exc spin2 sen h g,
  consistent limit spin2 sen -> ground nelec nspin = Ok g ->
  (forall k, In k (orders_of nelec exc) -> (0 <= k)%Z) ->
  let F := filter (sat (nspin / 2) spin2 sen h)
             (candidates g (occs_of nspin g) (virs_of nspin g) (orders_of nelec exc)) in
  sd_list nelec nspin limit exc spin2 sen h
  = Ok ((if sat (nspin / 2) spin2 sen h g then [g] else []) ++ take limit 1 F).
Proof.
  intros nelec nspin limit exc spin2 sen h g [C1 C2] G Hk F. unfold sd_list.
  fold (orders_of nelec exc).
  assert (L0 : match limit with Some k => (k <=? 0)%Z | None => false end = false).
  { destruct limit as [k|]; auto. specialize (C1 k eq_refl). apply Z.leb_gt. lia. }
  assert (S0 : match spin2, sen with Some s, Some v => (v <? Z.abs s)%Z | _, _ => false end = false).
  { destruct spin2 as [s|]; auto. destruct sen as [v|]; auto. specialize (C2 s v eq_refl eq_refl).
    apply Z.ltb_ge. lia. }
  rewrite L0, S0, G. cbn [bind].
  pose proof (ground_value _ _ _ G) as (B & [q Ev] & _).
  assert (Hns : (0 < nspin / 2)%Z) by (rewrite Ev, Z.mul_comm, Z.div_mul; lia).
  rewrite sat_eq by auto. cbn [bind].
  fold (occs_of nspin g) (virs_of nspin g).
  destruct limit as [k|].
  - specialize (C1 k eq_refl). destruct (Z.eqb_spec k 1) as [->|K].
    + cbn [take]. simpl. now rewrite app_nil_r.
    + rewrite outer_spec; auto.
      * intros k' a c. apply pairs_excite. lia.
      * intros k' [= <-]. lia.
  - rewrite outer_spec; auto.
    + intros k' a c. apply pairs_excite. lia.
    + intros k' Q. discriminate.
Qed.

Lemma candidates_In : forall nspin g orders m, (0 <= nspin)%Z -> fits g (Z.to_nat nspin) ->
  (forall k, In k orders -> (0 <= k)%Z) ->
  In m (candidates g (occs_of nspin g) (virs_of nspin g) orders) <->
  exists k, In (Z.of_nat k) orders /\ fits m (Z.to_nat nspin) /\ excitation g m k.
Proof.
  intros nspin g orders m Hn F Hk. unfold candidates. rewrite in_flat_map.
  destruct (occs_of_spec nspin g) as [O1 O2]. destruct (virs_of_spec nspin g Hn) as [V1 V2].
  split.
  - intros (k & H & Hm). exists (Z.to_nat k). rewrite Z2Nat.id by auto. split; auto.
    now apply (moved_exact g (Z.to_nat nspin) (Z.to_nat k)) in Hm.
  - intros (k & H & Hm). exists (Z.of_nat k). split; auto. rewrite Nat2Z.id.
    now apply (moved_exact g (Z.to_nat nspin) k).
Qed.

Lemma excitation_unique : forall g m k k', excitation g m k -> excitation g m k' -> k = k'.
Proof. intros g m k k' [H _] [H' _]. eapply counts_unique; eauto. Qed.

Lemma excitation_0 : forall g m, excitation g m 0 <-> m = g.
Proof.
  intros g m. split.
  - intros [(l & _ & H & L) (l' & _ & H' & L')]. destruct l; [|discriminate]. destruct l'; [|discriminate].
    apply bit_ext. intros i. specialize (H i). specialize (H' i). unfold lost in *. simpl in *.
    destruct (bit g i), (bit m i); simpl in *; auto; tauto.
  - intros ->. assert (H : forall i, lost g g i = false) by (intros; unfold lost; apply andb_negb_r).
    split; exists []; repeat split; auto; try constructor; rewrite ?H; simpl; try tauto; discriminate.
Qed.

Lemma NoDup_flat_map : forall {A B} (f : A -> list B) l, NoDup l ->
  (forall x, In x l -> NoDup (f x)) ->
  (forall x y b, In x l -> In y l -> In b (f x) -> In b (f y) -> x = y) -> NoDup (flat_map f l).
Proof.
  induction l as [|x l IH]; intros N H D; simpl; [constructor|]. inversion N; subst.
  apply NoDup_app_intro'.
  - apply H. now left.
  - apply IH; auto.
    + intros; apply H; now right.
    + intros; eapply D; eauto; now right.
  - intros b Hb Hb'. apply in_flat_map in Hb' as (y & Hy & Hb').
    assert (x = y) by (eapply D; eauto; [now left|now right]). subst. contradiction.
Qed.

Lemma candidates_NoDup : forall nspin g orders, (0 <= nspin)%Z -> fits g (Z.to_nat nspin) ->
  (forall k, In k orders -> (0 <= k)%Z) -> NoDup orders ->
  NoDup (candidates g (occs_of nspin g) (virs_of nspin g) orders).
Proof.
  intros nspin g orders Hn F Hk N. unfold candidates.
  destruct (occs_of_spec nspin g) as [O1 O2]. destruct (virs_of_spec nspin g Hn) as [V1 V2].
  apply NoDup_flat_map; auto.
  - intros k _. now apply (moved_exact g (Z.to_nat nspin) (Z.to_nat k)).
  - intros k k' m I1 I2 H1 H2.
    apply (moved_exact g (Z.to_nat nspin) (Z.to_nat k)) in H1; auto.
    apply (moved_exact g (Z.to_nat nspin) (Z.to_nat k')) in H2; auto.
    destruct H1 as [_ H1]. destruct H2 as [_ H2].
    pose proof (excitation_unique _ _ _ _ H1 H2). pose proof (Hk k I1). pose proof (Hk k' I2). lia.
Qed.

(** determinants with the same number of electrons differ by an excitation *)
Lemma same_electrons_excitation : forall g m ne k, fits g k -> fits m k ->
  has_electrons g ne -> has_electrons m ne -> exists j, j <= ne /\ excitation g m j.
Proof.
  intros g m ne k Fg Fm Eg Em.
  pose proof (counts_filter (lost g m) k) as C1. pose proof (counts_filter (lost m g) k) as C2.
  assert (A : length (filter (bit g) (seq 0 k)) = ne).
  { apply counts_filter_len; auto. }
  assert (B : length (filter (bit m) (seq 0 k)) = ne).
  { apply counts_filter_len; auto. }
  assert (X : forall l, length (filter (lost g m) l) + length (filter (bit m) l)
              = length (filter (lost m g) l) + length (filter (bit g) l) /\ 
              length (filter (lost g m) l) <= length (filter (bit g) l)).
  { induction l as [|x l IH]; auto. cbn [filter]. unfold lost in *.
    destruct (bit g x), (bit m x); cbn [andb negb length]; lia. }
  destruct (X (seq 0 k)) as [X1 X2].
  exists (length (filter (lost g m) (seq 0 k))). split; [lia|]. split.
  - apply C1. intros i Hi. unfold lost. now rewrite Fg.
  - replace (length (filter (lost g m) (seq 0 k))) with (length (filter (lost m g) (seq 0 k))) by lia.
    apply C2. intros i Hi. unfold lost. now rewrite Fm.
Qed.

Lemma excitation_electrons : forall g m ne k, fits g k -> fits m k ->
  has_electrons g ne -> (exists j, excitation g m j) -> has_electrons m ne.
Proof.
  intros g m ne k Fg Fm Eg [j [C1 C2]].
  assert (A : length (filter (bit g) (seq 0 k)) = ne).
  { apply counts_filter_len; auto. }
  assert (D1 : length (filter (lost g m) (seq 0 k)) = j).
  { apply counts_filter_len; auto. intros i Hi. unfold lost. now rewrite Fg. }
  assert (D2 : length (filter (lost m g) (seq 0 k)) = j).
  { apply counts_filter_len; auto. intros i Hi. unfold lost. now rewrite Fm. }
  assert (X : forall l, length (filter (lost g m) l) + length (filter (bit m) l)
              = length (filter (lost m g) l) + length (filter (bit g) l)).
  { induction l as [|x l IH]; auto. cbn [filter]. unfold lost in *.
    destruct (bit g x), (bit m x); cbn [andb negb length]; lia. }
  specialize (X (seq 0 k)).
  replace ne with (nbelow m k) by (unfold nbelow; lia). now apply has_electrons_fits.
Qed.

(** number of determinants of [ne] electrons in [k] orbitals *)
Lemma count_dets : forall k ne l, NoDup l ->
  (forall m, In m l <-> fits m k /\ has_electrons m ne) -> length l = binom k ne.
Proof.
  intros k ne l N H.
  assert (P : Permutation l (map maskN (combinations (seq 0 k) ne))).
  { apply NoDup_Permutation; auto.
    - apply NoDup_map_inj; [|apply combinations_NoDup, seq_NoDup].
      intros a b Ha Hb E. apply combinations_In in Ha as [Ha _]. apply combinations_In in Hb as [Hb _].
      apply (combo_ext (seq 0 k)); auto; [apply seq_NoDup|]. intros i. rewrite <- !bit_maskN. now rewrite E.
    - intros m. rewrite H, in_map_iff. split.
      + intros [F E]. exists (filter (bit m) (seq 0 k)). split.
        * apply bit_ext. intros i. rewrite bit_maskN. apply eq_true_iff_eq. rewrite setbits_In, filter_In, in_seq.
          split; [tauto|]. intros B. split; auto. destruct (Nat.lt_ge_cases i k); [lia|].
          rewrite F in B by auto. discriminate.
        * apply combinations_In. split; [apply subseq_of_filter|].
          apply counts_filter_len; auto.
      + intros (c & <- & Hc). apply combinations_In in Hc as [S L]. split.
        * intros i Hi. rewrite bit_maskN. apply setbits_notIn. intros X.
          apply (subseq_incl _ _ S), in_seq in X. lia.
        * exists c. split; [|split; [|exact L]].
          -- eapply subseq_NoDup; eauto. apply seq_NoDup.
          -- intros i. rewrite bit_maskN. symmetry. apply setbits_In. }
  rewrite (Permutation_length P), map_length, combinations_length, seq_length. reflexivity.
Qed.

(** a successful run has only consumed nonnegative orders *)
Lemma outer_prefix : forall g ns limit spin2 sen h occs virs orders sds count l,
  sd_outer g ns limit spin2 sen h occs virs orders sds count = Ok l ->
  exists pre, incl pre orders /\ (forall k, In k pre -> (0 <= k)%Z) /\
    sd_outer g ns limit spin2 sen h occs virs pre sds count = Ok l.
Proof.
  induction orders as [|k t IH]; intros sds count l H.
  - exists []. split; [intros x []|]. split; [intros x []|]. exact H.
  - cbn [sd_outer] in H. destruct (Z.ltb_spec k 0); [discriminate|].
    destruct (sd_inner _ _ _ _ _ _ _ sds count) as [[l'|l' c]|e] eqn:E; cbn [bind] in H; [| |discriminate].
    + exists [k]. split; [intros x [<-|[]]; now left|]. split; [intros x [<-|[]]; auto|].
      cbn [sd_outer]. destruct (Z.ltb_spec k 0); [lia|]. now rewrite E.
    + apply IH in H as (pre & I1 & I2 & H). exists (k :: pre). split; [|split].
      * intros x [<-|Hx]; [now left|right; auto].
      * intros x [<-|Hx]; auto.
      * cbn [sd_outer]. destruct (Z.ltb_spec k 0); [lia|]. rewrite E. exact H.
Qed.

Lemma sd_list_ok_inv : forall nelec nspin limit exc spin2 sen h l,
  sd_list nelec nspin limit exc spin2 sen h = Ok l ->
  consistent limit spin2 sen /\ (exists g, ground nelec nspin = Ok g) /\
  exists pre, incl pre (orders_of nelec exc) /\ (forall k, In k pre -> (0 <= k)%Z) /\
     sd_list nelec nspin limit (Some pre) spin2 sen h = Ok l.
Proof.
  intros nelec nspin limit exc spin2 sen h l H. unfold sd_list in H. fold (orders_of nelec exc) in H.
  destruct (match limit with Some k => (k <=? 0)%Z | None => false end) eqn:L0; [discriminate|].
  destruct (match spin2, sen with Some s, Some v => (v <? Z.abs s)%Z | _, _ => false end) eqn:S0; [discriminate|].
  destruct (ground nelec nspin) as [g|e] eqn:G; [|discriminate]. cbn [bind] in H.
  split; [|split; [eauto|]].
  - split.
    + intros k ->. apply Z.leb_gt in L0. lia.
    + intros s v -> ->. apply Z.ltb_ge in S0. lia.
  - destruct (satisfies_conditions g _ _ _ _) as [c|e] eqn:C; [|discriminate]. cbn [bind] in H.
    destruct (match limit with Some k => (k =? 1)%Z | None => false end) eqn:K1.
    + exists []. split; [intros x []|]. split; [intros x []|].
      unfold sd_list. rewrite L0, S0, G. cbn [bind]. rewrite C. cbn [bind]. now rewrite K1.
    + apply outer_prefix in H as (pre & I1 & I2 & H). exists pre. repeat split; auto.
      unfold sd_list. rewrite L0, S0, G. cbn [bind]. rewrite C. cbn [bind]. now rewrite K1.
Qed.

Lemma take_incl : forall limit c l, incl (take limit c l) l.
Proof. intros [k|] c l x; cbn [take]; auto. rewrite <- (firstn_skipn (Z.to_nat (k - c)) l) at 2. intros. apply in_or_app. auto. Qed.

Lemma ground_aufbau : forall nelec nspin g, ground nelec nspin = Ok g ->
  is_aufbau g (Z.to_nat nelec) (Z.to_nat nspin / 2).
Proof.
  intros nelec nspin g G. apply ground_value in G as ([H1 H2] & E & B). intros i. rewrite B.
  unfold is_aufbau. do 1 f_equal.
  - rewrite Z2Nat.inj_div by lia. f_equal; lia.
  - rewrite Z2Nat.inj_div by lia. reflexivity.
  - rewrite Z2Nat.inj_div by lia. reflexivity.
Qed.

Lemma half_nat : forall nspin, (0 <= nspin)%Z -> Z.to_nat (nspin / 2) = Z.to_nat nspin / 2.
Proof. intros. rewrite Z2Nat.inj_div by lia. reflexivity. Qed.
