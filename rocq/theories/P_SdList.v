(** Properties C16-C18: lists of Slater determinants. *)
From Coq Require Import List ZArith NArith Bool Lia Sorted Permutation Arith.
From Verif Require Import Py BitSpec BitLemmas Slater SlaterBits SlaterBits2 Combos BulkLemmas SdList
  SdSpec SdLemmas SdOrder.
Import ListNotations.

(** C16: everything that is returned is wanted *)
Theorem C16_sound : forall nelec nspin limit exc spin2 sen h l m,
  sd_list nelec nspin limit exc spin2 sen h = Ok l -> In m l ->
  has_electrons m (Z.to_nat nelec) /\ fits m (Z.to_nat nspin) /\
  wanted_sd h m (Z.to_nat nspin / 2) spin2 sen /\
  exists g, is_aufbau g (Z.to_nat nelec) (Z.to_nat nspin / 2) /\
    (m = g \/ exists k, excitation g m k /\
       match exc with Some orders => In (Z.of_nat k) orders | None => 1 <= k <= Z.to_nat nelec end).
Proof.
  intros nelec nspin limit exc spin2 sen h l m H Hm.
  apply sd_list_ok_inv in H as (C & (g & G) & pre & I1 & I2 & H).
  rewrite (sd_list_value _ _ _ _ _ _ _ g) in H by auto. apply Ok_inj in H. subst l.
  pose proof (ground_value _ _ _ G) as (B & [q Ev] & _).
  destruct (ground_electrons _ _ _ G) as [E F].
  assert (Hns : (0 < nspin / 2)%Z) by (rewrite Ev, Z.mul_comm, Z.div_mul; lia).
  assert (Sat : forall x, sat (nspin / 2) spin2 sen h x = true ->
                wanted_sd h x (Z.to_nat nspin / 2) spin2 sen).
  { intros x Hx. apply sat_wanted in Hx; auto. now rewrite half_nat in Hx by lia. }
  apply in_app_or in Hm as [Hm|Hm].
  - destruct (sat (nspin / 2) spin2 sen h g) eqn:S; [|destruct Hm]. destruct Hm as [<-|[]].
    repeat split; auto. exists g. split; [now apply ground_aufbau|auto].
  - apply take_incl, filter_In in Hm as [Hm S].
    apply candidates_In in Hm as (k & Hk & Fm & X); auto; [|lia].
    split; [|split; [auto|split; [auto|]]].
    + eapply excitation_electrons; eauto.
    + exists g. split; [now apply ground_aufbau|]. right. exists k. split; auto.
      apply I1 in Hk. destruct exc as [orders|]; auto.
      cbn [orders_of] in Hk. apply in_map_iff in Hk as (i & Hi & Hr). unfold range in Hr. apply in_seq in Hr. lia.
Qed.
Print Assumptions C16_sound.

(** the hierarchy flag makes spin = 1 mean "any spin": the spin claim fails there *)
Theorem C16_hierarchy_spin_refuted :
  sd_list 2 4 None None (Some 2%Z) (Some 2%Z) true = Ok [6; 12; 3; 9]%N /\
  get_spin2 6 2 = Ok 0%Z.
Proof. vm_compute. split; reflexivity. Qed.
Print Assumptions C16_hierarchy_spin_refuted.

Example C16_ex : sd_list 4 8 None (Some [1; 2]%Z) (Some 0%Z) (Some 0%Z) false
  = Ok [51; 85; 153; 102; 170]%N.
Proof. vm_compute. reflexivity. Qed.

(** C17: nothing is missing and nothing is listed twice *)
Theorem C17_complete : forall nelec nspin spin2 sen h,
  (0 < nelec <= nspin)%Z -> Z.Even nspin ->
  (forall s v, spin2 = Some s -> sen = Some v -> (Z.abs s <= v)%Z) ->
  exists l, sd_list nelec nspin None None spin2 sen h = Ok l /\ NoDup l /\
  forall m, In m l <->
    has_electrons m (Z.to_nat nelec) /\ fits m (Z.to_nat nspin) /\
    wanted_sd h m (Z.to_nat nspin / 2) spin2 sen.
Proof.
  intros nelec nspin spin2 sen h B Ev C.
  destruct (ground_defined _ _ B Ev) as [g G]. destruct (ground_electrons _ _ _ G) as [E F].
  assert (Hns : (0 < nspin / 2)%Z) by (destruct Ev as [q ->]; rewrite Z.mul_comm, Z.div_mul; lia).
  assert (Ho : forall k, In k (orders_of nelec None) -> (0 < k)%Z).
  { intros k Hk. cbn [orders_of] in Hk. apply in_map_iff in Hk as (i & <- & _). lia. }
  assert (Ho' : forall k, In k (orders_of nelec None) -> (0 <= k)%Z) by (intros k Hk; apply Ho in Hk; lia).
  assert (Hin : forall k, 1 <= k <= Z.to_nat nelec -> In (Z.of_nat k) (orders_of nelec None)).
  { intros k Hk. cbn [orders_of]. apply in_map_iff. exists (k - 1). split; [lia|]. unfold range. apply in_seq. lia. }
  rewrite (sd_list_value _ _ _ _ _ _ _ g); auto.
  2:{ split; auto. intros k Q; discriminate. }
  eexists. split; [reflexivity|]. cbn [take]. split.
  - apply NoDup_app_intro'.
    + destruct (sat _ _ _ _ _); repeat constructor; auto.
    + apply NoDup_filter, candidates_NoDup; auto; [lia|]. cbn [orders_of]. unfold range.
      apply NoDup_map_inj; [|apply seq_NoDup]. intros; lia.
    + intros m H1 H2. apply filter_In in H2 as [H2 _].
      apply candidates_In in H2 as (k & Hk & _ & X); auto; [|lia].
      assert (m = g) by (destruct (sat _ _ _ _ _); [destruct H1 as [->|[]]; auto|destruct H1]). subst m.
      assert (X0 : excitation g g 0) by now apply excitation_0.
      pose proof (excitation_unique _ _ _ _ X X0). subst. apply Ho in Hk. lia.
  - intros m. rewrite in_app_iff, filter_In, candidates_In, sat_wanted by (auto; lia).
    rewrite half_nat by lia. split.
    + intros [H|[(k & Hk & Fm & X) W]].
      * destruct (sat (nspin / 2) spin2 sen h g) eqn:S; [|destruct H]. destruct H as [<-|[]].
        repeat split; auto. apply sat_wanted in S; auto. now rewrite half_nat in S by lia.
      * split; [|split; auto]. apply (excitation_electrons g m _ (Z.to_nat nspin)); eauto.
    + intros (Em & Fm & W). destruct (same_electrons_excitation g m _ _ F Fm E Em) as (j & Hj & X).
      destruct j as [|j].
      * left. apply excitation_0 in X. subst m.
        assert (S : sat (nspin / 2) spin2 sen h g = true) by (apply sat_wanted; auto; now rewrite half_nat by lia).
        rewrite S. now left.
      * right. split; auto. exists (S j). repeat split; auto; [|apply X|apply X]. apply Hin. lia.
Qed.
Print Assumptions C17_complete.

(** distinct positive orders: exactly the determinants of those orders (and the ground) *)
Theorem C17_orders : forall nelec nspin orders spin2 sen h,
  (0 < nelec <= nspin)%Z -> Z.Even nspin ->
  (forall s v, spin2 = Some s -> sen = Some v -> (Z.abs s <= v)%Z) ->
  NoDup orders -> (forall k, In k orders -> (0 < k)%Z) ->
  exists g l, is_aufbau g (Z.to_nat nelec) (Z.to_nat nspin / 2) /\
  sd_list nelec nspin None (Some orders) spin2 sen h = Ok l /\ NoDup l /\
  forall m, In m l <->
    fits m (Z.to_nat nspin) /\ wanted_sd h m (Z.to_nat nspin / 2) spin2 sen /\
    (m = g \/ exists k, In (Z.of_nat k) orders /\ excitation g m k).
Proof.
  intros nelec nspin orders spin2 sen h B Ev C No Ho.
  destruct (ground_defined _ _ B Ev) as [g G]. destruct (ground_electrons _ _ _ G) as [E F].
  assert (Hns : (0 < nspin / 2)%Z) by (destruct Ev as [q ->]; rewrite Z.mul_comm, Z.div_mul; lia).
  assert (Ho' : forall k, In k orders -> (0 <= k)%Z) by (intros k Hk; apply Ho in Hk; lia).
  rewrite (sd_list_value _ _ _ _ _ _ _ g); auto.
  2:{ split; auto. intros k Q; discriminate. }
  exists g. eexists. split; [now apply ground_aufbau|]. split; [reflexivity|]. cbn [take orders_of]. split.
  - apply NoDup_app_intro'.
    + destruct (sat _ _ _ _ _); repeat constructor; auto.
    + apply NoDup_filter, candidates_NoDup; auto. lia.
    + intros m H1 H2. apply filter_In in H2 as [H2 _].
      apply candidates_In in H2 as (k & Hk & _ & X); auto; [|lia].
      assert (m = g) by (destruct (sat _ _ _ _ _); [destruct H1 as [->|[]]; auto|destruct H1]). subst m.
      assert (X0 : excitation g g 0) by now apply excitation_0.
      pose proof (excitation_unique _ _ _ _ X X0). subst. apply Ho in Hk. lia.
  - intros m. rewrite in_app_iff, filter_In, candidates_In, sat_wanted by (auto; lia).
    rewrite half_nat by lia. split.
    + intros [H|[(k & Hk & Fm & X) W]].
      * destruct (sat (nspin / 2) spin2 sen h g) eqn:S; [|destruct H]. destruct H as [<-|[]].
        repeat split; auto. apply sat_wanted in S; auto. now rewrite half_nat in S by lia.
      * repeat split; auto. right. eauto.
    + intros (Fm & W & [->|(k & Hk & X)]).
      * left. assert (S : sat (nspin / 2) spin2 sen h g = true) by (apply sat_wanted; auto; now rewrite half_nat by lia).
        rewrite S. now left.
      * right. split; auto. exists k. auto.
Qed.
Print Assumptions C17_orders.

(** the listing order: the ground determinant if wanted, then one block per requested order of
    excitation, and in each block the determinants by energy of the emptied and filled orbitals *)
Theorem C17_listing_order : forall nelec nspin exc spin2 sen h l,
  sd_list nelec nspin None exc spin2 sen h = Ok l ->
  (forall orders k, exc = Some orders -> In k orders -> (0 <= k)%Z) ->
  exists g first blocks, is_aufbau g (Z.to_nat nelec) (Z.to_nat nspin / 2) /\
    l = first ++ concat blocks /\ (first = [] \/ first = [g]) /\
    Forall2 (fun k b => (forall m, In m b -> excitation g m (Z.to_nat k)) /\
                        StronglySorted (det_before (Z.to_nat nspin / 2) g) b)
      (match exc with Some orders => orders | None => map Z.of_nat (seq 1 (Z.to_nat nelec)) end)
      blocks.
Proof.
  intros nelec nspin exc spin2 sen h l H Ho.
  destruct (sd_list_ok_inv _ _ _ _ _ _ _ _ H) as (C & (g & G) & _).
  pose proof (ground_value _ _ _ G) as (B & Ev & _). destruct (ground_electrons _ _ _ G) as [_ F].
  assert (O0 : forall k, In k (orders_of nelec exc) -> (0 <= k)%Z).
  { intros k Hk. destruct exc as [o|]; [now apply (Ho o)|]. cbn [orders_of] in Hk.
    apply in_map_iff in Hk as (i & <- & _). lia. }
  rewrite (sd_list_value _ _ _ _ _ _ _ g) in H; auto. apply Ok_inj in H.
  set (pr := fun k => list_prod (combinations (occs_of nspin g) (Z.to_nat k))
                        (combinations (virs_of nspin g) (Z.to_nat k))).
  set (blk := fun k => filter (sat (nspin / 2) spin2 sen h) (map (fun p => moved g (fst p) (snd p)) (pr k))).
  exists g, (if sat (nspin / 2) spin2 sen h g then [g] else []), (map blk (orders_of nelec exc)).
  split; [now apply ground_aufbau|]. split; [|split].
  - rewrite <- H. cbn [take]. f_equal. unfold candidates. clear H O0.
    induction (orders_of nelec exc) as [|k t IH]; [reflexivity|].
    cbn [flat_map map concat]. now rewrite filter_app, IH.
  - destruct (sat _ _ _ _ _); auto.
  - replace (match exc with Some _ => _ | None => _ end) with (orders_of nelec exc).
    + clear H O0. induction (orders_of nelec exc) as [|k t IH]; constructor; auto.
      split.
      * intros m Hm. apply filter_In in Hm as [Hm _].
        destruct (occs_of_spec nspin g) as [O1 O2]. destruct (virs_of_spec nspin g ltac:(lia)) as [V1 V2].
        apply (moved_exact g (Z.to_nat nspin) (Z.to_nat k) (occs_of nspin g) (virs_of nspin g)); auto.
      * apply SSo_filter. rewrite <- half_nat by lia. apply block_sorted. lia.
    + destruct exc as [o|]; [reflexivity|]. cbn [orders_of]. unfold range.
      rewrite <- seq_shift, map_map. apply map_ext. intros i. lia.
Qed.
Print Assumptions C17_listing_order.

(** without conditions there are C(nspin, nelec) determinants *)
Theorem C17_count : forall nelec nspin l,
  sd_list nelec nspin None None None None false = Ok l ->
  length l = binom (Z.to_nat nspin) (Z.to_nat nelec).
Proof.
  intros nelec nspin l H.
  destruct (sd_list_ok_inv _ _ _ _ _ _ _ _ H) as (_ & (g & G) & _).
  pose proof (ground_value _ _ _ G) as (B & Ev & _).
  destruct (C17_complete nelec nspin None None false B Ev) as (l' & E & N & I).
  { intros s v Q; discriminate. }
  rewrite H in E. apply Ok_inj in E. subst l'.
  apply count_dets; auto. intros m. rewrite I. split; [tauto|]. intros [F X].
  split; [auto|split; [auto|]]. split; intros y Q; discriminate.
Qed.
Print Assumptions C17_count.

(** invalid requests raise ValueError *)
Theorem C17_errors : forall nelec nspin limit orders spin2 sen h,
  (forall k, In k orders -> (0 <= k)%Z) ->
  (~ consistent limit spin2 sen \/ ~ ((0 < nelec <= nspin)%Z /\ Z.Even nspin)) ->
  sd_list nelec nspin limit (Some orders) spin2 sen h = Err ValueError.
Proof.
  intros nelec nspin limit orders spin2 sen h Ho X. unfold sd_list.
  destruct (match limit with Some k => (k <=? 0)%Z | None => false end) eqn:L0; auto.
  destruct (match spin2, sen with Some s, Some v => (v <? Z.abs s)%Z | _, _ => false end) eqn:S0; auto.
  destruct X as [X|X].
  - exfalso. apply X. split.
    + intros k ->. apply Z.leb_gt in L0. lia.
    + intros s v -> ->. apply Z.ltb_ge in S0. lia.
  - destruct (ground nelec nspin) as [g|e] eqn:G.
    + exfalso. apply X. apply ground_value in G. tauto.
    + cbn [bind]. f_equal. eapply ground_error; eauto.
Qed.
Print Assumptions C17_errors.

(** order 0 lists the ground determinant a second time *)
Theorem C17_order_zero_refuted :
  sd_list 2 4 None (Some [0; 1]%Z) None (Some 0%Z) false = Ok [5; 5]%N.
Proof. vm_compute. reflexivity. Qed.
Print Assumptions C17_order_zero_refuted.

Example C17_ex : exists l, sd_list 3 6 None None (Some 1%Z) None false = Ok l /\ length l = 9.
Proof. eexists. split; [vm_compute; reflexivity|reflexivity]. Qed.

(** double excitations were asked for first; in each block the highest electron leaves first *)
Example C17_listing_ex : sd_list 4 6 None (Some [2; 1]%Z) (Some 0%Z) (Some 2%Z) false
  = Ok [27; 45; 53; 46; 54; 29; 43; 30; 51]%N.
Proof. vm_compute. reflexivity. Qed.

(** C18: a limited list is a prefix of the unlimited one *)
Theorem C18_prefix : forall nelec nspin k exc spin2 sen h L, (0 < k)%Z ->
  sd_list nelec nspin None exc spin2 sen h = Ok L ->
  exists l rest, sd_list nelec nspin (Some k) exc spin2 sen h = Ok l /\ L = l ++ rest /\
    length l <= Z.to_nat k.
Proof.
  intros nelec nspin k exc spin2 sen h L Hk H.
  assert (Hn : forall j, In j (orders_of nelec exc) -> (0 <= j)%Z).
  { intros j Hj. unfold sd_list in H. fold (orders_of nelec exc) in H.
    destruct (match spin2, sen with Some s, Some v => (v <? Z.abs s)%Z | _, _ => false end) eqn:S0; [discriminate|].
    destruct (ground nelec nspin) as [g|]; [|discriminate]. cbn [bind] in H.
    destruct (satisfies_conditions _ _ _ _ _) as [c|]; [|discriminate]. cbn [bind] in H.
    revert H. generalize (if c then [g] else []). generalize 1%Z. induction (orders_of nelec exc) as [|x t IH]; [destruct Hj|].
    intros c0 s0 H. cbn [sd_outer] in H. destruct (Z.ltb_spec x 0); [discriminate|].
    destruct Hj as [->|Hj]; auto. destruct (sd_inner _ _ _ _ _ _ _ _ _) as [[l'|l' c']|e] eqn:E; cbn [bind] in H; [|eauto|discriminate].
    exfalso. clear - E. revert s0 c0 E. generalize (list_prod (combinations (sorted_key_rev (spatial_key (nspin / 2)) (occ_indices (Some g))) (Z.to_nat x))
          (combinations (sorted_key (spatial_key (nspin / 2)) (vir_indices (Some g) nspin)) (Z.to_nat x))).
    induction l as [|[a b] t IH]; intros s0 c0 E; cbn [sd_inner] in E; [discriminate|].
    destruct (excite (Some g) (a ++ b)) as [[m|]|]; cbn [bind] in E; try discriminate.
    destruct (satisfies_conditions _ _ _ _ _) as [[]|]; cbn [bind negb] in E; try discriminate; eauto. }
  destruct (sd_list_ok_inv _ _ _ _ _ _ _ _ H) as ([_ C] & (g & G) & _).
  rewrite (sd_list_value _ _ _ _ _ _ _ g) in H; auto.
  2:{ split; auto. intros q Q; discriminate. }
  apply Ok_inj in H. cbn [take] in H.
  rewrite (sd_list_value _ _ _ _ _ _ _ g); auto.
  2:{ split; auto. intros q [= <-]; auto. }
  set (F := filter _ _) in *. set (G0 := if sat _ _ _ _ _ then [g] else []) in *.
  exists (G0 ++ take (Some k) 1 F), (skipn (Z.to_nat (k - 1)) F). split; auto. split.
  - rewrite <- H, <- app_assoc. f_equal. cbn [take]. symmetry. apply firstn_skipn.
  - rewrite app_length. cbn [take]. pose proof (firstn_le_length (Z.to_nat (k - 1)) F).
    rewrite firstn_length. assert (length G0 <= 1) by (unfold G0; destruct (sat _ _ _ _ _); simpl; lia). lia.
Qed.
Print Assumptions C18_prefix.

(** exact length: the limit is used up when the aufbau determinant is wanted; otherwise one
    determinant fewer than allowed is returned *)
Theorem C18_length_partial : forall nelec nspin k exc spin2 sen h L l g, (0 < k)%Z ->
  sd_list nelec nspin None exc spin2 sen h = Ok L ->
  sd_list nelec nspin (Some k) exc spin2 sen h = Ok l ->
  (forall j, In j (orders_of nelec exc) -> (0 <= j)%Z) ->
  is_aufbau g (Z.to_nat nelec) (Z.to_nat nspin / 2) ->
  (wanted_sd h g (Z.to_nat nspin / 2) spin2 sen -> length l = Nat.min (Z.to_nat k) (length L)) /\
  (~ wanted_sd h g (Z.to_nat nspin / 2) spin2 sen -> length l = Nat.min (Z.to_nat k - 1) (length L)).
Proof.
  intros nelec nspin k exc spin2 sen h L l g' Hk H1 H2 Hn Hg.
  destruct (sd_list_ok_inv _ _ _ _ _ _ _ _ H1) as ([_ C] & (g & G) & _).
  assert (g' = g).
  { apply bit_ext. intros i. rewrite (ground_aufbau _ _ _ G i). apply Hg. }
  subst g'. pose proof (ground_value _ _ _ G) as (B & [q Ev] & _).
  assert (Hns : (0 < nspin / 2)%Z) by (rewrite Ev, Z.mul_comm, Z.div_mul; lia).
  rewrite (sd_list_value _ _ _ _ _ _ _ g) in H1; auto.
  2:{ split; auto. intros q' Q; discriminate. }
  rewrite (sd_list_value _ _ _ _ _ _ _ g) in H2; auto.
  2:{ split; auto. intros q' [= <-]; auto. }
  apply Ok_inj in H1. apply Ok_inj in H2. subst L l. cbn [take].
  rewrite <- half_nat by lia. rewrite <- sat_wanted by auto.
  set (F := filter _ _) in *. rewrite !app_length, firstn_length.
  destruct (sat _ _ _ _ g); cbn [length]; split; intros X; try congruence; try lia.
Qed.
Print Assumptions C18_length_partial.

(** full statement "min(k, length) determinants" fails when the ground is filtered out *)
Theorem C18_length_refuted :
  sd_list 2 4 (Some 1%Z) None (Some 2%Z) None false = Ok [] /\
  sd_list 2 4 None None (Some 2%Z) None false = Ok [3%N].
Proof. vm_compute. split; reflexivity. Qed.
Print Assumptions C18_length_refuted.

Example C18_ex : sd_list 2 4 (Some 3%Z) None None None false = Ok [5; 6; 12]%N /\
  sd_list 2 4 None None None None false = Ok [5; 6; 12; 3; 9; 10]%N.
Proof. vm_compute. split; reflexivity. Qed.
