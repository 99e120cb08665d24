(** Theorems on fanpy/tools/graphs.py (C19 - C23). *)
From Coq Require Import List ZArith Bool Lia Arith Permutation Sorted.
From Verif Require Import Py Slater SignSpec SignLemmas Graphs MatchSpec MatchLemmas GraphSpec
  BicliqueLemmas BicliqueMain CoinLemmas GeneralLemmas PartLemmas PartMain.
Import ListNotations.

(** ** C19 generate_complete_pmatch *)
Lemma cpm_even : forall h L sign, length L = 2 * h -> 0 < h ->
  generate_complete_pmatch L sign = cpm_rev (rev L) sign.
Proof.
  intros h L sign E H. unfold generate_complete_pmatch. rewrite E.
  rewrite Nat.mul_comm, Nat.mod_mul by lia. replace (Nat.ltb (h * 2) 2) with false by (symmetry; apply Nat.ltb_ge; lia).
  reflexivity.
Qed.

(** every yielded scheme is a perfect matching *)
Theorem C19_sound : forall h L sign ps s, length L = 2 * h -> 0 < h -> NoDup L ->
  In (ps, s) (generate_complete_pmatch L sign) -> perfect L ps.
Proof.
  intros h L sign ps s E H N Hi. rewrite (cpm_even h) in Hi by auto.
  destruct (cpm_rev_spec h (rev L) sign) as (A & _); [now rewrite rev_length|now apply NoDup_rev|].
  rewrite rev_involutive in A. destruct (A _ Hi) as (_ & k & Hk & _). eapply swaps_perm; exact Hk.
Qed.
Print Assumptions C19_sound.

(** every perfect matching is yielded, once *)
Theorem C19_complete : forall h L sign ps, length L = 2 * h -> 0 < h -> NoDup L -> perfect L ps ->
  exists qs s, In (qs, s) (generate_complete_pmatch L sign) /\ same_matching ps qs.
Proof.
  intros h L sign ps E H N P. rewrite (cpm_even h) by auto.
  destruct (cpm_rev_spec h (rev L) sign) as (_ & A & _); [now rewrite rev_length|now apply NoDup_rev|].
  rewrite rev_involutive in A. destruct (A ps P) as ([qs s] & Hq & S). eauto.
Qed.
Print Assumptions C19_complete.

Theorem C19_once : forall h L sign, length L = 2 * h -> 0 < h -> NoDup L ->
  pairwise_distinct same_matching (map fst (generate_complete_pmatch L sign)) /\
  length (generate_complete_pmatch L sign) = double_fact h.
Proof.
  intros h L sign E H N. rewrite (cpm_even h) by auto.
  destruct (cpm_rev_spec h (rev L) sign) as (_ & _ & A & B); [now rewrite rev_length|now apply NoDup_rev|].
  split; auto. eapply distinct_map; [exact A|]. auto.
Qed.
Print Assumptions C19_once.

(** the reported sign is [sign] times the parity of every way of undoing the pairing *)
Theorem C19_sign : forall h L sign ps s, length L = 2 * h -> 0 < h -> NoDup L ->
  In (ps, s) (generate_complete_pmatch L sign) ->
  exists s0, sign_to L ps s0 /\ s = (sign * s0)%Z.
Proof.
  intros h L sign ps s E H N Hi. rewrite (cpm_even h) in Hi by auto.
  destruct (cpm_rev_spec h (rev L) sign) as (A & _); [now rewrite rev_length|now apply NoDup_rev|].
  rewrite rev_involutive in A. destruct (A _ Hi) as (_ & k & Hk & Es). cbn [fst snd] in *.
  exists (pow_m1 k). split; auto. split; [eauto|]. intros k' Hk'. apply (swaps_parity k k' (flat ps) L); auto.
  eapply Permutation_NoDup; [symmetry; eapply swaps_perm; exact Hk|auto].
Qed.
Print Assumptions C19_sign.

Theorem C19_odd : forall L sign, Nat.odd (length L) = true \/ length L = 0 ->
  generate_complete_pmatch L sign = [([], sign)].
Proof.
  intros L sign [H|H]; unfold generate_complete_pmatch.
  - rewrite Nat.odd_spec in H. destruct H as [m ->]. rewrite Nat.add_comm, Nat.mul_comm, Nat.mod_add by lia. reflexivity.
  - rewrite H. reflexivity.
Qed.
Print Assumptions C19_odd.

Example C19_ex : generate_complete_pmatch [0; 1; 4; 7]%Z 1 =
  [([(0, 1); (4, 7)], 1); ([(0, 4); (1, 7)], -1); ([(0, 7); (1, 4)], 1)]%Z /\
  length (generate_complete_pmatch [5; 0; 1; 2; 9; 4]%Z (-1)) = 15 /\
  sign_to [0; 1; 4; 7]%Z [(0, 4); (1, 7)]%Z (-1).
Proof.
  split; [reflexivity|]. split; [reflexivity|].
  destruct (C19_sign 2 [0; 1; 4; 7]%Z 1%Z [(0, 4); (1, 7)]%Z (-1)%Z) as (s0 & A & B); auto.
  - repeat constructor; simpl; intuition discriminate.
  - right. now left.
  - rewrite Z.mul_1_l in B. now subst.
Qed.

(** ** C20 generate_biclique_pmatch *)
Theorem C20_matchings : forall one two ord d, one <> [] -> length one = length two -> NoDup (one ++ two) ->
  (ord = None \/ exists o, ord = Some o /\ StronglySorted Z.lt o) ->
  exists out, generate_biclique_pmatch one two ord d = Ok out /\
    length out = factorial (length two) /\
    (forall p, In p out -> bipartite one two (fst p)) /\
    (forall ps, bipartite one two ps -> exists p, In p out /\ Permutation ps (fst p)) /\
    pairwise_distinct (@Permutation (Z * Z)) (map fst out).
Proof.
  intros one two ord d Ne L N Ho.
  assert (Hs : exists orig, sign_perm (flat (combine one two)) ord d = Ok orig).
  { destruct Ho as [->|(o & -> & So)]; [apply sign_perm_None|]. unfold sign_perm.
    apply strictly_increasing_iff in So. rewrite So. eexists. reflexivity. }
  destruct Hs as [orig Hs].
  destruct (biclique_main one two ord d orig Ne L N Hs) as (out & E & Lo & A & B & C).
  exists out. split; auto. split; auto. pose proof N as N'. apply NoDup_app_iff in N' as (N1 & N2 & _).
  split; [|split].
  - intros p Hp. destruct (A p Hp) as (ys & k & -> & Sw & _). apply swaps_perm in Sw.
    assert (Ly : length one = length ys) by (rewrite L; symmetry; now apply Permutation_length).
    split; [now rewrite map_fst_combine|now rewrite map_snd_combine].
  - intros ps Hb. destruct (bipartite_combine _ _ _ Hb) as (ys & Py & Pp).
    apply B in Py. apply in_map_iff in Py as (p & Ep & Hp). exists p. split; auto. now rewrite Ep.
  - assert (Al : forall q, In q (map fst out) -> exists ys, q = combine one ys /\ length one = length ys).
    { intros q Hq. apply in_map_iff in Hq as (p & <- & Hp). destruct (A p Hp) as (ys & k & -> & Sw & _).
      exists ys. split; auto. rewrite L. symmetry. apply Permutation_length. eapply swaps_perm; eauto. }
    revert C Al. generalize (map fst out). intros l C Al. induction l as [|q l IH]; [constructor|].
    inversion C; subst. constructor; [|apply IH; auto; intros; apply Al; now right].
    rewrite Forall_forall. intros q' Hq' P. destruct (Al q ltac:(now left)) as (ys & -> & L1).
    destruct (Al q' ltac:(now right)) as (ys' & -> & L2).
    assert (ys = ys') by (apply (combine_perm_inj one); auto). subst ys'. contradiction.
Qed.
Print Assumptions C20_matchings.

(** the pairs are listed in the order of [one] *)
Theorem C20_order : forall one two d out p, one <> [] -> length one = length two -> NoDup (one ++ two) ->
  generate_biclique_pmatch one two None d = Ok out -> In p out ->
  exists ys, Permutation ys two /\ fst p = combine one ys.
Proof.
  intros one two d out p Ne L N E Hp. destruct (sign_perm_None (flat (combine one two)) d) as [orig Hs].
  destruct (biclique_main one two None d orig Ne L N Hs) as (out' & E' & _ & A & _). rewrite E in E'. apply Ok_inj in E'. subst.
  destruct (A p Hp) as (ys & k & -> & Sw & _). exists ys. split; auto. eapply swaps_perm; eauto.
Qed.
Print Assumptions C20_order.

Theorem C20_sign : forall one two d out p, one <> [] -> length one = length two -> NoDup (one ++ two) ->
  generate_biclique_pmatch one two None d = Ok out -> In p out ->
  sign_sorting d (flat (fst p)) (snd p).
Proof.
  intros one two d out p Ne L N E Hp. destruct (sign_perm_None (flat (combine one two)) d) as [orig Hs].
  destruct (biclique_main one two None d orig Ne L N Hs) as (out' & E' & _ & A & _). rewrite E in E'. apply Ok_inj in E'. subst.
  destruct (A p Hp) as (ys & k & -> & Sw & ->). now apply (biclique_sign one two d orig k ys).
Qed.
Print Assumptions C20_sign.

(** an explicit ordered set changes nothing when it is the sorted list of the indices *)
Theorem C20_ordered_set : forall one two o d, length one = length two -> NoDup (one ++ two) ->
  Permutation o (one ++ two) -> StronglySorted Z.lt o ->
  generate_biclique_pmatch one two (Some o) d = generate_biclique_pmatch one two None d.
Proof.
  intros one two o d L N P So. unfold generate_biclique_pmatch. rewrite flatten_flat.
  rewrite sign_perm_ord_None; auto.
  - eapply Permutation_NoDup; [symmetry; now apply flat_combine_perm|auto].
  - rewrite flat_combine_perm by auto. now symmetry.
Qed.
Print Assumptions C20_ordered_set.

(** inputs that are not two disjoint lists of equal length give the empty scheme *)
Theorem C20_degenerate : forall one two d,
  length one = 0 \/ length two = 0 \/ length one <> length two \/ ~ NoDup (one ++ two) ->
  generate_biclique_pmatch one two None d = Ok [([], 1%Z)].
Proof.
  intros one two d H. unfold generate_biclique_pmatch.
  destruct (sign_perm_None (flatten_pairs (combine one two)) d) as [s ->]. cbn [bind].
  destruct (Nat.eqb_spec (length one) 0); [reflexivity|]. destruct (Nat.eqb_spec (length two) 0); [reflexivity|]. cbn [orb].
  destruct (Nat.eqb_spec (length one) (length two)); [|reflexivity]. cbn [negb].
  destruct (Nat.ltb (sym_diff_size one two) (length (one ++ two))) eqn:E; [reflexivity|].
  apply sym_diff_full in E. intuition.
Qed.
Print Assumptions C20_degenerate.

Theorem C20_error : forall one two ord d,
  (exists e, generate_biclique_pmatch one two ord d = Err e) <->
  exists o, ord = Some o /\ ~ StronglySorted Z.lt o.
Proof.
  intros one two ord d. split.
  - intros [e H]. destruct ord as [o|].
    + exists o. split; auto. intros So. unfold generate_biclique_pmatch in H.
      assert (Hs : exists orig, sign_perm (flatten_pairs (combine one two)) (Some o) d = Ok orig).
      { unfold sign_perm. apply strictly_increasing_iff in So. rewrite So. eexists. reflexivity. }
      destruct Hs as [orig Hs]. rewrite Hs in H. cbn [bind] in H.
      destruct (Nat.eqb (length one) 0 || Nat.eqb (length two) 0); [discriminate|].
      destruct (negb _); [discriminate|]. destruct (Nat.ltb _ _); [discriminate|]. cbv zeta in H.
      destruct (machine_main (length two)) as (outs & W & _). rewrite W in H. discriminate.
    + unfold generate_biclique_pmatch in H.
      destruct (sign_perm_None (flatten_pairs (combine one two)) d) as [orig Hs]. rewrite Hs in H. cbn [bind] in H.
      destruct (Nat.eqb (length one) 0 || Nat.eqb (length two) 0); [discriminate|].
      destruct (negb _); [discriminate|]. destruct (Nat.ltb _ _); [discriminate|]. cbv zeta in H.
      destruct (machine_main (length two)) as (outs & W & _). rewrite W in H. discriminate.
  - intros (o & -> & So). exists ValueError. unfold generate_biclique_pmatch, sign_perm.
    destruct (strictly_increasing o) eqn:E; [apply strictly_increasing_iff in E; contradiction|reflexivity].
Qed.
Print Assumptions C20_error.

Example C20_ex : generate_biclique_pmatch [0; 1]%Z [2; 3]%Z None false =
    Ok [([(0, 2); (1, 3)], -1); ([(0, 3); (1, 2)], 1)]%Z /\
  (exists out, generate_biclique_pmatch [0; 1; 2; 3]%Z [9; 8; 7; 6]%Z None true = Ok out /\ length out = 24) /\
  generate_biclique_pmatch [0; 1]%Z [1; 3]%Z None false = Ok [([], 1%Z)] /\
  generate_biclique_pmatch [0; 1]%Z [2; 3]%Z (Some [1; 0]%Z) false = Err ValueError.
Proof. split; [reflexivity|]. split; [eexists; split; vm_compute; reflexivity|]. split; reflexivity. Qed.

(** ** C21 generate_unordered_partition *)
Definition positive (bsn : list (nat * nat)) : Prop := forall p, In p bsn -> 0 < fst p /\ 0 < snd p.

(** distributions into bins of bounded size, up to exchanging bins of one group *)
Theorem C21_distributions : forall bsn C, positive bsn -> StronglySorted Z.lt C ->
  exists out, generate_unordered_partition C bsn = Ok out /\
    (forall P, In P out -> distribution bsn C P) /\
    (forall Q, distribution bsn C Q -> exists P, In P out /\ same_dist bsn P Q) /\
    pairwise_distinct (same_dist bsn) out.
Proof.
  intros bsn C Pos So. destruct (gup_rev_spec bsn Pos (rev C)) as (out & E & A & B & D).
  { now rewrite rev_involutive. }
  rewrite rev_involutive in *. exists out. split; auto. split; [|split; auto].
  intros P HP. destruct (A P HP) as [G Pc]. split; auto. now apply good_caps.
Qed.
Print Assumptions C21_distributions.

(** bins of distinct sizes that hold the whole collection: set partitions with given block sizes *)
Theorem C21_partitions : forall bsn C, positive bsn -> NoDup (map fst bsn) -> StronglySorted Z.lt C ->
  list_sum (map (fun p => fst p * snd p) bsn) = length C ->
  exists out, generate_unordered_partition C bsn = Ok out /\
    (forall P, In P out -> Permutation (concat P) C /\ map (@length Z) P = capacities bsn) /\
    (forall Q, Permutation (concat Q) C -> Permutation (map (@length Z) Q) (capacities bsn) ->
       exists P, In P out /\ same_bins P Q) /\
    pairwise_distinct same_bins out.
Proof.
  intros bsn C Pos Nd So Cap. destruct (C21_distributions bsn C Pos So) as (out & E & A & B & D).
  exists out. split; auto.
  assert (Full : forall P, distribution bsn C P -> map (@length Z) P = capacities bsn).
  { intros P [Pc F]. apply caps_full; auto. rewrite capacities_sum, Cap. now apply Permutation_length. }
  split; [|split].
  - intros P HP. split; [apply (A P HP)|]. apply Full. auto.
  - intros Q Pc Pl. apply Permutation_sym, Permutation_map_inv in Pl as (Q' & El & PQ).
    destruct (B Q') as (P & HP & SD).
    { split.
      - rewrite <- Pc. clear - PQ. induction PQ; simpl; auto.
        + now apply Permutation_app_head.
        + rewrite !app_assoc. apply Permutation_app_tail, Permutation_app_comm.
        + etransitivity; eauto.
      - rewrite El. clear. induction Q'; simpl; constructor; auto. }
    exists P. split; auto. eapply same_bins_trans; [eapply same_dist_bins; eauto|].
    apply same_bins_perm. now symmetry.
  - assert (G : forall P, In P out -> map (@length Z) P = capacities bsn) by (intros; apply Full; auto).
    clear - D G Nd. induction D as [|P out F D IH]; constructor.
    + rewrite Forall_forall in *. intros Q HQ SB. apply (F Q HQ).
      apply same_bins_to_dist; auto; apply G; [now left|now right].
    + apply IH. intros; apply G; now right.
Qed.
Print Assumptions C21_partitions.

(** elements of a bin are increasing *)
Theorem C21_ordered : forall bsn C out P b, positive bsn -> StronglySorted Z.lt C ->
  generate_unordered_partition C bsn = Ok out -> In P out -> In b P -> StronglySorted Z.lt b.
Proof.
  intros bsn C out P b Pos So E HP Hb. destruct (gup_rev_spec bsn Pos (rev C)) as (out' & E' & A & _).
  { now rewrite rev_involutive. }
  unfold generate_unordered_partition in E. rewrite E in E'. apply Ok_inj in E'. subst.
  destruct (A P HP) as [G _]. clear - G Hb. induction G as [|s n bsn g r Lg (_ & Gs & _) G IH]; [destruct Hb|].
  apply in_app_or in Hb as [Hb|Hb]; auto. rewrite Forall_forall in Gs. auto.
Qed.
Print Assumptions C21_ordered.

(** a bin of size zero receives an element all the same *)
Theorem C21_size_zero_refuted : exists bsn C out P,
  generate_unordered_partition C bsn = Ok out /\ In P out /\ ~ distribution bsn C P.
Proof.
  exists [(0, 1)], [1%Z]. eexists. exists [[1%Z]]. split; [vm_compute; reflexivity|]. split; [now left|].
  intros [_ F]. inversion F; subst. simpl in H2. lia.
Qed.
Print Assumptions C21_size_zero_refuted.

(** two groups of zero bins in a row make the generator read beyond the bins *)
Theorem C21_no_bins_refuted : exists bsn C,
  generate_unordered_partition C bsn = Err IndexError.
Proof. exists [(1, 0); (2, 0)], [1%Z]. vm_compute. reflexivity. Qed.
Print Assumptions C21_no_bins_refuted.

(** groups of equal size are not recognised as exchangeable *)
Theorem C21_equal_sizes_refuted : exists bsn C out, positive bsn /\ StronglySorted Z.lt C /\
  generate_unordered_partition C bsn = Ok out /\ ~ pairwise_distinct same_bins out.
Proof.
  exists [(1, 1); (1, 1)], [1; 2]%Z. eexists. split; [|split; [|split; [vm_compute; reflexivity|]]].
  - intros p [<-|[<-|[]]]; simpl; lia.
  - repeat constructor; lia.
  - intros H. inversion H as [|? ? F _]; subst. inversion F as [|? ? N _]; subst. apply N.
    apply same_bins_perm, perm_swap.
Qed.
Print Assumptions C21_equal_sizes_refuted.

Example C21_ex : generate_unordered_partition [1; 2; 3]%Z [(2, 1); (1, 1)] =
    Ok [[[1; 2]; [3]]; [[1; 3]; [2]]; [[2; 3]; [1]]]%Z /\
  generate_unordered_partition [1; 2; 3; 4]%Z [(2, 2)] =
    Ok [[[1; 2]; [3; 4]]; [[1; 3]; [2; 4]]; [[1; 4]; [2; 3]]]%Z /\
  positive [(2, 1); (1, 1)].
Proof.
  split; [vm_compute; reflexivity|]. split; [vm_compute; reflexivity|].
  intros p [<-|[<-|[]]]; simpl; lia.
Qed.

(** ** C22 int_partition_recursive.  [fuel] only bounds the depth of the recursion; any larger fuel
    gives the same answer, so the recursion ends. *)
Theorem C22_payments : forall coins k total, k <= length coins ->
  (forall c, In c (firstn k coins) -> (0 < c)%Z) -> NoDup (firstn k coins) ->
  exists out, (forall fuel, Z.to_nat total + k < fuel -> int_partition fuel coins k total = Ok out) /\
    (forall p, In p out -> payment (firstn k coins) total p) /\
    (forall q, payment (firstn k coins) total q -> exists p, In p out /\ Permutation q p) /\
    pairwise_distinct (@Permutation Z) out.
Proof.
  intros coins k total Hk Pos N.
  destruct (int_partition_spec (S (Z.to_nat total + k)) coins k total Hk Pos N ltac:(lia)) as (out & E & A & B & C & _).
  exists out. split; [|auto]. intros fuel Hf. eapply int_partition_mono; [exact E|lia].
Qed.
Print Assumptions C22_payments.

Theorem C22_order : forall coins k total fuel out p, k <= length coins ->
  (forall c, In c (firstn k coins) -> (0 < c)%Z) -> StronglySorted Z.lt (firstn k coins) ->
  Z.to_nat total + k < fuel -> int_partition fuel coins k total = Ok out -> In p out -> StronglySorted Z.ge p.
Proof.
  intros coins k total fuel out p Hk Pos So Hf E Hp.
  assert (N : NoDup (firstn k coins)).
  { clear - So. induction So; constructor; auto. intros X. rewrite Forall_forall in H. apply H in X. lia. }
  destruct (int_partition_spec fuel coins k total Hk Pos N Hf) as (out' & E' & _ & _ & _ & D).
  rewrite E in E'. apply Ok_inj in E'. subst. auto.
Qed.
Print Assumptions C22_order.

Theorem C22_too_many : forall coins k total fuel, length coins < k -> (0 < total)%Z -> 0 < fuel ->
  int_partition fuel coins k total = Err IndexError.
Proof.
  intros coins k total fuel Hk Ht Hf. destruct fuel; [lia|]. cbn [int_partition].
  replace (total <=? 0)%Z with false by (symmetry; apply Z.leb_gt; lia).
  destruct k as [|k]; [lia|]. replace (nth_error coins k) with (@None Z); [reflexivity|].
  symmetry. apply nth_error_None. lia.
Qed.
Print Assumptions C22_too_many.

Example C22_ex : int_partition 20 [1; 2; 5]%Z 3 6 =
  Ok [[5; 1]; [2; 2; 2]; [2; 2; 1; 1]; [2; 1; 1; 1; 1]; [1; 1; 1; 1; 1; 1]]%Z /\
  payment [1; 2; 5]%Z 6 [1; 5]%Z.
Proof. split; [vm_compute; reflexivity|]. split; [intros x [<-|[<-|[]]]; simpl; auto|reflexivity]. Qed.

(** ** C23 generate_general_pmatch *)
Lemma vadj_enumerate : forall L conn x y, vadj (enumerate L) conn x y <-> adj L conn x y.
Proof.
  intros L conn x y.
  assert (G : forall i z, In (i, z) (enumerate L) <-> nth_error L i = Some z).
  { intros i z. unfold enumerate. assert (H : forall o, In (i, z) (combine (seq o (length L)) L) <-> o <= i /\ nth_error L (i - o) = Some z).
    { induction L as [|a L IH]; intros o; simpl.
      - split; [tauto|]. intros [_ H]. destruct (i - o); discriminate.
      - rewrite IH. split.
        + intros [[= -> ->]|[H1 H2]]; [split; auto; now rewrite Nat.sub_diag|]. split; [lia|].
          replace (i - o) with (S (i - S o)) by lia. exact H2.
        + intros [H1 H2]. destruct (i - o) eqn:D.
          * left. simpl in H2. injection H2 as ->. f_equal. lia.
          * right. split; [lia|]. replace (i - S o) with n by lia. exact H2. }
    rewrite H, Nat.sub_0_r. split; [tauto|]. split; auto; lia. }
  unfold vadj, adj. split; intros (i & j & A & B & C); exists i, j; rewrite ?G in *; auto; rewrite <- ?G in *; auto.
Qed.

Lemma map_snd_enumerate : forall L : list Z, map snd (enumerate L) = L.
Proof. intros. unfold enumerate. apply map_snd_combine. apply seq_length. Qed.

(** exactly the listed matchings all of whose pairs but the last are edges, with the sign of the
    flattened pairing *)
Theorem C23_exact : forall L conn ps s, NoDup L ->
  (In (ps, s) (generate_general_pmatch L conn) <->
   ps <> [] /\ listed L ps /\ (forall x y, In (x, y) (removelast ps) -> adj L conn x y) /\ sign_to L ps s).
Proof.
  intros L conn ps s N. unfold generate_general_pmatch.
  rewrite general_spec; [|unfold enumerate; rewrite combine_length, seq_length; lia|now rewrite map_snd_enumerate].
  rewrite map_snd_enumerate. unfold edges_but_last. setoid_rewrite vadj_enumerate. unfold sign_to. split.
  - intros (Ne & Li & Ed & k & Sw & ->). repeat split; eauto. intros k' Sw'.
    apply (swaps_parity k k' (flat ps) L); auto. eapply Permutation_NoDup; [symmetry; eapply swaps_perm; exact Sw|auto].
  - intros (Ne & Li & Ed & (k & Sw) & U). repeat split; eauto.
Qed.
Print Assumptions C23_exact.

(** so all matchings of the graph are found, once each *)
Theorem C23_complete : forall L conn ps, NoDup L -> L <> [] -> perfect L ps ->
  (forall x y, edge ps x y -> adj L conn x y) ->
  exists qs s, In (qs, s) (generate_general_pmatch L conn) /\ same_matching ps qs.
Proof.
  intros L conn ps N Ne P Ed. destruct (listed_exists (length L) L ps (le_n _) N P) as (qs & Li & Sm).
  pose proof (listed_perfect _ _ Li) as Pq.
  destruct (swaps_exist (flat qs) L) as (k & Sw).
  { eapply Permutation_NoDup; [symmetry; exact Pq|auto]. } { exact Pq. }
  exists qs, (pow_m1 k). split; auto. apply C23_exact; auto. split; [|split; [auto|split]].
  - intros ->. apply Permutation_nil in Pq. congruence.
  - intros x y H. apply Ed, Sm. left. destruct qs as [|q qs]; [destruct H|].
    rewrite (app_removelast_last (0%Z, 0%Z)) by discriminate. apply in_or_app. now left.
  - split; [eauto|]. intros k' Sw'. apply (swaps_parity k k' (flat qs) L); auto.
    eapply Permutation_NoDup; [symmetry; exact Pq|auto].
Qed.
Print Assumptions C23_complete.

Theorem C23_once : forall L conn ps qs s s', NoDup L -> In (ps, s) (generate_general_pmatch L conn) ->
  In (qs, s') (generate_general_pmatch L conn) -> same_matching ps qs -> ps = qs /\ s = s'.
Proof.
  intros L conn ps qs s s' N H H' Sm. apply C23_exact in H as (_ & Li & _ & (k & Sw) & U); auto.
  apply C23_exact in H' as (_ & Li' & _ & _ & U'); auto.
  assert (ps = qs) by (eapply listed_unique; eauto). subst qs. split; auto. now rewrite (U k Sw), (U' k Sw).
Qed.
Print Assumptions C23_once.

Lemma general_NoDup : forall fuel vs conn, NoDup (map snd vs) -> NoDup (map fst (general_pmatch fuel vs conn)).
Proof.
  induction fuel as [|f IH]; intros vs conn N; [constructor|].
  destruct vs as [|v [|w0 [|w1 rest]]]; [constructor|constructor|repeat constructor; auto|].
  set (rs := w0 :: w1 :: rest) in *.
  change (general_pmatch (S f) (v :: rs) conn) with (flat_map (fun j =>
            let w := nth j rs (0, 0%Z) in
            if conn (fst v) (fst w) then
              let rem := filter (fun u => negb (Z.eqb (snd u) (snd v) || Z.eqb (snd u) (snd w))) rs in
              map (fun p => ((snd v, snd w) :: fst p, (sgn (Nat.odd j) * snd p)%Z))
                  (general_pmatch f rem conn)
            else []) (seq 0 (length rs))).
  inversion N as [|? ? N1 N2]; subst. cbv zeta.
  assert (Nf : forall h (l : list (nat * Z)), NoDup (map snd l) -> NoDup (map snd (filter h l))).
  { clear. intros h l N. induction l as [|u l IHl]; simpl in *; auto. inversion N; subst.
    destruct (h u); auto. simpl. constructor; auto. intros X. apply in_map_iff in X as (u' & E & Hu).
    apply filter_In in Hu as [Hu _]. apply H1. rewrite <- E. now apply in_map. }
  assert (G : forall js, NoDup js -> (forall j, In j js -> j < length rs) ->
    NoDup (map fst (flat_map (fun j => if conn (fst v) (fst (nth j rs (0, 0%Z)))
      then map (fun p => ((snd v, snd (nth j rs (0, 0%Z))) :: fst p, (sgn (Nat.odd j) * snd p)%Z))
        (general_pmatch f (filter (fun u => negb (Z.eqb (snd u) (snd v) || Z.eqb (snd u) (snd (nth j rs (0, 0%Z))))) rs) conn)
      else []) js))).
  { induction js as [|j js IHj]; intros Nj Hj; [constructor|]. inversion Nj; subst. cbn [flat_map]. rewrite map_app.
    apply NoDup_app_iff. split; [|split].
    - destruct (conn _ _); [|constructor]. rewrite map_map. cbn [fst].
      rewrite <- (map_map fst (cons (snd v, snd (nth j rs (0, 0%Z))))).
      apply FinFun.Injective_map_NoDup; [intros a b [=]; auto|]. apply IH, Nf. auto.
    - apply IHj; auto. intros; apply Hj; now right.
    - intros q Hq Hq'. destruct (conn _ _); [|destruct Hq]. rewrite map_map in Hq.
      apply in_map_iff in Hq as (p & <- & _). apply in_map_iff in Hq' as (p' & E & Hp').
      apply in_flat_map in Hp' as (j' & Hj' & Hp'). destruct (conn (fst v) (fst (nth j' rs (0, 0%Z)))); [|destruct Hp'].
      apply in_map_iff in Hp' as (p'' & <- & _). cbn [fst] in E. injection E as E _.
      assert (j' = j); [|congruence].
      apply (proj1 (NoDup_nth (map snd rs) 0%Z) N2); [rewrite map_length; apply Hj; now right|rewrite map_length; apply Hj; now left|].
      change 0%Z with (snd (0, 0%Z)). rewrite !map_nth. exact E. }
  apply G; [apply seq_NoDup|]. intros j Hj. apply in_seq in Hj. lia.
Qed.

Theorem C23_NoDup : forall L conn, NoDup L -> NoDup (map fst (generate_general_pmatch L conn)).
Proof. intros L conn N. apply general_NoDup. now rewrite map_snd_enumerate. Qed.
Print Assumptions C23_NoDup.

Theorem C23_odd : forall L conn, NoDup L -> Nat.odd (length L) = true \/ L = [] -> generate_general_pmatch L conn = [].
Proof.
  intros L conn N H. destruct (generate_general_pmatch L conn) as [|[ps s] t] eqn:E; auto. exfalso.
  assert (Hi : In (ps, s) (generate_general_pmatch L conn)) by (rewrite E; now left).
  apply C23_exact in Hi as (Ne & Li & _); auto. apply listed_length in Li. destruct H as [H| ->].
  - rewrite Li, Nat.odd_mul in H. discriminate.
  - destruct ps; [congruence|discriminate].
Qed.
Print Assumptions C23_odd.

(** the last pair is never checked: a pair that is not an edge is yielded *)
Theorem C23_edges_refuted : exists L conn ps s, NoDup L /\ In (ps, s) (generate_general_pmatch L conn) /\
  exists x y, edge ps x y /\ ~ adj L conn x y /\ ~ adj L conn y x.
Proof.
  exists [0; 1; 2; 3]%Z, (fun i j => Nat.eqb (i + j) 1), [(0, 1); (2, 3)]%Z, 1%Z.
  split; [repeat constructor; simpl; intuition discriminate|]. split; [vm_compute; auto|].
  exists 2%Z, 3%Z. split; [left; simpl; auto|].
  split; intros (i & j & A & B & C); apply Nat.eqb_eq in C;
    (destruct i as [|[|i]]; [| |lia]); simpl in *; try discriminate; 
    (destruct j as [|[|j]]; [| |lia]); simpl in *; discriminate.
Qed.
Print Assumptions C23_edges_refuted.

Example C23_ex : generate_general_pmatch [0; 1; 2; 3]%Z (fun i j => negb (Nat.eqb (i + j) 3)) =
  [([(0, 1); (2, 3)], 1); ([(0, 2); (1, 3)], -1)]%Z.
Proof. reflexivity. Qed.
