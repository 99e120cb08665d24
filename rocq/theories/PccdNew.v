(** The constructors of the pair coupled-cluster wavefunctions: operators, reference, invariant *)
From Coq Require Import List ZArith NArith Arith Bool Lia Permutation Sorted.
From Verif Require Import Py BitSpec BitLemmas Slater SlaterBits SlaterBits2 SignSpec SignLemmas Graphs GraphSpec MatchSpec MathTools PermLemmas SdLemmas Combos
  GeneralLemmas BicliqueLemmas P_Slater1 P_Slater2 Fock FockLemmas FockInner Alg WfnCI CILemmas CC CCRows CCRows2 CCGen CCSpec CCFock CCExp CCLemmas CCMain CCDeriv
  CCEx CCCacheSpec P_CCCache Pccd PccdSpec PccdRows PccdMain PccdExp.
Import ListNotations.
Local Open Scope nat_scope.

(** ** the two halves of a list of orbitals closed under exchange of spin *)
Lemma split_below : forall ns l, StronglySorted Z.lt l -> l = filter (fun i => (i <? ns)%Z) l ++ filter (fun i => negb (i <? ns)%Z) l.
Proof.
  intros ns l. induction l as [|x l IH]; intros S; [reflexivity|]. apply SSZ_inv in S as [S H]. cbn [filter]. destruct (Z.ltb_spec x ns) as [L|L]; cbn [negb app].
  - now rewrite <- IH.
  - assert (E : filter (fun i => (i <? ns)%Z) l = []).
    { clear IH S. induction l as [|y l IH]; [reflexivity|]. cbn [filter]. destruct (Z.ltb_spec y ns); [specialize (H y (or_introl eq_refl)); lia|]. apply IH. intros z Hz. apply H. now right. }
    rewrite E. cbn [app]. f_equal. rewrite <- (app_nil_l (filter _ l)), <- E. now apply IH.
Qed.
Lemma half_below : forall ns l, StronglySorted Z.lt l -> (forall z, In z l -> (0 <= z < 2 * ns)%Z /\ In (partner ns z) l) ->
  half l = filter (fun i => (i <? ns)%Z) l /\ filter (fun i => negb (i <? ns)%Z) l = map (fun i => i + ns)%Z (half l).
Proof.
  intros ns l S C. assert (E : filter (fun i => negb (i <? ns)%Z) l = map (fun i => i + ns)%Z (filter (fun i => (i <? ns)%Z) l)).
  { apply sorted_perm_eq.
    - now apply SS_filter.
    - assert (X : forall m, StronglySorted Z.lt m -> StronglySorted Z.lt (map (fun i => i + ns)%Z m)).
      { induction m as [|x m IH]; intros Sm; [constructor|]. apply SSZ_inv in Sm as [Sm H]. cbn [map]. apply SSZ_cons; auto. intros y Hy. apply in_map_iff in Hy as (z & <- & Hz). apply H in Hz. lia. }
      apply X. now apply SS_filter.
    - apply NoDup_Permutation.
      + apply NoDup_filter. now apply SS_NoDup.
      + apply NoDup_map_inj; [intros; lia|]. apply NoDup_filter. now apply SS_NoDup.
      + intros z. rewrite filter_In, in_map_iff. split.
        * intros [Hz L]. destruct (C z Hz) as [B P]. destruct (Z.ltb_spec z ns) as [?|L']; [discriminate|]. exists (z - ns)%Z. split; [lia|]. apply filter_In. unfold partner in P.
          destruct (Z.ltb_spec z ns); [lia|]. split; auto. apply Z.ltb_lt. lia.
        * intros (y & <- & Hy). apply filter_In in Hy as [Hy L]. destruct (C y Hy) as [B P]. unfold partner in P. rewrite L in P. split; auto. destruct (Z.ltb_spec (y + ns) ns); [lia|reflexivity]. }
  assert (H : half l = filter (fun i => (i <? ns)%Z) l).
  { unfold half. rewrite (split_below ns l S) at 1 2. rewrite app_length, E, map_length.
    set (A := filter (fun i => (i <? ns)%Z) l). replace (length A + length A) with (length A * 2) by lia. rewrite Nat.div_mul by lia.
    rewrite firstn_app, firstn_all, Nat.sub_diag. cbn [firstn]. apply app_nil_r. }
  rewrite H. auto.
Qed.
Lemma half_incl : forall {A} (l : list A) x, In x (half l) -> In x l.
Proof. intros A l x H. unfold half in H. rewrite <- (firstn_skipn (length l / 2) l). apply in_app_iff. auto. Qed.
Lemma half_NoDup : forall {A} (l : list A), NoDup l -> NoDup (half l).
Proof. intros A l N. unfold half. rewrite <- (firstn_skipn (length l / 2) l) in N. now apply NoDup_app_iff in N. Qed.
Lemma later_In : forall l x y, StronglySorted Z.lt l -> In (x, y) (later l) <-> In x l /\ In y l /\ (x < y)%Z.
Proof.
  induction l as [|u l IH]; intros x y S; [cbn; tauto|]. apply SSZ_inv in S as [S H]. cbn [later In]. rewrite in_app_iff, in_map_iff, IH by auto. split.
  - intros [(z & E & Hz)|(H1 & H2 & H3)]; [injection E as -> ->; specialize (H y Hz)|]; auto.
  - intros ([->|Hx] & [->|Hy] & L); [lia|left; eauto|specialize (H x Hx); lia|right; auto].
Qed.
Lemma later_NoDup : forall l, StronglySorted Z.lt l -> NoDup (later l).
Proof.
  induction l as [|u l IH]; intros S; [constructor|]. pose proof S as S0. apply SSZ_inv in S as [S H]. cbn [later]. apply SlaterBits2.NoDup_app_intro; auto.
  - apply NoDup_map_inj; [intros ? ? _ _ E; now injection E|]. now apply SS_NoDup.
  - intros [x y] H1 H2. apply in_map_iff in H1 as (z & E & Hz). injection E as -> ->. apply later_In in H2 as (H2 & _); auto. apply H in H2. lia.
Qed.

(** ** numbering in two rounds *)
Lemma combine_app : forall {A B} (l1 l2 : list A) (m1 m2 : list B), length l1 = length m1 -> combine (l1 ++ l2) (m1 ++ m2) = combine l1 m1 ++ combine l2 m2.
Proof. induction l1 as [|x l1 IH]; intros l2 [|y m1] m2 E; cbn in *; try discriminate; auto. now rewrite IH by lia. Qed.
Lemma add_shifted_number : forall k1 k2, NoDup (k1 ++ k2) -> add_shifted (number k1) (number k2) = number (k1 ++ k2).
Proof.
  intros k1 k2 N. pose proof N as N0. apply NoDup_app_iff in N0 as (N1 & N2 & D). rewrite !number_eq by auto. unfold add_shifted. rewrite combine_length, seq_length, Nat.min_id.
  rewrite app_length, seq_app, combine_app by now rewrite seq_length. cbn [plus].
  assert (G : forall k s d, NoDup (map fst d ++ k) -> fold_left (fun acc ei => dict_set acc (fst ei) (snd ei + length k1)) (combine k (seq s (length k))) d = d ++ combine k (seq (s + length k1) (length k))).
  { clear. induction k as [|e k IH]; intros s d N; cbn [length seq combine fold_left fst snd]; [now rewrite app_nil_r|].
    rewrite dict_set_new.
    - rewrite IH; [rewrite <- app_assoc; reflexivity|]. rewrite map_app. cbn [map fst]. rewrite <- app_assoc. exact N.
    - apply NoDup_app_iff in N as (_ & _ & D). intros X. apply (D e X). now left. }
  rewrite G; [reflexivity|]. rewrite combine_fst' by now rewrite seq_length. exact N.
Qed.
Lemma sorted_number : forall keys n, map fst (sorted_key (fun ei : list Z * nat => Z.of_nat (snd ei)) (combine keys (seq n (length keys)))) = keys.
Proof.
  intros keys n. assert (E : forall keys n, sorted_key (fun ei : list Z * nat => Z.of_nat (snd ei)) (combine keys (seq n (length keys))) = combine keys (seq n (length keys))).
  { clear. induction keys as [|e k IH]; intros n; [reflexivity|]. cbn [length seq combine]. unfold sorted_key. cbn [fold_right]. fold (sorted_key (fun ei : list Z * nat => Z.of_nat (snd ei)) (combine k (seq (S n) (length k)))).
    rewrite IH. destruct k as [|e' k]; [reflexivity|]. cbn [length seq combine insert_key snd]. destruct (Z.leb_spec (Z.of_nat n) (Z.of_nat (S n))); [reflexivity|lia]. }
  rewrite E. apply combine_fst'. now rewrite seq_length.
Qed.

(** ** the operators of a class *)
Section Keys.
Variables (nspin : Z) (g : N).
Let ns : Z := (nspin / 2)%Z.
Hypothesis Even : nspin = (2 * ns)%Z.
Hypothesis Closed : closed ns g.
Let F : list Z := zoccs g.
Let T : list Z := virtuals nspin F.
Lemma F_SS : StronglySorted Z.lt F.
Proof. apply zoccs_SS. Qed.
Lemma T_SS : StronglySorted Z.lt T.
Proof. apply SS_filter, orbitals_SS. Qed.
Lemma F_In : forall z, In z F <-> occupied g z.
Proof. intros z. unfold F. rewrite CCLemmas.zoccs_In. reflexivity. Qed.
Lemma T_In : forall z, In z T <-> vacant nspin g z.
Proof.
  intros z. unfold T, virtuals. rewrite filter_In, orbitals_In, negb_true_iff. unfold vacant. split; intros [B H]; (split; [auto|]).
  - apply PccdRows.memz_nIn in H. destruct (bit g (Z.to_nat z)) eqn:E; auto. exfalso. apply H. apply F_In. split; [lia|auto].
  - apply PccdRows.memz_nIn. intros X. apply F_In in X as [_ X]. congruence.
Qed.
Lemma occ_range : forall z, occupied g z -> (0 <= z < nspin)%Z /\ occupied g (partner ns z).
Proof. intros z H. apply F_In in H. apply Closed in H as [H1 H2]. apply F_In in H2. split; [lia|auto]. Qed.
Lemma T_closed : forall z, In z T -> (0 <= z < 2 * ns)%Z /\ In (partner ns z) T.
Proof.
  intros z H. apply T_In in H as [B H]. rewrite Even in B. destruct (partner_involutive ns z B) as (B' & I & _). split; auto. apply T_In. split; [lia|].
  destruct (bit g (Z.to_nat (partner ns z))) eqn:E; auto. exfalso. assert (O : occupied g (partner ns z)) by (split; [lia|auto]).
  apply occ_range in O as [_ O]. rewrite I in O. destruct O as [_ O]. congruence.
Qed.
Lemma F_half : forall i, In i (half F) <-> occupied g i /\ alpha nspin i.
Proof. intros i. rewrite (proj1 (half_below ns F F_SS Closed)), filter_In, F_In, Z.ltb_lt. reflexivity. Qed.
Lemma T_half : forall i, In i (half T) <-> vacant nspin g i /\ alpha nspin i.
Proof. intros i. rewrite (proj1 (half_below ns T T_SS T_closed)), filter_In, T_In, Z.ltb_lt. reflexivity. Qed.
Lemma F_half_NoDup : NoDup (half F).
Proof. apply half_NoDup, SS_NoDup, F_SS. Qed.
Lemma T_half_SS : StronglySorted Z.lt (half T).
Proof. rewrite (proj1 (half_below ns T T_SS T_closed)). apply SS_filter, T_SS. Qed.
Lemma F_half_SS : StronglySorted Z.lt (half F).
Proof. rewrite (proj1 (half_below ns F F_SS Closed)). apply SS_filter, F_SS. Qed.
Lemma beta_of : forall z, occupied g z -> ~ alpha nspin z -> exists i, z = (i + ns)%Z /\ occupied g i /\ alpha nspin i.
Proof.
  intros z O A. destruct (occ_range z O) as [B P]. unfold alpha in *. fold ns in A |- *. unfold partner in P. destruct (Z.ltb_spec z ns); [lia|]. exists (z - ns)%Z. split; [lia|]. split; [auto|]. lia.
Qed.
Lemma of_beta : forall i, occupied g i -> alpha nspin i -> occupied g (i + ns) /\ ~ alpha nspin (i + ns).
Proof. intros i O A. destruct (occ_range i O) as [B P]. unfold alpha in *. fold ns in A |- *. unfold partner in P. destruct (Z.ltb_spec i ns); [|lia]. split; [auto|]. destruct B. lia. Qed.

Lemma pair_doubles_In : forall e, In e (pair_doubles ns F T) <-> pair_to_pair nspin g e.
Proof.
  intros e. unfold pair_doubles, pair_to_pair, from_pair. fold ns. rewrite in_flat_map. split.
  - intros (i & Hi & He). apply in_map_iff in He as (v & <- & Hv). apply F_half in Hi as [O A]. apply T_half in Hv as [V A']. exists i, v, (v + ns)%Z. repeat (split; auto).
  - intros (i & x & y & -> & O & A & V & A' & ->). exists i. split; [now apply F_half|]. apply in_map_iff. exists x. split; [reflexivity|]. now apply T_half.
Qed.
Lemma any_doubles_In : forall e, In e (any_doubles ns F T) <-> from_pair nspin g (to_two nspin g) e.
Proof.
  intros e. unfold any_doubles, from_pair, to_two. fold ns. rewrite in_flat_map. split.
  - intros (i & Hi & He). apply in_map_iff in He as ([x y] & <- & Hv). apply F_half in Hi as [O A]. apply later_In in Hv as (H1 & H2 & H3); [|apply T_SS].
    apply T_In in H1, H2. exists i, x, y. repeat (split; auto).
  - intros (i & x & y & -> & O & A & V & V' & L). exists i. split; [now apply F_half|]. apply in_map_iff. exists (x, y). split; [reflexivity|]. apply later_In; [apply T_SS|]. now rewrite !T_In.
Qed.
Lemma set_doubles_In : forall l0 l1 e, In e (set_doubles ns F l0 l1) <-> from_pair nspin g (fun x y => In x l0 /\ In y l1) e.
Proof.
  intros l0 l1 e. unfold set_doubles, from_pair. fold ns. rewrite in_flat_map. split.
  - intros (i & Hi & He). apply in_flat_map in He as (x & Hx & He). apply in_map_iff in He as (y & <- & Hy). apply F_half in Hi as [O A]. exists i, x, y. repeat (split; auto).
  - intros (i & x & y & -> & O & A & V & V'). exists i. split; [now apply F_half|]. apply in_flat_map. exists x. split; auto. apply in_map_iff. exists y. auto.
Qed.
Lemma pair_singles_In : forall l0 l1 e, In e (pair_singles ns F l0 l1) <-> single g (fun x v => (alpha nspin x /\ In v l0) \/ (~ alpha nspin x /\ In v l1)) e.
Proof.
  intros l0 l1 e. unfold pair_singles, single. rewrite in_app_iff, !in_flat_map. split.
  - intros [(i & Hi & He)|(i & Hi & He)]; apply in_map_iff in He as (v & <- & Hv); apply F_half in Hi as [O A].
    + exists i, v. repeat (split; auto).
    + destruct (of_beta i O A). exists (i + ns)%Z, v. repeat (split; auto).
  - intros (x & v & -> & O & [[A H]|[A H]]).
    + left. exists x. split; [now apply F_half|]. apply in_map_iff. eauto.
    + right. destruct (beta_of x O A) as (i & -> & O' & A'). exists i. split; [now apply F_half|]. apply in_map_iff. eauto.
Qed.
Lemma all_singles_In : forall e, In e (flat_map (fun i => map (fun v => [i; v]) T) F) <-> single g (to_vacant nspin g) e.
Proof.
  intros e. unfold single, to_vacant. rewrite in_flat_map. split.
  - intros (i & Hi & He). apply in_map_iff in He as (v & <- & Hv). apply F_In in Hi. apply T_In in Hv. eauto.
  - intros (x & v & -> & O & V). exists x. split; [now apply F_In|]. apply in_map_iff. exists v. split; auto. now apply T_In.
Qed.
Lemma quadruples_In : forall e, In e (pair_quadruples ns F T) <-> two_pairs nspin g e.
Proof.
  intros e. unfold pair_quadruples, two_pairs. fold ns. rewrite in_flat_map. split.
  - intros ([i j] & Hi & He). apply in_map_iff in He as ([a b] & <- & Hv). apply later_In in Hi as (H1 & H2 & H3); [|apply F_half_SS]. apply later_In in Hv as (H4 & H5 & H6); [|apply T_half_SS].
    apply F_half in H1 as [O1 A1], H2 as [O2 A2]. apply T_half in H4 as [V1 A4], H5 as [V2 A5]. exists i, j, a, b. cbn [fst snd]. repeat (split; auto).
  - intros (i & j & a & b & -> & O1 & O2 & L1 & A1 & V1 & V2 & L2 & A2). exists (i, j). split.
    + apply later_In; [apply F_half_SS|]. rewrite !F_half. unfold alpha in *. repeat (split; auto); lia.
    + apply in_map_iff. exists (a, b). split; [reflexivity|]. apply later_In; [apply T_half_SS|]. rewrite !T_half. unfold alpha in *. repeat (split; auto); lia.
Qed.
Lemma other_pair : forall i k, (0 <= k < nspin)%Z -> (0 <= i)%Z -> alpha nspin i -> negb (memz k [i; i + ns]%Z) = true <-> spatial ns k <> i.
Proof.
  intros i k B Bi A. rewrite negb_true_iff, PccdRows.memz_nIn. unfold alpha in A. fold ns in A. unfold spatial. cbn [In]. destruct (Z.ltb_spec k ns); split; intros H'; try lia.
  all: intros [X|[X|[]]]; lia.
Qed.
Lemma triples_In : forall e, In e (pair_triples ns F T) <-> pair_and_one nspin g e.
Proof.
  intros e. unfold pair_triples, pair_and_one. fold ns. rewrite in_flat_map. split.
  - intros (i & Hi & He). apply in_flat_map in He as (k & Hk & He). apply in_flat_map in He as (a & Ha & He). apply in_map_iff in He as (b & <- & Hb).
    apply F_half in Hi as [O1 A1]. apply filter_In in Hk as [Hk M]. apply F_In in Hk. apply T_half in Ha as [V1 A2]. apply filter_In in Hb as [Hb M']. apply T_In in Hb.
    apply other_pair in M; [|now apply occ_range|apply O1|auto]. apply other_pair in M'; [|apply Hb|apply V1|auto]. exists i, k, a, b. repeat (split; auto).
  - intros (i & k & a & b & -> & O1 & A1 & O2 & D1 & V1 & A2 & V2 & D2). exists i. split; [now apply F_half|]. apply in_flat_map. exists k. split.
    + apply filter_In. split; [now apply F_In|]. apply other_pair; auto; [now apply occ_range|apply O1].
    + apply in_flat_map. exists a. split; [now apply T_half|]. apply in_map_iff. exists b. split; auto. apply filter_In. split; [now apply T_In|]. apply other_pair; auto; [apply V2|apply V1].
Qed.
Lemma pair_doubles_NoDup : NoDup (pair_doubles ns F T).
Proof.
  unfold pair_doubles. apply NoDup_flat_map; [apply F_half_NoDup| |].
  - intros i _. apply NoDup_map_inj; [intros x y _ _ E; now injection E|]. apply SS_NoDup, T_half_SS.
  - intros i j b _ _ H1 H2. apply in_map_iff in H1 as (u & <- & _), H2 as (v & E & _). now injection E.
Qed.
Lemma any_doubles_NoDup : NoDup (any_doubles ns F T).
Proof.
  unfold any_doubles. apply NoDup_flat_map; [apply F_half_NoDup| |].
  - intros i _. apply NoDup_map_inj; [|apply later_NoDup, T_SS]. intros [x y] [x' y'] _ _ E. cbn [fst snd] in E. now injection E as -> ->.
  - intros i j b _ _ H1 H2. apply in_map_iff in H1 as (u & <- & _), H2 as (v & E & _). now injection E.
Qed.
Lemma set_doubles_NoDup : forall l0 l1, NoDup l0 -> NoDup l1 -> NoDup (set_doubles ns F l0 l1).
Proof.
  intros l0 l1 N0 N1. unfold set_doubles. apply NoDup_flat_map; [apply F_half_NoDup| |].
  - intros i _. apply NoDup_flat_map; auto.
    + intros x _. apply NoDup_map_inj; auto. intros u v _ _ E. now injection E.
    + intros x y b _ _ H1 H2. apply in_map_iff in H1 as (u & <- & _), H2 as (v & E & _). now injection E.
  - intros i j b _ _ H1 H2. apply in_flat_map in H1 as (x & _ & H1), H2 as (y & _ & H2). apply in_map_iff in H1 as (u & <- & _), H2 as (v & E & _). now injection E.
Qed.
Lemma pair_singles_NoDup : forall l0 l1, NoDup l0 -> NoDup l1 -> NoDup (pair_singles ns F l0 l1).
Proof.
  intros l0 l1 N0 N1. unfold pair_singles. apply SlaterBits2.NoDup_app_intro.
  - apply NoDup_flat_map; [apply F_half_NoDup| |].
    + intros i _. apply NoDup_map_inj; auto. intros u v _ _ E. now injection E.
    + intros i j b _ _ H1 H2. apply in_map_iff in H1 as (u & <- & _), H2 as (v & E & _). now injection E.
  - apply NoDup_flat_map; [apply F_half_NoDup| |].
    + intros i _. apply NoDup_map_inj; auto. intros u v _ _ E. now injection E.
    + intros i j b _ _ H1 H2. apply in_map_iff in H1 as (u & <- & _), H2 as (v & E & _). injection E. lia.
  - intros b H1 H2. apply in_flat_map in H1 as (x & Hx & H1), H2 as (y & Hy & H2). apply in_map_iff in H1 as (u & <- & _), H2 as (v & E & _). injection E as E _.
    apply F_half in Hx as [_ A], Hy as [O A']. destruct (of_beta y O A') as [_ X]. apply X. now rewrite E.
Qed.
Lemma all_singles_NoDup : NoDup (flat_map (fun i => map (fun v => [i; v]) T) F).
Proof.
  apply NoDup_flat_map; [apply SS_NoDup, F_SS| |].
  - intros i _. apply NoDup_map_inj; [intros u v _ _ E; now injection E|]. apply SS_NoDup, T_SS.
  - intros i j b _ _ H1 H2. apply in_map_iff in H1 as (u & <- & _), H2 as (v & E & _). now injection E.
Qed.
Lemma quadruples_NoDup : NoDup (pair_quadruples ns F T).
Proof.
  unfold pair_quadruples. apply NoDup_flat_map; [apply later_NoDup, F_half_SS| |].
  - intros ij _. apply NoDup_map_inj; [|apply later_NoDup, T_half_SS]. intros [x y] [x' y'] _ _ E. cbn [fst snd] in E. now injection E as -> _ ->.
  - intros [i j] [i' j'] b _ _ H1 H2. apply in_map_iff in H1 as (u & <- & _), H2 as (v & E & _). cbn [fst snd] in E. now injection E as -> _ ->.
Qed.
Lemma triples_NoDup : NoDup (pair_triples ns F T).
Proof.
  unfold pair_triples. apply NoDup_flat_map; [apply F_half_NoDup| |].
  - intros i _. apply NoDup_flat_map; [apply NoDup_filter, SS_NoDup, F_SS| |].
    + intros k _. apply NoDup_flat_map; [apply SS_NoDup, T_half_SS| |].
      * intros a _. apply NoDup_map_inj; [intros u v _ _ E; now injection E|]. apply NoDup_filter, SS_NoDup, T_SS.
      * intros a a' b _ _ H1 H2. apply in_map_iff in H1 as (u & <- & _), H2 as (v & E & _). now injection E.
    + intros k k' b _ _ H1 H2. apply in_flat_map in H1 as (x & _ & H1), H2 as (y & _ & H2). apply in_map_iff in H1 as (u & <- & _), H2 as (v & E & _). now injection E.
  - intros i i' b _ _ H1 H2. apply in_flat_map in H1 as (k & _ & H1), H2 as (k' & _ & H2). apply in_flat_map in H1 as (x & _ & H1), H2 as (y & _ & H2).
    apply in_map_iff in H1 as (u & <- & _), H2 as (v & E & _). now injection E.
Qed.
Lemma rank_all : forall ranks, (forall r, In r ranks -> (0 < r)%Z) -> forall e, In e (rank_keys ranks F (fun _ => T)) <-> all_of nspin g ranks e.
Proof.
  intros ranks Hr e. rewrite rank_keys_In; [|auto|apply F_SS|intros; apply T_SS]. unfold all_of, incl. split; intros (ann & cre & S & H1 & H2); exists ann, cre; (split; [auto|]);
    split; intros z Hz; (apply F_In || apply T_In); auto.
Qed.
Lemma rank_all_NoDup : forall ranks, (forall r, In r ranks -> (0 < r)%Z) -> NoDup ranks -> NoDup (rank_keys ranks F (fun _ => T)).
Proof. intros ranks H N. apply rank_keys_NoDup; auto; [apply F_SS|intros; apply T_SS]. Qed.
Lemma all_length : forall ranks e, all_of nspin g ranks e -> exists r, In r ranks /\ Z.of_nat (length e) = (2 * r)%Z.
Proof. intros ranks e (ann & cre & (-> & L & R & _) & _). exists (Z.of_nat (length ann)). split; auto. rewrite app_length. lia. Qed.
Lemma alphas_In : forall z, In z (filter (fun i => (i <? ns)%Z) T) <-> vacant nspin g z /\ alpha nspin z.
Proof. intros z. now rewrite filter_In, T_In, Z.ltb_lt. Qed.
Lemma betas_In : forall z, In z (filter (fun i => negb (i <? ns)%Z) T) <-> vacant nspin g z /\ ~ alpha nspin z.
Proof. intros z. rewrite filter_In, T_In, negb_true_iff, Z.ltb_ge. unfold alpha. fold ns. rewrite Z.nlt_ge. reflexivity. Qed.
End Keys.

Definition class_ranks (c : pclass) : list Z :=
  match c with
  | PPair | PGD | PSetD => [2]%Z
  | PSpin | PGen | PGSD | PSetSD | PSen0 => [1; 2]%Z
  | PQuad => [1; 2; 4]%Z
  | PTripQuad | PTrip2Quad => [1; 2; 3; 4]%Z
  end.
Lemma pair_ranks_ok : forall c nelec ra rk, pair_ranks c nelec ra = Ok rk -> ra = RanksNone /\ rk = class_ranks c.
Proof.
  intros c nelec ra rk H. unfold pair_ranks in H. destruct c, ra; try discriminate; cbn in H |- *; try (destruct (_ <=? _)%Z; [discriminate|]); apply Ok_inj in H; auto.
Qed.
Lemma class_ranks_ok : forall c, (forall r, In r (class_ranks c) -> (0 < r)%Z) /\ NoDup (class_ranks c).
Proof.
  intros c. split.
  - intros r H. destruct c; cbn in H; intuition subst; lia.
  - destruct c; cbn; repeat (constructor; [cbn; intros X; repeat destruct X as [X|X]; try discriminate; auto|]); constructor.
Qed.
Definition pairlike (c : pclass) : bool := match c with PSen0 | PQuad | PTripQuad | PTrip2Quad => false | _ => true end.
Definition setlike (c : pclass) : bool := match c with PSetD | PSetSD => true | _ => false end.
Lemma set_is_pair : forall c, pairlike c = false -> setlike c = true -> False.
Proof. intros []; discriminate. Qed.
Lemma two_sets_ok : forall F l s, two_sets F l = Ok s -> exists l0 l1, l = [l0; l1] /\ s = (sorted_set l0, sorted_set l1) /\
  (forall z, In z l0 \/ In z l1 -> (0 <= z)%Z /\ ~ In z F) /\ (forall z, In z l0 -> ~ In z l1).
Proof.
  intros F l s H. unfold two_sets in H. destruct l as [|l0 [|l1 [|]]]; try discriminate. exists l0, l1. split; [reflexivity|].
  destruct (negb (forallb _ l0) || _)%bool eqn:E0; [discriminate|]. destruct (negb (forallb _ l1) || _)%bool eqn:E1; [discriminate|].
  destruct (existsb _ l0) eqn:E2 in H; [discriminate|]. apply Ok_inj in H. subst s. split; [reflexivity|].
  assert (X : forall l, (negb (forallb (fun i => (0 <=? i)%Z) l) || existsb (fun i => memz i F) l)%bool = false -> forall z, In z l -> (0 <= z)%Z /\ ~ In z F).
  { clear. intros l E z Hz. apply orb_false_iff in E as [E1 E2]. apply negb_false_iff in E1. rewrite forallb_forall in E1. apply E1 in Hz as Hz'. apply Z.leb_le in Hz'. split; auto.
    intros Y. assert (existsb (fun i => memz i F) l = true) by (apply existsb_exists; exists z; split; auto; now apply PccdRows.memz_In). congruence. }
  split.
  - intros z [Hz|Hz]; [apply (X l0)|apply (X l1)]; auto.
  - intros z Hz Hz'. assert (existsb (fun i => memz i l1) l0 = true) by (apply existsb_exists; exists z; split; auto; now apply PccdRows.memz_In). congruence.
Qed.
Lemma NoDup_len : forall (k1 k2 : list (list Z)) n, NoDup k1 -> NoDup k2 -> (forall e, In e k1 -> length e <= n) -> (forall e, In e k2 -> n < length e) -> NoDup (k1 ++ k2).
Proof. intros k1 k2 n N1 N2 H1 H2. apply SlaterBits2.NoDup_app_intro; auto. intros e E1 E2. apply H1 in E1. apply H2 in E2. lia. Qed.
Lemma single_len : forall g P e, single g P e -> length e = 2.
Proof. intros g P e (x & v & -> & _). reflexivity. Qed.
Lemma from_pair_len : forall n g P e, from_pair n g P e -> length e = 4.
Proof. intros n g P e (i & x & y & -> & _). reflexivity. Qed.
Lemma two_pairs_len : forall n g e, two_pairs n g e -> length e = 8.
Proof. intros n g e (i & j & x & y & -> & _). reflexivity. Qed.
Lemma pair_one_len : forall n g e, pair_and_one n g e -> length e = 6.
Proof. intros n g e (i & j & x & y & -> & _). reflexivity. Qed.
Lemma single_iff : forall g (P Q : Z -> Z -> Prop), (forall x v, occupied g x -> P x v <-> Q x v) -> forall e, single g P e <-> single g Q e.
Proof. intros g P Q H e. split; intros (x & v & E & O & X); exists x, v; (split; [auto|]; split; [auto|]); now apply H. Qed.
Lemma from_pair_iff : forall n g (P Q : Z -> Z -> Prop), (forall x v, P x v <-> Q x v) -> forall e, from_pair n g P e <-> from_pair n g Q e.
Proof. intros n g P Q H e. split; intros (i & x & v & E & O & A & X); exists i, x, v; (split; [auto|]; split; [auto|]; split; [auto|]); now apply H. Qed.

Lemma exops_keys : forall c nspin ref indices d, nspin = (2 * (nspin / 2))%Z -> closed (nspin / 2) ref -> pair_exops c nspin (class_ranks c) ref indices = Ok d ->
  exists keys, NoDup keys /\ d = number keys /\ (forall e, In e keys <-> operator_of nspin ref c indices e) /\
  (indices = None \/ (setlike c = true /\ exists l0 l1, indices = Some [l0; l1] /\ (forall z, In z l0 \/ In z l1 -> (0 <= z)%Z /\ ~ occupied ref z) /\ (forall z, In z l0 -> ~ In z l1))).
Proof.
  intros c nspin g indices d Ev Cl H. unfold pair_exops in H. set (ns := (nspin / 2)%Z) in *.
  pose proof (F_SS g) as SF. pose proof (T_SS nspin g) as ST.
  assert (SN : forall l0 l1, NoDup l0 -> NoDup l1 -> NoDup (pair_singles ns (zoccs g) l0 l1)) by (intros; eapply pair_singles_NoDup; eauto).
  assert (Sl : forall l0 l1 e, In e (pair_singles ns (zoccs g) l0 l1) -> length e = 2) by (intros l0 l1 e He; eapply pair_singles_In in He; eauto; eapply single_len; eauto).
  assert (Nf : forall p, NoDup (filter p (virtuals nspin (zoccs g)))) by (intros; apply NoDup_filter, SS_NoDup; auto).
  assert (Nv : NoDup (virtuals nspin (zoccs g))) by (apply SS_NoDup; auto).
  assert (SV : forall e, In e (pair_singles ns (zoccs g) (virtuals nspin (zoccs g)) (virtuals nspin (zoccs g))) <-> single g (to_vacant nspin g) e).
  { intros e. unfold ns. rewrite (pair_singles_In nspin g Ev Cl). apply single_iff. intros x v _. rewrite T_In by auto. unfold to_vacant.
    destruct (Z_lt_dec x (nspin / 2)); unfold alpha; tauto. }
  assert (PD : forall e, In e (pair_doubles ns (zoccs g) (virtuals nspin (zoccs g))) <-> pair_to_pair nspin g e) by (apply pair_doubles_In; auto).
  assert (PN : NoDup (pair_doubles ns (zoccs g) (virtuals nspin (zoccs g)))) by (apply pair_doubles_NoDup; auto).
  assert (AD : forall e, In e (any_doubles ns (zoccs g) (virtuals nspin (zoccs g))) <-> from_pair nspin g (to_two nspin g) e) by (apply any_doubles_In; auto).
  assert (AN : NoDup (any_doubles ns (zoccs g) (virtuals nspin (zoccs g)))) by (apply any_doubles_NoDup; auto).
  assert (QD : forall e, In e (pair_quadruples ns (zoccs g) (virtuals nspin (zoccs g))) <-> two_pairs nspin g e) by (apply quadruples_In; auto).
  assert (QN : NoDup (pair_quadruples ns (zoccs g) (virtuals nspin (zoccs g)))) by (apply quadruples_NoDup; auto).
  set (A := filter (fun i => (i <? ns)%Z) (virtuals nspin (zoccs g))) in *. set (B := filter (fun i => negb (i <? ns)%Z) (virtuals nspin (zoccs g))) in *.
  assert (IA : forall z, In z A <-> vacant nspin g z /\ alpha nspin z) by (apply alphas_In; auto).
  assert (IB : forall z, In z B <-> vacant nspin g z /\ ~ alpha nspin z) by (apply betas_In; auto).
  assert (NA : NoDup A) by apply Nf. assert (NB : NoDup B) by apply Nf. clearbody A B.
  assert (Main : forall k1 k2, NoDup k1 -> NoDup k2 -> (forall e, In e k1 -> length e = 2) -> (forall e, In e k2 -> length e = 4) ->
     NoDup (k1 ++ k2) /\ add_shifted (number k1) (number k2) = number (k1 ++ k2) /\ forall e, In e (k1 ++ k2) <-> In e k1 \/ In e k2).
  { intros k1 k2 N1 N2 L1 L2. assert (N : NoDup (k1 ++ k2)) by (apply (NoDup_len k1 k2 2); auto; intros e He; [rewrite L1|rewrite L2]; auto). split; [exact N|]. split; [now apply add_shifted_number|]. intros e. apply in_app_iff. }
  assert (DL : forall e, In e (pair_doubles ns (zoccs g) (virtuals nspin (zoccs g))) -> length e = 4) by (intros e He; apply PD in He; eapply from_pair_len; exact He).
  assert (AL : forall e, In e (any_doubles ns (zoccs g) (virtuals nspin (zoccs g))) -> length e = 4) by (intros e He; apply AD in He; eapply from_pair_len; exact He).
  assert (TD : forall l0 l1 e, In e (set_doubles ns (zoccs g) l0 l1) <-> from_pair nspin g (fun x y => In x l0 /\ In y l1) e) by (intros; apply set_doubles_In; auto).
  assert (TL : forall l0 l1 e, In e (set_doubles ns (zoccs g) l0 l1) -> length e = 4) by (intros l0 l1 e He; apply TD in He; eapply from_pair_len; exact He).
  assert (TN : forall l0 l1, NoDup l0 -> NoDup l1 -> NoDup (set_doubles ns (zoccs g) l0 l1)) by (intros; apply (set_doubles_NoDup nspin g); auto).
  assert (SI : forall l0 l1 e, In e (pair_singles ns (zoccs g) l0 l1) <-> single g (fun x v => (alpha nspin x /\ In v l0) \/ (~ alpha nspin x /\ In v l1)) e) by (intros; apply pair_singles_In; auto).
  assert (RI : forall ranks, (forall r, In r ranks -> (0 < r)%Z) -> forall e, In e (rank_keys ranks (zoccs g) (fun _ => virtuals nspin (zoccs g))) <-> all_of nspin g ranks e) by (intros; apply rank_all; auto).
  assert (RN : forall ranks, (forall r, In r ranks -> (0 < r)%Z) -> NoDup ranks -> NoDup (rank_keys ranks (zoccs g) (fun _ => virtuals nspin (zoccs g)))) by (intros; apply rank_all_NoDup; auto).
  assert (P12 : forall r, In r [1; 2]%Z -> (0 < r)%Z) by (intros r [<-|[<-|[]]]; lia). assert (P123 : forall r, In r [1; 2; 3]%Z -> (0 < r)%Z) by (intros r [<-|[<-|[<-|[]]]]; lia).
  assert (N12 : NoDup [1; 2]%Z) by (repeat (constructor; [cbn; lia|]); constructor). assert (N123 : NoDup [1; 2; 3]%Z) by (repeat (constructor; [cbn; lia|]); constructor).
  destruct c; destruct indices as [l|]; try discriminate; cbn [class_ranks length Nat.sub firstn] in H; cbn [operator_of].
  - apply Ok_inj in H. subst d. eexists. split; [exact PN|]. split; [reflexivity|]. split; [exact PD|auto].
  - apply Ok_inj in H. subst d. destruct (Main _ _ (SN A B NA NB) PN (Sl A B) DL) as (N & E & I). rewrite E. eexists. split; [exact N|]. split; [reflexivity|]. split; [|auto].
    intros e. rewrite I, PD, SI. erewrite single_iff; [reflexivity|]. intros x v _. cbn beta. rewrite IA, IB. unfold alpha. destruct (Z_lt_dec x (nspin / 2)), (Z_lt_dec v (nspin / 2)); tauto.
  - apply Ok_inj in H. subst d. destruct (Main _ _ (SN _ _ Nv Nv) PN (Sl _ _) DL) as (N & E & I). rewrite E. eexists. split; [exact N|]. split; [reflexivity|]. split; [|auto].
    intros e. now rewrite I, PD, SV.
  - apply Ok_inj in H. subst d. eexists. split; [exact AN|]. split; [reflexivity|]. split; [exact AD|auto].
  - apply Ok_inj in H. subst d. destruct (Main _ _ (SN _ _ Nv Nv) AN (Sl _ _) AL) as (N & E & I). rewrite E. eexists. split; [exact N|]. split; [reflexivity|]. split; [|auto].
    intros e. now rewrite I, AD, SV.
  - destruct (two_sets (zoccs g) l) as [s|] eqn:Es; [|discriminate]. cbn [bind] in H. apply Ok_inj in H. subst d. apply two_sets_ok in Es as (l0 & l1 & -> & -> & Hl & Dl). cbn [fst snd].
    eexists. split; [exact (TN _ _ (SS_NoDup _ (sorted_set_sorted l0)) (SS_NoDup _ (sorted_set_sorted l1)))|]. split; [reflexivity|]. split.
    + intros e. rewrite TD. apply from_pair_iff. intros x v. cbn [set0 set1]. now rewrite !sorted_set_In.
    + right. split; [reflexivity|]. exists l0, l1. split; [reflexivity|]. split; [|auto]. intros z Hz. destruct (Hl z Hz). split; auto. now rewrite <- F_In.
  - apply Ok_inj in H. subst d. eexists. split; [exact (TN A B NA NB)|]. split; [reflexivity|]. split; [|auto]. intros e. rewrite TD. apply from_pair_iff. intros x v. cbn [set0 set1]. now rewrite IA, IB.
  - destruct (two_sets (zoccs g) l) as [s|] eqn:Es; [|discriminate]. cbn [bind] in H. apply Ok_inj in H. subst d. apply two_sets_ok in Es as (l0 & l1 & -> & -> & Hl & Dl). cbn [fst snd].
    destruct (Main (pair_singles ns (zoccs g) (sorted_set l0) (sorted_set l1)) (set_doubles ns (zoccs g) A B)) as (N & E & I); auto.
    { apply SN; apply SS_NoDup, sorted_set_sorted. } { apply Sl. } { apply TL. }
    rewrite E. eexists. split; [exact N|]. split; [reflexivity|]. split.
    + intros e. rewrite I, SI, TD. erewrite single_iff; [erewrite from_pair_iff; [reflexivity|]|].
      * intros x v. cbn [set0 set1]. now rewrite IA, IB.
      * intros x v _. cbn [set0 set1]. now rewrite !sorted_set_In.
    + right. split; [reflexivity|]. exists l0, l1. split; [reflexivity|]. split; [|auto]. intros z Hz. destruct (Hl z Hz). split; auto. now rewrite <- F_In.
  - apply Ok_inj in H. subst d. destruct (Main _ _ (SN A B NA NB) (TN A B NA NB) (Sl A B) (TL A B)) as (N & E & I). rewrite E. eexists. split; [exact N|]. split; [reflexivity|]. split; [|auto].
    intros e. rewrite I, SI, TD. erewrite single_iff; [erewrite from_pair_iff; [reflexivity|]|].
    + intros x v. cbn [set0 set1]. now rewrite IA, IB.
    + intros x v _. cbn [set0 set1]. now rewrite IA, IB.
  - apply Ok_inj in H. subst d. pose proof (all_singles_In nspin g) as SA. pose proof (all_singles_NoDup nspin g) as SAN.
    destruct (Main _ _ SAN PN) as (N & E & I); [intros e He; apply SA in He; eapply single_len; eauto|exact DL|]. eexists. split; [exact N|]. split; [reflexivity|]. split; [|auto].
    intros e. now rewrite I, PD, SA.
  - apply Ok_inj in H. subst d. match goal with |- context [number ?k] => exists k end. split; [apply (NoDup_len _ _ 4); [apply RN; auto|exact QN| |]|].
    + intros e He. apply RI in He; auto. apply all_length in He as (r & [<-|[<-|[]]] & E); lia.
    + intros e He. apply QD, two_pairs_len in He. lia.
    + split; [reflexivity|]. split; [|auto]. intros e. rewrite in_app_iff, QD, RI by auto. reflexivity.
  - apply Ok_inj in H. subst d. match goal with |- context [number ?k] => exists k end. split; [apply (NoDup_len _ _ 6); [apply RN; auto|exact QN| |]|].
    + intros e He. apply RI in He; auto. apply all_length in He as (r & [<-|[<-|[<-|[]]]] & E); lia.
    + intros e He. apply QD, two_pairs_len in He. lia.
    + split; [reflexivity|]. split; [|auto]. intros e. rewrite in_app_iff, QD, RI by auto. reflexivity.
  - apply Ok_inj in H. subst d. assert (T3 : forall e, In e (pair_triples ns (zoccs g) (virtuals nspin (zoccs g))) <-> pair_and_one nspin g e) by (apply triples_In; auto).
    assert (T3N : NoDup (pair_triples ns (zoccs g) (virtuals nspin (zoccs g)))) by (apply triples_NoDup; auto).
    match goal with |- context [number ?k] => exists k end. split; [apply (NoDup_len _ _ 4); [apply RN; auto|apply (NoDup_len _ _ 6); auto| |]|].
    + intros e He. apply T3, pair_one_len in He. lia.
    + intros e He. apply QD, two_pairs_len in He. lia.
    + intros e He. apply RI in He; auto. apply all_length in He as (r & [<-|[<-|[]]] & E); lia.
    + intros e He. apply in_app_iff in He as [He|He]; [apply T3, pair_one_len in He|apply QD, two_pairs_len in He]; lia.
    + split; [reflexivity|]. split; [|auto]. intros e. rewrite !in_app_iff, QD, T3, RI by auto. reflexivity.
Qed.

(** ** references *)
Lemma ground_closed : forall nelec nspin g, ground nelec nspin = Ok g -> (nelec mod 2 = 0)%Z -> nspin = (2 * (nspin / 2))%Z -> closed (nspin / 2) g.
Proof.
  intros nelec nspin g H E Ev. apply ground_value in H as (B & _ & H). intros z Hz. apply CCLemmas.zoccs_In in Hz as [P Hz]. rewrite H in Hz. unfold ground_bits in Hz.
  assert (N : ((nelec + 1) / 2 = nelec / 2)%Z) by (Z.div_mod_to_equations; lia). rewrite N in *. set (n := (nelec / 2)%Z) in *. set (ns := (nspin / 2)%Z) in *.
  assert (nelec = 2 * n)%Z by (unfold n; Z.div_mod_to_equations; lia). assert (Bn : (0 < n <= ns)%Z) by lia. clearbody n ns.
  apply orb_true_iff in Hz. rewrite andb_true_iff, !Nat.ltb_lt, Nat.leb_le in Hz. split; [destruct Hz; lia|]. apply CCLemmas.zoccs_In. rewrite H. unfold ground_bits, partner.
  rewrite orb_true_iff, andb_true_iff, !Nat.ltb_lt, Nat.leb_le. destruct (Z.ltb_spec z ns); split; lia.
Qed.
Lemma reference_closed : forall nelec nspin sd ref, pair_reference nelec nspin (Some sd) = Ok ref -> nspin = (2 * (nspin / 2))%Z -> (forall i, bit sd i = true -> (Z.of_nat i < nspin)%Z) ->
  ref = sd /\ closed (nspin / 2) ref.
Proof.
  intros nelec nspin sd ref H Ev Fits. unfold pair_reference in H. destruct (negb _); [discriminate|]. destruct (forallb _ _ && _)%bool eqn:E; [|discriminate].
  apply Ok_inj in H. subst ref. split; [reflexivity|]. apply andb_true_iff in E as [E1 E2]. rewrite forallb_forall in E1, E2. set (ns := (nspin / 2)%Z) in *. clearbody ns.
  assert (R : forall z, In z (zoccs sd) -> (0 <= z < nspin)%Z) by (intros z Hz; apply CCLemmas.zoccs_In in Hz as [P Hz]; apply Fits in Hz; lia).
  intros z Hz. pose proof (R z Hz) as Bz. split; [lia|]. rewrite <- (firstn_skipn (Z.to_nat (nelec / 2)) (zoccs sd)) in Hz. apply in_app_iff in Hz as [Hz|Hz].
  - apply E1 in Hz. apply PccdRows.memz_In in Hz. pose proof (R _ Hz). unfold partner. destruct (Z.ltb_spec z ns); [auto|lia].
  - apply E2 in Hz. apply PccdRows.memz_In in Hz. pose proof (R _ Hz). unfold partner. destruct (Z.ltb_spec z ns); [lia|auto].
Qed.

Section Built.
Context {K : CRing}.
Local Open Scope cr_scope.
Definition stock (c : pclass) (nspin : Z) (ref : N) (indices : option (list (list Z))) : res exops := pair_exops c nspin (class_ranks c) ref indices.
Record pbuilt (c : pclass) (nelec nspin : Z) (ranks : ranksarg) (indices : option (list (list Z))) (refwfn : option N) (given : bool)
  (p : pcc K) (g ref : N) : Prop := mkpbuilt {
  pb_nelec : (0 < nelec)%Z /\ (nelec mod 2 = 0)%Z; pb_nspin : (0 < nspin)%Z /\ nspin = (2 * (nspin / 2))%Z;
  pb_ground : ground nelec nspin = Ok g; pb_ref : pair_reference nelec nspin refwfn = Ok ref;
  pb_none : ranks = RanksNone; pb_class : p_class p = c;
  pb_cc : cc_class (p_cc p) = CCBase /\ cc_ref (p_cc p) = RSd ref /\ cc_ranks (p_cc p) = class_ranks c /\ cc_nspin (p_cc p) = nspin /\ cc_nelec (p_cc p) = nelec;
  pb_combs : cc_combs (p_cc p) = if given then None else Some [];
  pb_exops : stock c nspin (if pairlike c then g else ref) indices = Ok (cc_exops (p_cc p));
  pb_ops : exists d, stock c nspin g (if pairlike c then indices else None) = Ok d /\ p_ops p = map fst (sorted_key (fun ei => Z.of_nat (snd ei)) d);
  pb_params : exists d, stock c nspin g None = Ok d /\ length (cc_params (p_cc p)) = length d }.
Lemma new_pcc_built : forall c nelec nspin ranks indices refwfn ps given refresh (p : pcc K),
  new_pcc c nelec nspin ranks indices refwfn ps given refresh = Ok p -> exists g ref, pbuilt c nelec nspin ranks indices refwfn given p g ref.
Proof.
  intros c nelec nspin ranks indices refwfn ps given refresh p H. unfold new_pcc in H.
  unfold assign_nelec in H. destruct (Z.leb_spec nelec 0); [discriminate|]. cbn [bind] in H. destruct (Z.eqb_spec (nelec mod 2) 0); [|discriminate]. cbn [negb] in H.
  unfold assign_nspin in H. destruct (Z.leb_spec nspin 0); [discriminate|]. destruct (Z.eqb_spec (nspin mod 2) 1); [discriminate|]. cbn [bind] in H.
  assert (Ev : nspin = (2 * (nspin / 2))%Z) by (clear - n; Z.div_mod_to_equations; lia).
  destruct (pair_ranks c nelec RanksNone) as [rk|] eqn:Er; [|discriminate]. cbn [bind] in H. apply pair_ranks_ok in Er as Er'. destruct Er' as [_ ->].
  destruct (ground nelec nspin) as [g|] eqn:Eg; [|discriminate]. cbn [bind] in H.
  destruct (pair_exops c nspin (class_ranks c) g None) as [d|] eqn:Ed; [|discriminate]. cbn [bind] in H.
  match type of H with bind ?X _ = _ => destruct X as [w1|] eqn:Ep; [|discriminate] end. cbn [bind] in H. apply assign_params_inv in Ep as [Lp Ew]. cbn [cc_exops] in Lp.
  assert (Ec : cc_combs w1 = if given then None else Some []) by (rewrite Ew; reflexivity).
  set (late := match c with PSen0 | PQuad | PTripQuad | PTrip2Quad => true | _ => false end) in *.
  assert (El : late = negb (pairlike c)) by (unfold late; destruct c; reflexivity). clearbody late. subst late.
  destruct (pair_ranks c nelec (if negb (pairlike c) then RanksNone else ranks)) as [rk1|] eqn:Er1; [|discriminate]. cbn [bind] in H.
  apply pair_ranks_ok in Er1 as [Ra ->].
  destruct (pair_exops c nspin (class_ranks c) g (if negb (pairlike c) then None else indices)) as [d1|] eqn:Ed1; [|discriminate]. cbn [bind] in H.
  destruct (pair_reference nelec nspin refwfn) as [ref|] eqn:Eref; [|discriminate]. cbn [bind] in H.
  exists g, ref. destruct (pairlike c) eqn:Pc; cbn [negb] in *.
  - cbn [bind] in H. apply Ok_inj in H. subst p. constructor; auto; cbn [p_cc cc_class cc_ref cc_ranks cc_nspin cc_nelec cc_exops cc_params p_ops]; rewrite ?Pc; eauto.
  - destruct (pair_ranks c nelec ranks) as [rk2|] eqn:Er2; [|discriminate]. cbn [bind] in H. apply pair_ranks_ok in Er2 as [Ra2 ->].
    destruct (pair_exops c nspin (class_ranks c) ref indices) as [d2|] eqn:Ed2; [|discriminate]. cbn [bind] in H. apply Ok_inj in H. subst p.
    constructor; auto; cbn [p_cc cc_class cc_ref cc_ranks cc_nspin cc_nelec cc_exops cc_params p_ops]; rewrite ?Pc; eauto.
Qed.
Lemma number_facts : forall keys, NoDup keys -> number keys = combine keys (seq 0 (length keys)) /\ map fst (number keys) = keys /\ length (number keys) = length keys.
Proof. intros keys N. rewrite number_eq by auto. split; [auto|]. rewrite combine_fst', combine_length, seq_length, Nat.min_id by (now rewrite seq_length). auto. Qed.

Section Facts.
Variables (c : pclass) (nelec nspin : Z) (ranks : ranksarg) (indices : option (list (list Z))) (refwfn : option N) (p : pcc K) (g ref : N).
Hypothesis B : pbuilt c nelec nspin ranks indices refwfn false p g ref.
(** the orbitals of the given reference are orbitals of the wavefunction *)
Hypothesis Fits : forall i, bit ref i = true -> (Z.of_nat i < nspin)%Z.
Let base : N := if pairlike c then g else ref.
Lemma pb_even : nspin = (2 * (nspin / 2))%Z.
Proof. apply (proj2 (pb_nspin _ _ _ _ _ _ _ _ _ _ B)). Qed.
Lemma g_closed : closed (nspin / 2) g.
Proof. eapply ground_closed; [exact (pb_ground _ _ _ _ _ _ _ _ _ _ B)|apply (pb_nelec _ _ _ _ _ _ _ _ _ _ B)|apply pb_even]. Qed.
Lemma ref_closed : closed (nspin / 2) ref.
Proof.
  pose proof (pb_ref _ _ _ _ _ _ _ _ _ _ B) as R. pose proof pb_even as Ev. pose proof (proj2 (pb_nelec _ _ _ _ _ _ _ _ _ _ B)) as Ne. revert R. generalize refwfn. intros [sd|] R.
  - assert (Es : sd = ref) by (unfold pair_reference in R; destruct (negb _); [discriminate|]; destruct (_ && _)%bool; [|discriminate]; now injection R). rewrite Es in R.
    eapply reference_closed; [exact R|exact Ev|exact Fits].
  - cbn [pair_reference] in R. eapply ground_closed; [exact R|exact Ne|exact Ev].
Qed.
Lemma base_closed : closed (nspin / 2) base.
Proof. unfold base. destruct (pairlike c); [apply g_closed|apply ref_closed]. Qed.
Lemma built_keys : NoDup (keys_of (p_cc p)) /\ cc_exops (p_cc p) = combine (keys_of (p_cc p)) (seq 0%nat (length (keys_of (p_cc p)))) /\
  (forall e, In e (keys_of (p_cc p)) <-> operator_of nspin base c indices e) /\
  (indices = None \/ (setlike c = true /\ exists l0 l1, indices = Some [l0; l1] /\ (forall z, In z l0 \/ In z l1 -> (0 <= z)%Z /\ ~ occupied base z) /\ (forall z, In z l0 -> ~ In z l1))).
Proof.
  destruct (exops_keys c nspin base indices (cc_exops (p_cc p)) pb_even base_closed (pb_exops _ _ _ _ _ _ _ _ _ _ B)) as (keys & N & E & I & J).
  destruct (number_facts keys N) as (E1 & E2 & _). assert (Ek : keys_of (p_cc p) = keys) by (unfold keys_of; now rewrite E). rewrite Ek. split; [auto|]. split; [now rewrite E|]. auto.
Qed.
(** ind_exops lists the operators unless a reference was given to one of the last four classes *)
Hypothesis Current : pairlike c = false -> ref = g.
Hypothesis Sizes : length (cc_params (p_cc p)) = length (cc_exops (p_cc p)).
Lemma built_ops : p_ops p = keys_of (p_cc p).
Proof.
  destruct (pb_ops _ _ _ _ _ _ _ _ _ _ B) as (d & Ed & ->).
  assert (Ei : pairlike c = false -> indices = None) by (intros Pc; destruct built_keys as (_ & _ & _ & [E|(S & _)]); [exact E|destruct (set_is_pair c Pc S)]).
  assert (Ek : cc_exops (p_cc p) = combine (keys_of (p_cc p)) (seq 0%nat (length (keys_of (p_cc p))))) by apply built_keys.
  pose proof (pb_exops _ _ _ _ _ _ _ _ _ _ B) as X. revert Ei Current Ed X. generalize (pairlike c). intros b Ei Cu Ed X. assert (Eq : d = cc_exops (p_cc p)).
  { destruct b; [|rewrite (Cu eq_refl), (Ei eq_refl) in X]; rewrite Ed in X; now injection X. }
  rewrite Eq, Ek. apply sorted_number.
Qed.
Lemma built_pready : pready p ref /\ ptab p ref.
Proof.
  destruct built_keys as (N & E & _). destruct (pb_cc _ _ _ _ _ _ _ _ _ _ B) as (C1 & C2 & C3 & C4 & _). split.
  - constructor; [|exact built_ops|rewrite C4; apply ref_closed]. constructor; auto.
    + rewrite C1. discriminate.
    + rewrite C3. apply class_ranks_ok.
    + rewrite C3. apply class_ranks_ok.
    + rewrite Sizes. unfold keys_of. now rewrite map_length.
  - exists []. split; [exact (pb_combs _ _ _ _ _ _ _ _ _ _ B)|]. discriminate.
Qed.
Lemma occ_base : forall z, occupied base z -> (0 <= z < nspin)%Z /\ occupied base (partner (nspin / 2) z).
Proof. apply occ_range; [apply pb_even|apply base_closed]. Qed.
(** what is emptied is occupied, what is filled is not *)
Lemma key_halves : forall e, In e (keys_of (p_cc p)) -> In (Z.of_nat (length (annihilators e))) (class_ranks c) /\ length (annihilators e) = length (creators e) /\
  (forall z, In z (annihilators e) -> occupied base z) /\ (forall z, In z (creators e) -> (0 <= z)%Z /\ ~ occupied base z).
Proof.
  intros e He. destruct built_keys as (_ & _ & I & J). apply I in He. clear I.
  assert (V : forall z, vacant nspin base z -> (0 <= z)%Z /\ ~ occupied base z) by (intros z [H1 H2]; split; [lia|]; intros [_ X]; congruence).
  assert (P : forall i, occupied base i -> alpha nspin i -> occupied base (i + nspin / 2)) by (intros i O A; apply of_beta; auto; [apply pb_even|apply base_closed]).
  assert (VP : forall a, vacant nspin base a -> alpha nspin a -> vacant nspin base (a + nspin / 2)).
  { intros a Va A. destruct (T_closed nspin base pb_even base_closed a) as [R X]; [now apply T_In|]. apply T_In in X. unfold partner in X. unfold alpha in A. destruct (Z.ltb_spec a (nspin / 2)); [auto|lia]. }
  assert (Si : forall Q : Z -> Z -> Prop, (forall x v, Q x v -> (0 <= v)%Z /\ ~ occupied base v) -> single base Q e -> length (annihilators e) = 1%nat /\ length (annihilators e) = length (creators e) /\
    (forall z, In z (annihilators e) -> occupied base z) /\ (forall z, In z (creators e) -> (0 <= z)%Z /\ ~ occupied base z)).
  { intros Q HQ (x & v & -> & O & HQ'). cbn. split; [auto|]. split; [auto|]. split; intros z [<-|[]]; eauto. }
  assert (Do : forall Q : Z -> Z -> Prop, (forall x v, Q x v -> ((0 <= x)%Z /\ ~ occupied base x) /\ ((0 <= v)%Z /\ ~ occupied base v)) -> from_pair nspin base Q e -> length (annihilators e) = 2%nat /\ length (annihilators e) = length (creators e) /\
    (forall z, In z (annihilators e) -> occupied base z) /\ (forall z, In z (creators e) -> (0 <= z)%Z /\ ~ occupied base z)).
  { intros Q HQ (i & x & y & -> & O & A & HQ'). apply HQ in HQ' as [H1 H2]. cbn. split; [auto|]. split; [auto|]. split; intros z [<-|[<-|[]]]; auto. }
  assert (PP : pair_to_pair nspin base e -> length (annihilators e) = 2%nat /\ length (annihilators e) = length (creators e) /\
    (forall z, In z (annihilators e) -> occupied base z) /\ (forall z, In z (creators e) -> (0 <= z)%Z /\ ~ occupied base z)).
  { apply Do. intros x y (H1 & H2 & ->). auto. }
  assert (QQ : two_pairs nspin base e -> length (annihilators e) = 4%nat /\ length (annihilators e) = length (creators e) /\
    (forall z, In z (annihilators e) -> occupied base z) /\ (forall z, In z (creators e) -> (0 <= z)%Z /\ ~ occupied base z)).
  { intros (i & j & a & b & -> & O1 & O2 & L1 & A1 & V1 & V2 & L2 & A2). assert (alpha nspin i) by (unfold alpha in *; lia). assert (alpha nspin a) by (unfold alpha in *; lia).
    cbn. split; [auto|]. split; [auto|]. split; intros z [<-|[<-|[<-|[<-|[]]]]]; auto. }
  assert (TT : pair_and_one nspin base e -> length (annihilators e) = 3%nat /\ length (annihilators e) = length (creators e) /\
    (forall z, In z (annihilators e) -> occupied base z) /\ (forall z, In z (creators e) -> (0 <= z)%Z /\ ~ occupied base z)).
  { intros (i & k & a & b & -> & O1 & A1 & O2 & D1 & V1 & A2 & V2 & D2). cbn. split; [auto|]. split; [auto|]. split; intros z [<-|[<-|[<-|[]]]]; auto. }
  assert (AA : forall rk, all_of nspin base rk e -> In (Z.of_nat (length (annihilators e))) rk /\ length (annihilators e) = length (creators e) /\
    (forall z, In z (annihilators e) -> occupied base z) /\ (forall z, In z (creators e) -> (0 <= z)%Z /\ ~ occupied base z)).
  { intros rk (ann & cre & Sh & H1 & H2). destruct (shape_halves _ _ _ _ Sh) as [-> ->]. destruct Sh as (_ & L & R & _). split; [auto|]. split; [auto|]. split; auto. }
  assert (S0 : forall z, set0 nspin base indices z -> (0 <= z)%Z /\ ~ occupied base z).
  { intros z Hz. destruct J as [->|(_ & l0 & l1 & -> & Hl & _)]; cbn [set0] in Hz; [apply V, Hz|auto]. }
  assert (S1 : forall z, set1 nspin base indices z -> (0 <= z)%Z /\ ~ occupied base z).
  { intros z Hz. destruct J as [->|(_ & l0 & l1 & -> & Hl & _)]; cbn [set1] in Hz; [apply V, Hz|auto]. }
  assert (Fin : forall n (Z1 Z2 Z3 : Prop), In (Z.of_nat n) (class_ranks c) -> (length (annihilators e) = n /\ Z1 /\ Z2 /\ Z3) -> In (Z.of_nat (length (annihilators e))) (class_ranks c) /\ Z1 /\ Z2 /\ Z3).
  { intros n Z1 Z2 Z3 H (-> & H1 & H2 & H3). auto. }
  revert He Fin. clear J. generalize c. clear - Si Do PP QQ TT AA S0 S1 V. intros c0 He Fin. destruct c0; cbn [operator_of] in He; cbn [class_ranks] in *.
  - apply (Fin 2%nat); [cbn; auto|]. auto.
  - destruct He as [He|He]; [apply (Fin 1%nat)|apply (Fin 2%nat)]; try (cbn; tauto); auto. eapply Si; [|exact He]. intros x v [Hv _]. auto.
  - destruct He as [He|He]; [apply (Fin 1%nat)|apply (Fin 2%nat)]; try (cbn; tauto); auto. eapply Si; [|exact He]. intros x v Hv. auto.
  - apply (Fin 2%nat); [cbn; auto|]. eapply Do; [|exact He]. intros x v (H1 & H2 & _). auto.
  - destruct He as [He|He]; [apply (Fin 1%nat)|apply (Fin 2%nat)]; try (cbn; tauto); auto; [eapply Si; [|exact He]; intros x v Hv; auto|eapply Do; [|exact He]; intros x v (H1 & H2 & _); auto].
  - apply (Fin 2%nat); [cbn; auto|]. eapply Do; [|exact He]. intros x v (H1 & H2). auto.
  - destruct He as [He|He]; [apply (Fin 1%nat)|apply (Fin 2%nat)]; try (cbn; tauto); auto; [eapply Si; [|exact He]; intros x v [[_ Hv]|[_ Hv]]; auto|eapply Do; [|exact He]; intros x v ([H1 _] & [H2 _]); auto].
  - destruct He as [He|He]; [apply (Fin 1%nat)|apply (Fin 2%nat)]; try (cbn; tauto); auto. eapply Si; [|exact He]. intros x v Hv. auto.
  - destruct He as [He|He]; [apply AA in He as (R & H); split; [|exact H]; cbn in *; tauto|apply (Fin 4%nat); [cbn; tauto|auto]].
  - destruct He as [He|He]; [apply AA in He as (R & H); split; [|exact H]; cbn in *; tauto|apply (Fin 4%nat); [cbn; tauto|auto]].
  - destruct He as [He|[He|He]]; [apply AA in He as (R & H); split; [|exact H]; cbn in *; tauto|apply (Fin 3%nat); [cbn; tauto|auto]|apply (Fin 4%nat); [cbn; tauto|auto]].
Qed.
Lemma built_separated : separated (keys_of (p_cc p)).
Proof. intros e e' z He He' Hz Hz'. apply key_halves in He as (_ & _ & H & _). apply key_halves in He' as (_ & _ & _ & H'). apply H in Hz. apply H' in Hz'. tauto. Qed.
Lemma built_ordered : forall e, In e (keys_of (p_cc p)) -> ordered e = true -> good_key (cc_ranks (p_cc p)) e.
Proof.
  intros e He O. destruct (PccdExp.ordered_iff e) as [X _]. apply X in O as [O1 O2]. destruct (key_halves e He) as (R & L & H1 & H2). destruct (pb_cc _ _ _ _ _ _ _ _ _ _ B) as (_ & _ & -> & _).
  repeat split; auto. intros z Hz. rewrite <- (halves e) in Hz. apply in_app_iff in Hz as [Hz|Hz]; [apply (H1 z Hz)|apply (H2 z Hz)].
Qed.
End Facts.
End Built.
