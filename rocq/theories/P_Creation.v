(** C66: the creation coupled cluster wavefunction, exp(sum c_ij a+_i a+_j)|0> (fanpy/wfn/creation_cc.py) *)
From Coq Require Import List ZArith NArith Arith Bool Lia Permutation Sorted Ring_theory.
From Verif Require Import Py Slater BitSpec BitLemmas SlaterBits SlaterBits2 Combos Alg SdLemmas SignSpec SignLemmas PermLemmas MatchSpec MatchLemmas GeneralLemmas
  Graphs WfnCI Geminal GemPairs CreSpec CreLemmas GemMain GemSchemes GemFinal CILemmas CCLemmas MathTools EqnSpec EqnLemmas P_CI
  Creation CreationSpec CreationLemmas CreationGood CreationPf BicliqueLemmas CreationOlp CreationInit CreationEx.
Import ListNotations.
Local Open Scope nat_scope.

(** ** auxiliary *)
Lemma pfl_length : forall h n l, length l = 2 * h -> length l <= n -> length (pfl n l) = double_fact h.
Proof.
  induction h as [|h IH]; intros n l L Ln; [destruct l; [|discriminate]; now rewrite pfl_nil|]. destruct l as [|x t]; [discriminate|]. cbn [length] in L, Ln. destruct n as [|n]; [lia|]. cbn [pfl].
  assert (X : forall js, (forall j, In j js -> j < length t) ->
    length (flat_map (fun j => map (fun q => ((x, nth j t 0%Z) :: fst q, (pow_m1 j * snd q)%Z)) (pfl n (firstn j t ++ skipn (S j) t))) js) = length js * double_fact h).
  { induction js as [|j js Ij]; intros H; auto. cbn [flat_map length]. rewrite app_length, map_length, Ij by (intros i Hi; apply H; now right). pose proof (cut_length j t (H j (or_introl eq_refl))). rewrite IH by lia. cbn [Nat.mul]. reflexivity. }
  rewrite X by (intros j Hj; apply in_seq in Hj; lia). rewrite seq_length. cbn [double_fact]. f_equal. lia.
Qed.
Lemma sum_one : forall {A} (l : list A), sumf (K := Z_ring) (fun _ => 1%Z) l = Z.of_nat (length l).
Proof. induction l as [|x l IH]; auto. rewrite sumf_cons, IH. cbn [length]. change (1 + Z.of_nat (length l) = Z.of_nat (S (length l)))%Z. lia. Qed.
Lemma good_length : forall pairs occ g1 g2 L1 L2, good_schemes pairs occ g1 L1 -> good_schemes pairs occ g2 L2 -> length L1 = length L2.
Proof.
  intros pairs occ g1 g2 L1 L2 (A1 & B1 & C1) (A2 & B2 & C2). apply Nat2Z.inj. rewrite <- !sum_one.
  assert (D : forall L : list (scheme * Z), pairwise_distinct (@Permutation (Z * Z)) (map fst L) -> pairwise_distinct (fun p q => Permutation (fst p) (fst q)) L).
  { clear. unfold pairwise_distinct. induction L as [|p L IH]; intros H; cbn [map] in H; inversion H as [|? ? F H']; subst; constructor; auto. rewrite Forall_forall in *. intros q Hq P. apply (F (fst q)); auto. now apply in_map. }
  apply (sum_match (K := Z_ring) (fun p q => Permutation (fst p) (fst q))); auto.
  - intros x y H. now symmetry.
  - intros x y z H1 H2. now rewrite H1.
  - intros p Hp. destruct (A1 p Hp) as (I & k & W & _). destruct (B2 (fst p) I (swaps_perm _ _ _ W)) as (q & Hq & P). eauto.
  - intros q Hq. destruct (A2 q Hq) as (I & k & W & _). destruct (B1 (fst q) I (swaps_perm _ _ _ W)) as (p & Hp & P). exists p. split; auto. now symmetry.
Qed.
Lemma seq_sorted : forall n s, StronglySorted lt (seq s n).
Proof. induction n as [|n IH]; intros s; cbn [seq]; constructor; auto. rewrite Forall_forall. intros x Hx. apply in_seq in Hx. lia. Qed.
Lemma orbs_seq : forall h e, is_perm h e -> orbs (seq 0 (2 * h)) e = zpairs e.
Proof. intros h e (S & _). unfold orbs, zpairs. apply map_ext_in. intros p Hp. pose proof (perm_range h e S p Hp). unfold orb. rewrite !seq_nth by lia. reflexivity. Qed.
Lemma lowest_seq : forall h, lowest h (seq 0 (2 * h)) = map Z.of_nat (seq 0 (2 * h)).
Proof. intros h. unfold lowest. rewrite <- (seq_length (2 * h) 0) at 1. now rewrite firstn_all. Qed.
Lemma positions_good : forall h, good_schemes (all_pairs (2 * h)) (map Z.of_nat (seq 0 (2 * h))) 1 (map (fun p => (zpairs (fst p), snd p)) (cr_permutations (Z.of_nat (2 * h)))).
Proof.
  intros h. rewrite <- lowest_seq. replace (map (fun p => (zpairs (fst p), snd p)) (cr_permutations (Z.of_nat (2 * h)))) with (crl (seq 0 (2 * h)) h).
  - apply crl_good; [apply seq_sorted|rewrite seq_length; auto| |].
    + intros x y Hx Hy L. rewrite lowest_seq in Hx, Hy. apply in_map_iff in Hx as (i & <- & Hi), Hy as (j & <- & Hj). apply in_seq in Hi, Hj. apply all_pairs_In. cbn [fst snd]. lia.
    + intros p Hp. apply all_pairs_In in Hp. lia.
  - unfold crl. apply map_ext_in. intros [e s] H. apply perms_In in H as [H _]. cbn [fst snd]. f_equal. now apply orbs_seq.
Qed.
(** a matching with a given pair *)
Lemma sorted_drop : forall a x b, StronglySorted Z.lt (a ++ x :: b) -> StronglySorted Z.lt (a ++ b).
Proof.
  induction a as [|y a IH]; intros x b S; cbn [app] in *; inversion S as [|? ? S' F]; subst; auto. constructor; [eapply IH; eauto|]. rewrite Forall_forall in *. intros z Hz. apply F.
  apply in_app_iff in Hz as [Hz|Hz]; apply in_or_app; [now left|right; now right].
Qed.
Lemma twos_sorted : forall n l, length l = 2 * n -> StronglySorted Z.lt l -> forall p, In p (twos l) -> (fst p < snd p)%Z.
Proof.
  induction n as [|n IH]; intros [|x [|y l]] L S p Hp; cbn [length] in L; try lia; [destruct Hp|]. inversion S as [|? ? S' F]; subst. inversion S' as [|? ? S'' F']; subst. destruct Hp as [<-|Hp].
  - cbn [fst snd]. inversion F; auto.
  - apply (IH l); auto. lia.
Qed.
Lemma matching_with : forall h l x y, length l = 2 * h -> StronglySorted Z.lt l -> In x l -> In y l -> (x < y)%Z ->
  exists qs, In (x, y) qs /\ Permutation (flat qs) l /\ forall p, In p qs -> (fst p < snd p)%Z.
Proof.
  intros h l x y L S Hx Hy D. apply in_split in Hx as (a & b & ->). assert (Hy' : In y (a ++ b)) by (apply in_app_iff in Hy as [Hy|[Hy|Hy]]; [apply in_or_app; auto|lia|apply in_or_app; auto]).
  apply sorted_drop in S. apply in_split in Hy' as (c & d & E). rewrite E in S. apply sorted_drop in S. destruct h as [|h]; [rewrite app_length in L; cbn in L; lia|].
  assert (P : Permutation (a ++ x :: b) (x :: y :: c ++ d)). { rewrite <- Permutation_middle. constructor. rewrite E. rewrite <- Permutation_middle. reflexivity. }
  exists ((x, y) :: twos (c ++ d)). assert (Lc : length (c ++ d) = 2 * h) by (apply Permutation_length in P; rewrite L in P; cbn [length] in P; lia). split; [now left|]. split.
  - cbn [flat]. rewrite P, (flat_twos h) by auto. reflexivity.
  - intros p [<-|Hp]; auto. eapply twos_sorted; eauto.
Qed.
Lemma mapM_error : forall {A B} (f : A -> res B) e l x, (forall x, In x l -> (exists y, f x = Ok y) \/ f x = Err e) -> In x l -> f x = Err e -> mapM f l = Err e.
Proof.
  intros A B f e l. induction l as [|a l IH]; intros x H Hx E; [destruct Hx|]. cbn [mapM]. destruct (H a (or_introl eq_refl)) as [[y Ey]|Ey]; rewrite Ey; cbn [bind]; auto.
  destruct Hx as [->|Hx]; [congruence|]. rewrite (IH x); auto. intros z Hz. apply H. now right.
Qed.

Section C66.
Context {K : CField}.
Local Open Scope cr_scope.
Add Ring K_ring108 : (rth K).

(** ** construction *)
(** The constructor accepts exactly an even positive number of electrons, an even positive number of spin
    orbitals, distinct pairs of different orbitals, and parameters with an entry for every pair of the reference. *)
Theorem C66_constructor : forall ne ns o ps,
  (exists w : creation K, new_creation ne ns o ps = Ok w) <->
  exists h k pairs ref, (0 < h)%nat /\ (0 < k)%nat /\ ne = Z.of_nat (2 * h) /\ ns = Z.of_nat (2 * k) /\
    orbital_pairs ns o pairs /\ (o = None -> pairs = all_pairs (2 * k)) /\ reference h k ref /\
    forall p, In p ref -> exists i, nth_error pairs i = Some p /\ (i < length (given_params ns ps))%nat.
Proof.
  intros ne ns o ps. split.
  - intros [w E]. destruct (new_inv _ _ _ _ _ E) as (h & k & Hh & Hk & -> & -> & Ep & En & (_ & N & _) & _ & _ & Er).
    exists h, k, (cr_pairs w), (cr_reference (Z.of_nat (2 * h)) (Z.of_nat (2 * k))). repeat (split; auto).
    + intros Eo. rewrite En by auto. now rewrite Nat2Z.id.
    + apply cr_reference_spec.
    + now apply set_reference_inv with (l := cr_params w).
  - intros (h & k & pairs & ref & Hh & Hk & -> & -> & Ep & En & R & H). destruct (new_ok h k o ps pairs ref Hh Hk Ep En R H) as (w & E & _). eauto.
Qed.
(** What is refused with which exception. *)
Theorem C66_errors : forall ne ns o (ps : option (list K)) e, new_creation ne ns o ps = Err e ->
  e = ValueError \/ (e = NotImplementedError /\ (0 < ne)%Z /\ Z.odd ne = true) \/
  (e = IndexError /\ exists h k pairs ref p i, ne = Z.of_nat (2 * h) /\ ns = Z.of_nat (2 * k) /\ orbital_pairs ns o pairs /\ reference h k ref /\
     In p ref /\ nth_error pairs i = Some p /\ (length (given_params ns ps) <= i)%nat).
Proof.
  intros ne ns o ps e E. unfold new_creation in E. unfold cr_assign_nelec in E. destruct (Z.leb_spec ne 0); [injection E as <-; auto|].
  destruct (Z.eqb_spec (ne mod 2) 0) as [M|M]; cbn [negb bind] in E.
  2:{ injection E as <-. right. left. repeat split; auto. rewrite Zmod_odd in M. destruct (Z.odd ne); congruence. }
  unfold assign_nspin in E. destruct (Z.leb_spec ns 0); [injection E as <-; auto|]. destruct (Z.eqb_spec (ns mod 2) 1) as [|M2]; [injection E as <-; auto|]. cbn [bind] in E.
  destruct (cr_assign_orbpairs ns o) as [pairs|e'] eqn:Ep; cbn [bind] in E; [|injection E as <-; left; eapply orbpairs_err; eauto]. apply orbpairs_ok in Ep as [Ep _]; auto.
  destruct (cr_given ne ns pairs ps) as [l|e'] eqn:El; cbn [bind] in E; [discriminate|]. injection E as ->. unfold cr_given in El.
  destruct (set_reference_err _ _ _ _ (proj1 Ep) El) as [[-> _]|[-> (p & i & H1 & H2 & H3)]]; auto. right. right. split; auto.
  pose proof (Z.div_mod ne 2). pose proof (Z.div_mod ns 2). pose proof (Z.mod_pos_bound ns 2).
  assert (Hne : ne = Z.of_nat (2 * Z.to_nat (ne / 2))) by lia. assert (Hns : ns = Z.of_nat (2 * Z.to_nat (ns / 2))) by lia.
  exists (Z.to_nat (ne / 2)), (Z.to_nat (ns / 2)), pairs, (cr_reference ne ns), p, i. repeat (split; auto). pose proof (cr_reference_spec (Z.to_nat (ne / 2)) (Z.to_nat (ns / 2))) as R. now rewrite <- Hne, <- Hns in R.
Qed.
(** The parameters are those given, except that the entries of the reference are one. *)
Theorem C66_parameters : forall h k o ps (w : creation K) ref, new_creation (Z.of_nat (2 * h)) (Z.of_nat (2 * k)) o ps = Ok w -> reference h k ref ->
  length (cr_params w) = length (given_params (Z.of_nat (2 * k)) ps) /\
  forall i, (forall p, nth_error (cr_pairs w) i = Some p -> In p ref -> nth_error (cr_params w) i = Some 1) /\
            ((forall p, nth_error (cr_pairs w) i = Some p -> ~ In p ref) -> nth_error (cr_params w) i = nth_error (given_params (Z.of_nat (2 * k)) ps) i).
Proof.
  intros h k o ps w ref E R. destruct (new_inv _ _ _ _ _ E) as (h' & k' & _ & _ & Eh & Ek & _ & _ & (_ & N & _) & _ & _ & Er). rewrite <- (reference_unique h k _ _ R (cr_reference_spec h k)) in Er.
  pose proof (set_reference_inv _ _ _ _ N Er) as H. destruct (set_reference_ok _ _ _ N H) as (l & El & Ll & Vl). rewrite Er in El. apply Ok_inj in El. subst l. auto.
Qed.
(** Assigning parameters leaves the wavefunction that the constructor makes of them. *)
Theorem C66_assign : forall ne ns o ps ps' (w : creation K), new_creation ne ns o ps = Ok w -> cr_assign_params w ps' = new_creation ne ns o ps'.
Proof.
  intros ne ns o ps ps' w E. unfold new_creation in *. destruct (cr_assign_nelec ne) as [ne'|] eqn:E1; [|discriminate]. cbn [bind] in *. destruct (assign_nspin ns) as [ns'|] eqn:E2; [|discriminate]. cbn [bind] in *.
  destruct (cr_assign_orbpairs ns' o) as [pairs|]; [|discriminate]. cbn [bind] in *. destruct (cr_given ne' ns' pairs ps) as [l|]; [|discriminate]. cbn [bind] in E. apply Ok_inj in E. subst w. reflexivity.
Qed.

(** ** permutations *)
(** The permutations are the (n-1)!! perfect matchings of the positions 0, ..., n-1, each once, with its sign. *)
Theorem C66_permutations : forall h o ns ps (w : creation K), new_creation (Z.of_nat (2 * h)) ns o ps = Ok w ->
  let L := map (fun p => (zpairs (fst p), snd p)) (cr_perms w) in let positions := map Z.of_nat (seq 0 (2 * h)) in
  (forall m s, In (m, s) L -> perfect positions m /\ sign_to positions m s /\ forall x y, In (x, y) m -> (x < y)%Z) /\
  (forall m, perfect positions m -> (forall x y, In (x, y) m -> (x < y)%Z) -> exists m' s, In (m', s) L /\ Permutation m m') /\
  pairwise_distinct (@Permutation (Z * Z)) (map fst L) /\ length L = double_fact h.
Proof.
  intros h o ns ps w E. destruct (new_inv _ _ _ _ _ E) as (h' & k & Hh & _ & Eh & _ & _ & _ & (Ep & N & _) & _). assert (h' = h) by lia. subst h'. rewrite Ep. cbv zeta.
  destruct (positions_good h) as (A & B & C). set (L := map _ _) in *. set (P := map Z.of_nat _) in *.
  assert (NP : NoDup P) by (apply FinFun.Injective_map_NoDup; [intros a b; lia|apply seq_NoDup]).
  assert (Lt : forall m s, In (m, s) L -> forall x y, In (x, y) m -> (x < y)%Z). { intros m s H x y Hxy. destruct (A _ H) as [I _]. apply I, all_pairs_In in Hxy. cbn [fst snd] in Hxy. lia. }
  split; [|split; [|split]].
  - intros m s H. destruct (A _ H) as (I & k' & W & Es). cbn [fst snd] in *. split; [|split; [split|]]; eauto.
    + now apply swaps_perm in W.
    + intros j Wj. rewrite Z.mul_1_l in Es. rewrite Es. apply (swaps_parity k' j (flat m) P); auto. eapply Permutation_NoDup; [|exact NP]. symmetry. now apply swaps_perm in W.
  - intros m Pm Sm. destruct (B m) as ([m' s] & Hm & Pm'); auto; [|eauto]. intros [x y] Hp. apply all_pairs_In. specialize (Sm x y Hp). destruct (flat_In _ _ _ Hp) as [Hx Hy].
    apply (Permutation_in _ Pm) in Hx, Hy. unfold P in Hx, Hy. apply in_map_iff in Hx as (i & <- & Hi), Hy as (j & <- & Hj). apply in_seq in Hi, Hj. cbn [fst snd]. lia.
  - exact C.
  - assert (SP : StronglySorted Z.lt P) by (unfold P; rewrite <- lowest_seq; apply lowest_sorted, seq_sorted).
    assert (LP : length P = (2 * h)%nat) by (unfold P; now rewrite map_length, seq_length).
    refine (eq_trans (good_length (all_pairs (2 * h)) P 1 1 L (pfl (2 * h) P) (positions_good h) _) (pfl_length h (2 * h) P LP _)); [|lia].
    apply (pfl_good h); auto; try lia.
    + intros x y Hx Hy Lxy. unfold P in Hx, Hy. apply in_map_iff in Hx as (i & <- & Hi), Hy as (j & <- & Hj). apply in_seq in Hi, Hj. apply all_pairs_In. cbn [fst snd]. lia.
    + intros p Hp. apply all_pairs_In in Hp. lia.
Qed.

(** ** overlaps *)
(** The overlap is the Pfaffian of the parameters of the lowest nelec occupied orbitals of the determinant; with
    nelec electrons these are all of them. *)
Theorem C66_overlap : forall h ns o ps (w : creation K) C sd n, new_creation (Z.of_nat (2 * h)) ns o ps = Ok w -> has_electrons sd n -> (2 * h <= n)%nat ->
  amplitudes (cr_pairs w) (cr_params w) C (firstn (2 * h) (zocc sd)) ->
  cr_overlap w sd = Ok (pfaffian C (firstn (2 * h) (zocc sd))) /\ (n = (2 * h)%nat -> firstn (2 * h) (zocc sd) = zocc sd).
Proof.
  intros h ns o ps w C sd n E He Hn A. destruct (new_inv _ _ _ _ _ E) as (h' & k & Hh & _ & Eh & _ & _ & _ & W & _). assert (h' = h) by lia. subst h'.
  apply electrons_occ in He. rewrite zocc_lowest in *. split; [|intros ->; rewrite <- zocc_lowest; apply firstn_all2; unfold zocc; rewrite map_length; lia].
  apply (olp_pfaffian w h sd W); auto. lia.
Qed.
(** For a determinant of nelec electrons it is the coefficient in exp(sum c_ij a+_i a+_j)|0>: the h-th power of the
    geminal creation operator, divided by h!. *)
Theorem C66_exponential : forall h ns o ps (w : creation K) C sd, new_creation (Z.of_nat (2 * h)) ns o ps = Ok w -> has_electrons sd (2 * h) ->
  amplitudes (cr_pairs w) (cr_params w) C (zocc sd) ->
  exists v, cr_overlap w sd = Ok v /\ nat_r (fact h) * v = gem_product (cr_pairs w) (repeat C h) sd.
Proof.
  intros h ns o ps w C sd E He A. destruct (new_inv _ _ _ _ _ E) as (h' & k & Hh & _ & Eh & _ & _ & _ & W & _). assert (h' = h) by lia. subst h'.
  apply electrons_occ in He. assert (Z1 : zocc sd = lowest h (occ_indices (Some sd))) by (rewrite <- zocc_lowest; symmetry; apply firstn_all2; unfold zocc; rewrite map_length; lia).
  assert (Le : (2 * h <= length (occ_indices (Some sd)))%nat) by lia. rewrite Z1 in A. eexists. split; [exact (olp_value w h sd W Le C A)|]. destruct W as (Wp & N & Lt).
  rewrite (product_good (cr_pairs w) 1 (crl (occ_indices (Some sd)) h) (repeat C h) sd); auto.
  - rewrite <- sumf_mul_l. apply sumf_ext. intros p Hp. rewrite Z.mul_1_l, permR_repeat; [ring|]. apply crl_In in Hp as (e & He' & ->). cbn [fst]. unfold orbs. rewrite map_length. apply He'.
  - rewrite repeat_length. unfold zocc. rewrite map_length. lia.
  - rewrite Z1. apply (crl_good _ h (occ_sorted sd) Le); auto. intros x y Hx Hy L. destruct (A x y Hx Hy L) as (i & Ei & _). eapply nth_error_In; eauto.
Qed.
(** A pair of occupied orbitals that is not among the orbital pairs is refused, not taken as zero. *)
Theorem C66_missing : forall h ns o ps (w : creation K) sd x y n, new_creation (Z.of_nat (2 * h)) ns o ps = Ok w -> (length (cr_pairs w) <= length (cr_params w))%nat ->
  has_electrons sd n -> (2 * h <= n)%nat -> In x (firstn (2 * h) (zocc sd)) -> In y (firstn (2 * h) (zocc sd)) -> (x < y)%Z -> ~ In (x, y) (cr_pairs w) ->
  cr_overlap w sd = Err ValueError.
Proof.
  intros h ns o ps w sd x y n E Lp He Hn Hx Hy Lxy Nxy. destruct (new_inv _ _ _ _ _ E) as (h' & k & Hh & _ & Eh & _ & _ & _ & (Wp & N & Lt) & _). assert (h' = h) by lia. subst h'.
  apply electrons_occ in He. rewrite zocc_lowest in *. set (occ := occ_indices (Some sd)) in *. assert (Le : (2 * h <= length occ)%nat) by lia.
  unfold cr_overlap, cr_olp. rewrite Wp. fold occ.
  assert (Kind : forall e s, is_perm h e -> (exists v, cr_product w occ e s = Ok v) \/ cr_product w occ e s = Err ValueError).
  { intros e s He'. unfold cr_product. rewrite (cr_orbitals_ok occ h e) by auto. cbn [bind]. destruct (mapM (cr_col (cr_pairs w)) (orbs occ e)) as [cols|er] eqn:Ec; cbn [bind].
    - left. assert (X : exists xs, mapM (cr_param w) cols = Ok xs); [|destruct X as (xs & ->); cbn [bind]; eauto].
      exists (map (fun c => nth c (cr_params w) 0) cols). apply mapM_ok_of. intros c Hc. unfold cr_param. rewrite (nth_error_nth' _ 0); auto.
      enough (In_c : (c < length (cr_pairs w))%nat) by lia. revert cols Ec c Hc. generalize (orbs occ e). induction l as [|p l IH]; intros cols Ec c Hc; cbn [mapM] in Ec; [apply Ok_inj in Ec; subst; destruct Hc|].
      unfold cr_col at 1 in Ec. destruct (pair_index p (cr_pairs w)) as [i|] eqn:Ei; [|discriminate]. cbn [bind] in Ec. destruct (mapM (cr_col (cr_pairs w)) l) as [cs|]; [|discriminate]. cbn [bind] in Ec. apply Ok_inj in Ec. subst cols.
      destruct Hc as [<-|Hc]; [apply (pair_index_spec _ _ _ N) in Ei; apply nth_error_Some; congruence|eapply IH; eauto].
    - right. f_equal. revert Ec. generalize (orbs occ e). induction l as [|p l IH]; intros Ec; cbn [mapM] in Ec; [discriminate|]. unfold cr_col at 1 in Ec. destruct (pair_index p (cr_pairs w)); [|injection Ec as <-; auto]. cbn [bind] in Ec.
      destruct (mapM (cr_col (cr_pairs w)) l); [discriminate|]. cbn [bind] in Ec. apply IH. congruence. }
  destruct (matching_with h (lowest h occ) x y) as (qs & Hq & Pq & Sq); auto; [now apply lowest_length|apply lowest_sorted, occ_sorted|].
  set (every := flat_map (fun a => map (fun b => (a, b)) (filter (fun b => (a <? b)%Z) (lowest h occ))) (lowest h occ)).
  assert (Hev : forall a b, In (a, b) every <-> In a (lowest h occ) /\ In b (lowest h occ) /\ (a < b)%Z).
  { intros a b. unfold every. rewrite in_flat_map. split.
    - intros (c & Hc & H). apply in_map_iff in H as (d & [= <- <-] & Hd). apply filter_In in Hd as [Hd L]. apply Z.ltb_lt in L. auto.
    - intros (Ha & Hb & L). exists a. split; auto. apply in_map_iff. exists b. split; auto. apply filter_In. split; auto. now apply Z.ltb_lt. }
  destruct (crl_good occ h (occ_sorted sd) Le every) as (_ & Cm & _); [intros a b Ha Hb L; now apply Hev|intros [a b] H; now apply Hev in H|].
  destruct (Cm qs) as (q & Hq' & Pq'); auto.
  { intros [a b] Hab. apply Hev. destruct (flat_In _ _ _ Hab) as [Ha Hb]. repeat split; try (apply (Permutation_in _ Pq); auto). now apply Sq in Hab. }
  apply crl_In in Hq' as (e & He' & ->). cbn [fst] in Pq'.
  assert (Z1 : mapM (fun ps => cr_product w occ (fst ps) (snd ps)) (cr_permutations (Z.of_nat (2 * h))) = Err ValueError); [|rewrite Z1; reflexivity].
  apply mapM_error with (x := (e, cr_sign (zpairs e))).
  - intros [e1 s1] H1. apply perms_In in H1 as [H1 _]. cbn [fst snd]. now apply Kind.
  - now apply perms_In.
  - cbn [fst snd]. destruct (Kind e (cr_sign (zpairs e)) He') as [[v Ev]|]; auto. exfalso. apply Nxy. unfold cr_product in Ev. rewrite (cr_orbitals_ok occ h e) in Ev by auto. cbn [bind] in Ev.
    destruct (mapM (cr_col (cr_pairs w)) (orbs occ e)) as [cols|] eqn:Ec; [|discriminate]. assert (Hxy : In (x, y) (orbs occ e)) by (apply (Permutation_in _ Pq'); auto).
    destruct (mapM_all _ _ _ Ec (x, y) Hxy) as (c & Ecol). unfold cr_col in Ecol. destruct (pair_index (x, y) (cr_pairs w)) as [i|] eqn:Ei; [|discriminate]. apply (pair_index_spec _ _ _ N) in Ei. eapply nth_error_In; eauto.
Qed.
(** Fewer electrons are refused too. *)
Theorem C66_fewer : forall h ns o ps (w : creation K) sd n ds, new_creation (Z.of_nat (2 * h)) ns o ps = Ok w -> has_electrons sd n -> (n < 2 * h)%nat ->
  cr_overlap w sd = Err IndexError /\ cr_overlap_deriv w sd ds = Err IndexError.
Proof.
  intros h ns o ps w sd n ds E He Hn. destruct (new_inv _ _ _ _ _ E) as (h' & k & Hh & _ & Eh & _ & _ & _ & (Wp & N & Lt) & _). assert (h' = h) by lia. subst h'. apply electrons_occ in He.
  set (occ := occ_indices (Some sd)) in *.
  assert (Bad : forall e, is_perm h e -> cr_orbitals occ e = Err IndexError).
  { intros e He'. assert (I : In (2 * h - 1)%nat (flatten e)).
    { apply (Permutation_in _ (Permutation_sym (flatten_perm h e He'))). apply in_seq. lia. }
    unfold flatten in I. apply in_flat_map in I as (p & Hp & I). unfold cr_orbitals.
    assert (At : forall i, (exists z, at_pos occ i = Ok z) \/ at_pos occ i = Err IndexError) by (intros i; unfold at_pos; destruct (nth_error occ i); eauto).
    apply mapM_error with (x := p); auto.
    - intros q _. destruct (At (fst q)) as [[z ->]| ->]; cbn [bind]; auto. destruct (At (snd q)) as [[z' ->]| ->]; cbn [bind]; eauto.
    - assert (Q : at_pos occ (2 * h - 1) = Err IndexError) by (unfold at_pos; rewrite (proj2 (nth_error_None _ _)) by lia; reflexivity).
      destruct I as [I|[I|[]]]; rewrite I; [now rewrite Q|]. destruct (At (fst p)) as [[z ->]| ->]; cbn [bind]; auto. now rewrite Q. }
  unfold cr_overlap, cr_overlap_deriv, cr_olp, cr_olp_deriv. rewrite Wp. fold occ.
  pose proof (fun e s H => proj1 (proj1 (perms_In h e s) H)) as Hp. destruct (cr_permutations (Z.of_nat (2 * h))) as [|[e s] L] eqn:EL.
  - exfalso. destruct (C66_permutations h o ns ps w E) as (_ & _ & _ & Ln). rewrite Wp in Ln. cbn [map length] in Ln. clear - Ln. assert (X : forall m, (0 < double_fact m)%nat) by (induction m; cbn [double_fact]; [lia|nia]). specialize (X h). lia.
  - cbn [mapM map fst snd cr_deriv_loop]. assert (B := Bad e (Hp e s (or_introl eq_refl))). unfold cr_product at 1. rewrite B. split; reflexivity.
Qed.

(** ** derivatives *)
(** The overlap is affine in every parameter, and the derivatives returned are the slopes. *)
Theorem C66_derivative : forall h ns o ps (w : creation K) C sd n ds is, new_creation (Z.of_nat (2 * h)) ns o ps = Ok w -> has_electrons sd n -> (2 * h <= n)%nat ->
  amplitudes (cr_pairs w) (cr_params w) C (firstn (2 * h) (zocc sd)) -> Forall2 (selects (length (cr_params w))) ds is ->
  exists v g, cr_overlap w sd = Ok v /\ cr_overlap_deriv w sd ds = Ok g /\
    Forall2 (fun i d => exists x, nth_error (cr_params w) i = Some x /\
      forall y, cr_overlap (with_params w (upd (cr_params w) i y)) sd = Ok (v + (y - x) * d)) is g.
Proof.
  intros h ns o ps w C sd n ds is E He Hn A Sel. destruct (new_inv _ _ _ _ _ E) as (h' & k & Hh & _ & Eh & _ & _ & _ & W & _). assert (h' = h) by lia. subst h'.
  apply electrons_occ in He. rewrite zocc_lowest in *. assert (Le : (2 * h <= length (occ_indices (Some sd)))%nat) by lia.
  destruct (deriv_value w h sd W Le C A) as (o' & Eo & Lo & _). pose proof (olp_value w h sd W Le C A) as Ev. eexists. exists (map (fun i => nth i o' 0) is). split; [exact Ev|]. split.
  - unfold cr_overlap_deriv. rewrite Eo. cbn [bind]. rewrite Lo. clear - Sel. induction Sel as [|d i ds is H Sel IH]; auto. cbn [mapM map]. apply np_index_ok in H. rewrite H. cbn [bind]. rewrite IH. reflexivity.
  - clear - W Le A Sel Eo Ev. induction Sel as [|d i ds is [H _] Sel IH]; cbn [map]; constructor; auto. destruct (nth_error (cr_params w) i) as [x|] eqn:Ex; [|apply nth_error_None in Ex; lia].
    exists x. split; auto. intros y. destruct (olp_affine w h sd C i x W Le A Ex) as (v & o2 & E1 & E2 & _ & Q). rewrite E1 in Ev. apply Ok_inj in Ev. subst v. rewrite E2 in Eo. apply Ok_inj in Eo. subst o2. apply Q.
Qed.
(** ** the default parameters *)
Lemma twos_NoDup : forall n l, length l = (2 * n)%nat -> NoDup l -> NoDup (twos l).
Proof.
  intros n l L N. eapply flat_perm_NoDup; [exact N|]. rewrite (flat_twos n) by auto. reflexivity.
Qed.
(** Without parameters and pairs the wavefunction is the ground determinant. *)
Theorem C66_default : forall h k (w : creation K) sd, new_creation (Z.of_nat (2 * h)) (Z.of_nat (2 * k)) None None = Ok w -> has_electrons sd (2 * h) -> (forall i, bit sd i = true -> (i < 2 * k)%nat) ->
  (h <= k)%nat /\
  ((forall i, bit sd i = true <-> (i < h \/ k <= i < k + h)%nat) -> cr_overlap w sd = Ok 1) /\
  (~ (forall i, bit sd i = true <-> (i < h \/ k <= i < k + h)%nat) -> cr_overlap w sd = Ok 0).
Proof.
  intros h k w sd E He Hb. pose proof (C66_parameters h k None None w _ E (cr_reference_spec h k)) as (Lp & Vp).
  destruct (new_inv _ _ _ _ _ E) as (h' & k' & Hh & Hk & Eh & Ek & Ep & En & W & _ & _ & Er). assert (h' = h) by lia. assert (k' = k) by lia. subst h' k'. clear Eh Ek.
  destruct (cr_reference_spec h k) as (l & Sl & Pl & El). set (ref := cr_reference (Z.of_nat (2 * h)) (Z.of_nat (2 * k))) in *. clearbody ref.
  assert (Ll : length l = (2 * h)%nat) by (rewrite (Permutation_length Pl), map_length, app_length, !seq_length; lia).
  pose proof W as (Wp & N & Lt). pose proof (set_reference_inv _ _ _ _ N Er) as Hr. specialize (En eq_refl). rewrite Nat2Z.id in En.
  assert (Hl : forall x, In x l <-> exists i, x = Z.of_nat i /\ (i < h \/ k <= i < k + h)%nat).
  { intros x. split.
    - intros H. apply (Permutation_in _ Pl) in H. apply in_map_iff in H as (i & <- & H). apply in_app_iff in H. rewrite !in_seq in H. exists i. split; auto. lia.
    - intros (i & -> & H). apply (Permutation_in _ (Permutation_sym Pl)). apply in_map, in_app_iff. rewrite !in_seq. lia. }
  assert (Hhk : (h <= k)%nat).
  { assert (I : In (Z.of_nat (k + h - 1)) (flat ref)) by (rewrite El, (flat_twos h) by auto; apply Hl; exists (k + h - 1)%nat; split; auto; lia).
    apply flat_In_inv in I as (y & [I|I]); apply Hr in I as (i & Ei & _); apply nth_error_In in Ei; rewrite En in Ei; apply all_pairs_In in Ei; cbn [fst snd] in Ei; lia. }
  split; auto.
  assert (Nl : NoDup l). { eapply Permutation_NoDup; [symmetry; exact Pl|]. apply FinFun.Injective_map_NoDup; [intros a b; lia|]. apply NoDup_app_iff. repeat split; try apply seq_NoDup. intros a Ha Hc. apply in_seq in Ha, Hc. lia. }
  assert (Sl' : StronglySorted Z.lt l) by (now apply sorted_strict).
  set (C := fun p : Z * Z => if in_dec zpair_dec p ref then 1 else 0 : K).
  pose proof He as He0. apply electrons_occ in He. assert (Z1 : zocc sd = lowest h (occ_indices (Some sd))) by (rewrite <- zocc_lowest; symmetry; apply firstn_all2; unfold zocc; rewrite map_length; lia).
  assert (Le : (2 * h <= length (occ_indices (Some sd)))%nat) by lia.
  assert (A : amplitudes (cr_pairs w) (cr_params w) C (lowest h (occ_indices (Some sd)))).
  { rewrite <- Z1. intros x y Hx Hy Lxy. apply occZ_In in Hx as [Hx Bx], Hy as [Hy By]. apply Hb in Bx, By. assert (I : In (x, y) (cr_pairs w)) by (rewrite En; apply all_pairs_In; cbn [fst snd]; lia).
    apply In_nth_error in I as (i & Ei). exists i. split; auto. destruct (Vp i) as [V1 V2]. unfold C. destruct (in_dec zpair_dec (x, y) ref) as [I|I]; [now apply (V1 (x, y))|].
    rewrite V2 by (intros p Hp; congruence). cbn [given_params]. assert (Li : (i < length (cr_params w))%nat).
    { rewrite Lp. cbn [given_params]. rewrite repeat_length. assert (Q : (i < length (cr_pairs w))%nat) by (apply nth_error_Some; congruence). rewrite En in Q. pose proof (prefix_length (2 * k) (2 * k) ltac:(lia)) as Q2. rewrite <- all_pairs_row in Q2.
      replace (Z.to_nat _) with (length (all_pairs (2 * k))); auto. apply Nat2Z.inj. rewrite Z2Nat.id by (apply Z.div_pos; nia). apply Z.div_unique_exact; [lia|]. nia. }
    rewrite Lp in Li. cbn [given_params] in Li. rewrite repeat_length in Li. now rewrite nth_error_repeat. }
  pose proof (crl_good (occ_indices (Some sd)) h (occ_sorted sd) Le (cr_pairs w) (amp_covers w h sd _ C A) Lt) as (G1 & G2 & G3). set (L := crl (occ_indices (Some sd)) h) in *. rewrite <- Z1 in G1, G2. unfold scheme in *.
  assert (Nr : NoDup ref) by (rewrite El; now apply (twos_NoDup h)).
  assert (Fr : flat ref = l) by (rewrite El; now apply (flat_twos h)).
  assert (Zero : forall p, In p L -> prodf C (fst p) = 0 \/ Permutation (fst p) ref).
  { intros p Hp. destruct (G1 p Hp) as (_ & j & Wj & _). apply swaps_perm in Wj. assert (Np : NoDup (fst p)) by (eapply flat_perm_NoDup; [apply occZ_NoDup|exact Wj]).
    destruct (Forall_Exists_dec (fun q => In q ref) (fun q => in_dec zpair_dec q ref) (fst p)) as [F|X].
    - right. rewrite Forall_forall in F. apply NoDup_Permutation_bis; auto. rewrite El. pose proof (Permutation_length Wj) as Q1. rewrite flat_length in Q1. assert (Q2 : length (flat (twos l)) = length l) by (now rewrite (flat_twos h)).
      rewrite flat_length in Q2. unfold zocc in Q1. rewrite map_length in Q1. lia.
    - left. apply Exists_exists in X as (q & Hq & Nq). apply (prodf_zero C (fst p) q); auto. unfold C. destruct (in_dec zpair_dec q ref); congruence. }
  pose proof (olp_value w h sd W Le C A) as Ev. unfold cr_overlap. fold L in Ev. rewrite Ev. split.
  - intros Gd. f_equal. assert (Zl : zocc sd = l).
    { apply sorted_perm_eq; auto; [apply occZ_sorted|]. apply NoDup_Permutation; auto; [apply occZ_NoDup|]. intros x. rewrite occZ_In, Hl. split.
      - intros [H0 H1]. exists (Z.to_nat x). split; [lia|]. now apply Gd.
      - intros (i & -> & Hi). rewrite Nat2Z.id. split; [lia|]. now apply Gd. }
    destruct (G2 ref) as (p & Hp & Pp); [intros q Hq; destruct (Hr q Hq) as (i & Ei & _); eapply nth_error_In; eauto|rewrite Fr, Zl; reflexivity|].
    pose proof (distinct_In (@Permutation (Z * Z)) L (fun x => Permutation_refl x) (fun x y H => Permutation_sym H) G3) as NUL. unfold scheme in NUL. destruct NUL as [NL UL].
    rewrite (sumf_single _ L p); auto.
    + rewrite (prodf_perm C _ _ (Permutation_sym Pp)), prodf_one; [|intros q Hq; unfold C; destruct (in_dec zpair_dec q ref); auto; contradiction].
      destruct (G1 p Hp) as (_ & j & Wj & Es). rewrite Z.mul_1_l in Es. destruct (flat_swaps _ _ (Permutation_sym Pp)) as (m & Wm). rewrite Fr, <- Zl in Wm.
      assert (Q : pow_m1 j = pow_m1 (2 * m)). { apply (swaps_parity j (2 * m) (flat (fst p)) (zocc sd)); auto. eapply Permutation_NoDup; [symmetry; eapply swaps_perm; exact Wj|apply occZ_NoDup]. }
      rewrite Q in Es. replace (2 * m)%nat with (2 * m + 0)%nat in Es by lia. rewrite GemMain.pow_m1_even in Es. unfold scheme in *. rewrite Es. change (sgnr (pow_m1 0)) with (1 : K). ring.
    + intros q Hq Dq. destruct (Zero q Hq) as [Zq|Pq]; [rewrite Zq; ring|]. exfalso. apply Dq. apply UL; auto. now rewrite Pq.
  - intros Ng. f_equal. apply sumf_zero. intros p Hp. destruct (Zero p Hp) as [Zp|Pp]; [rewrite Zp; ring|]. exfalso. apply Ng. destruct (G1 p Hp) as (_ & j & Wj & _). apply swaps_perm in Wj.
    apply flat_perm in Pp. rewrite Fr, Wj in Pp. intros i. split.
    + intros B. assert (I : In (Z.of_nat i) l) by (apply (Permutation_in _ Pp), occZ_In; rewrite Nat2Z.id; split; [lia|auto]). apply Hl in I as (i' & Ei & Hi). assert (i' = i) by lia. now subst.
    + intros Hi. assert (I : In (Z.of_nat i) (zocc sd)) by (apply (Permutation_in _ (Permutation_sym Pp)), Hl; eauto). apply occZ_In in I as [_ I]. now rewrite Nat2Z.id in I.
Qed.

(** ** what does not hold *)
(** Parameters given for the pairs of the reference have no effect. *)
Theorem C66_overwrite_refuted : forall h k o l l' (w : creation K) ref, new_creation (Z.of_nat (2 * h)) (Z.of_nat (2 * k)) o (Some l) = Ok w -> reference h k ref ->
  length l' = length l -> (forall i, (forall p, nth_error (cr_pairs w) i = Some p -> ~ In p ref) -> nth_error l' i = nth_error l i) ->
  new_creation (Z.of_nat (2 * h)) (Z.of_nat (2 * k)) o (Some l') = Ok w.
Proof.
  intros h k o l l' w ref E R L H. pose proof (C66_parameters _ _ _ _ _ _ E R) as [L1 V1]. pose proof (proj1 (C66_constructor _ _ _ _) (ex_intro _ w E)) as Cc.
  destruct (proj2 (C66_constructor (Z.of_nat (2 * h)) (Z.of_nat (2 * k)) o (Some l'))) as [w' E'].
  { destruct Cc as (h1 & k1 & pairs & r & H1 & H2 & H3 & H4 & H5 & H6 & H7 & H8). exists h1, k1, pairs, r. repeat (split; auto). intros p Hp. destruct (H8 p Hp) as (i & Ei & Li). exists i. split; auto. cbn [given_params] in *. lia. }
  pose proof (C66_parameters _ _ _ _ _ _ E' R) as [L2 V2]. rewrite E'. f_equal.
  destruct (new_inv _ _ _ _ _ E) as (? & ? & _ & _ & _ & _ & _ & _ & (P1 & _) & N1 & S1 & _). destruct (new_inv _ _ _ _ _ E') as (? & ? & _ & _ & _ & _ & _ & _ & (P2 & _) & N2 & S2 & _).
  assert (Epp : cr_pairs w' = cr_pairs w /\ cr_perms w' = cr_perms w).
  { pose proof (C66_assign _ _ _ _ (Some l') w E) as Q. rewrite E' in Q. unfold cr_assign_params in Q. destruct (cr_given _ _ _ _); [|discriminate]. cbn [bind] in Q. apply Ok_inj in Q. subst w'. auto. }
  destruct Epp as [Q1 Q2]. assert (Q3 : cr_params w' = cr_params w).
  { assert (nth_error_eq : forall a b : list K, (forall i, nth_error a i = nth_error b i) -> a = b).
    { induction a as [|a0 a IH]; intros [|b0 b] X; auto; try (specialize (X 0%nat); discriminate). f_equal; [specialize (X 0%nat); now injection X|]. apply IH. intros i. exact (X (S i)). }
    apply nth_error_eq. intros i. destruct (V1 i) as [A1 B1], (V2 i) as [A2 B2]. rewrite Q1 in A2, B2. destruct (nth_error (cr_pairs w) i) as [p|] eqn:Ei.
    - destruct (in_dec zpair_dec p ref) as [I|I].
      + now rewrite (A1 p), (A2 p).
      + rewrite B1, B2 by (intros q Hq; congruence). apply H. rewrite Ei. intros q Hq. congruence.
    - rewrite B1, B2 by (intros q Hq; discriminate). apply H. rewrite Ei. intros q Hq. discriminate. }
  destruct w, w'. cbn in *. congruence.
Qed.
(** The overlap with a determinant of more electrons is not zero: it is that of its lowest nelec orbitals. *)
Theorem C66_electrons_refuted : forall h ns o ps (w : creation K) sd sd', new_creation (Z.of_nat (2 * h)) ns o ps = Ok w -> has_electrons sd' (2 * h) -> zocc sd' = firstn (2 * h) (zocc sd) ->
  cr_overlap w sd = cr_overlap w sd'.
Proof.
  intros h ns o ps w sd sd' E He Z. destruct (new_inv _ _ _ _ _ E) as (h' & k & Hh & _ & Eh & _ & _ & _ & (Wp & N & Lt) & _). assert (h' = h) by lia. subst h'. apply electrons_occ in He.
  unfold cr_overlap, cr_olp. rewrite Wp. assert (X : forall e, is_perm h e -> cr_orbitals (occ_indices (Some sd)) e = cr_orbitals (occ_indices (Some sd')) e).
  { intros e (S & _). unfold cr_orbitals. assert (At : forall i, (i < 2 * h)%nat -> at_pos (occ_indices (Some sd)) i = at_pos (occ_indices (Some sd')) i).
    { intros i Hi. unfold at_pos. unfold zocc in Z. rewrite firstn_map in Z. assert (Z' : occ_indices (Some sd') = firstn (2 * h) (occ_indices (Some sd))).
      { clear - Z. revert Z. generalize (occ_indices (Some sd')) (firstn (2 * h) (occ_indices (Some sd))). induction l as [|x l IH]; intros [|y l'] Z; cbn [map] in Z; try discriminate; auto. injection Z as Z1 Z2. f_equal; [lia|auto]. }
      rewrite Z'. rewrite <- (firstn_skipn (2 * h) (occ_indices (Some sd))) at 1. rewrite nth_error_app1; auto. rewrite <- Z'. lia. }
    assert (R := perm_range h e S). clear S. induction e as [|p e IH]; auto. cbn [mapM]. destruct (R p (or_introl eq_refl)). rewrite !At by lia. rewrite IH; auto. intros q Hq. apply R. now right. }
  assert (Y : forall L, (forall p, In p L -> is_perm h (fst p)) -> mapM (fun q => cr_product w (occ_indices (Some sd)) (fst q) (snd q)) L = mapM (fun q => cr_product w (occ_indices (Some sd')) (fst q) (snd q)) L).
  { induction L as [|p L IH]; intros H; auto. cbn [mapM]. rewrite IH by (intros q Hq; apply H; now right). unfold cr_product at 1 3. now rewrite X by (apply H; now left). }
  rewrite Y; [reflexivity|]. intros [e s] H. now apply perms_In in H.
Qed.
Variable Der : (K -> K) -> K -> K -> Prop.
Hypothesis Cal : calculus Der.
(** So they are the derivatives in every calculus with the usual rules. *)
Theorem C66_calculus : forall h ns o ps (w : creation K) C sd n i x, new_creation (Z.of_nat (2 * h)) ns o ps = Ok w -> has_electrons sd n -> (2 * h <= n)%nat ->
  amplitudes (cr_pairs w) (cr_params w) C (firstn (2 * h) (zocc sd)) -> nth_error (cr_params w) i = Some x ->
  exists d, cr_overlap_deriv w sd [Z.of_nat i] = Ok [d] /\ Der (fun y => okv (cr_overlap (with_params w (upd (cr_params w) i y)) sd)) x d.
Proof.
  intros h ns o ps w C sd n i x E He Hn A Ex. assert (Li : (i < length (cr_params w))%nat) by (apply nth_error_Some; congruence).
  destruct (C66_derivative h ns o ps w C sd n [Z.of_nat i] [i] E He Hn A) as (v & g & Ev & Eg & F); [constructor; [split; auto|constructor]|].
  inversion F as [|? d ? g' (x' & Ex' & Q) F']; subst. inversion F'; subst. rewrite Ex in Ex'. injection Ex' as <-. exists d. split; auto.
  apply (cal_ext Der Cal (fun y => v + (y - x) * d)); [intros y; now rewrite Q|].
  eapply (der_eq Der); [apply (cal_add Der Cal (fun _ => v) (fun y => (y - x) * d)); [apply (cal_const Der Cal)|apply (cal_mul Der Cal (fun y => y - x) (fun _ => d)); [apply (der_sub Der Cal (fun y => y) (fun _ => x)); [apply (cal_id Der Cal)|apply (cal_const Der Cal)]|apply (cal_const Der Cal)]]|]. ring.
Qed.
End C66.

Print Assumptions C66_constructor.
Print Assumptions C66_errors.
Print Assumptions C66_parameters.
Print Assumptions C66_assign.
Print Assumptions C66_permutations.
Print Assumptions C66_overlap.
Print Assumptions C66_exponential.
Print Assumptions C66_missing.
Print Assumptions C66_fewer.
Print Assumptions C66_derivative.
Print Assumptions C66_default.
Print Assumptions C66_overwrite_refuted.
Print Assumptions C66_electrons_refuted.
Print Assumptions C66_calculus.

(** Examples: four electrons in six spin orbitals with c_ij = 10 i + j, the pairs (0, 1) and (3, 4) being the reference.
    Determinant 58 has the orbitals 1, 3, 4, 5. *)
Example C66_overlap_ex : cr_val 4 6 None (cr_amps 6) 58 = Ok (13 * 45 - 14 * 35 + 15 * 1, 1%positive)%Z /\ cr_val 4 6 None (cr_amps 6) 15 = Ok (1 * 23 - 2 * 13 + 3 * 12, 1%positive)%Z.
Proof. split; vm_compute; reflexivity. Qed.
Example C66_derivative_ex : cr_grad 4 6 None (cr_amps 6) 58 [6; 7; 14; -2; 0]%Z = Ok (map (fun z => (z, 1%positive)) [45; -35; 13; -14; 0]%Z).
Proof. vm_compute. reflexivity. Qed.
Example C66_missing_ex : cr_val 4 6 (Some [(1, 0); (3, 4); (2, 5)]%Z) [1; 1; 7]%Z 51 = Err ValueError.
Proof. vm_compute. reflexivity. Qed.
Example C66_electrons_ex : cr_val 4 6 None (cr_amps 6) 63 = cr_val 4 6 None (cr_amps 6) 15 /\ cr_val 4 6 None (cr_amps 6) 3 = Err IndexError.
Proof. split; vm_compute; reflexivity. Qed.
Example C66_overwrite_ex : cr_val 4 6 None (99 :: tl (cr_amps 6))%Z 15 = cr_val 4 6 None (cr_amps 6) 15.
Proof. vm_compute. reflexivity. Qed.
Example C66_errors_ex : cr_val 3 6 None (cr_amps 6) 15 = Err NotImplementedError /\ cr_val 4 6 None [1; 2; 3]%Z 15 = Err IndexError /\ cr_val 8 6 None (cr_amps 6) 15 = Err ValueError /\
  cr_val 4 6 (Some [(0, 1); (3, 4); (1, 0)]%Z) [1; 2; 3]%Z 15 = Err ValueError.
Proof. repeat split; vm_compute; reflexivity. Qed.
Example C66_permutations_ex : cr_permutations 4 = [([(0, 1); (2, 3)], 1%Z); ([(0, 2); (1, 3)], (-1)%Z); ([(0, 3); (1, 2)], 1%Z)]%nat /\ length (cr_permutations 6) = 15.
Proof. split; vm_compute; reflexivity. Qed.
