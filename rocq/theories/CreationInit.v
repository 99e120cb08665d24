(** Lemmas: the constructor of the creation coupled cluster wavefunction *)
From Coq Require Import List ZArith NArith Arith Bool Lia Permutation Sorted Ring_theory.
From Verif Require Import Py Slater BitSpec BitLemmas SlaterBits Combos Alg SdLemmas SignSpec SignLemmas PermLemmas MatchSpec MatchLemmas GeneralLemmas
  Graphs WfnCI Geminal GemPairs CreSpec CreLemmas GemMain GemSchemes GemFinal CILemmas CCLemmas MathTools Creation CreationSpec CreationLemmas CreationGood CreationPf BicliqueLemmas CreationOlp.
Import ListNotations.
Local Open Scope nat_scope.

Lemma by_twos_twos : forall l, by_twos l = twos l.
Proof. reflexivity. Qed.
Lemma flat_twos : forall n l, length l = 2 * n -> flat (twos l) = l.
Proof. induction n as [|n IH]; intros [|x [|y l]] H; cbn [length] in H; auto; try lia. cbn [twos flat]. rewrite IH by lia. auto. Qed.
Lemma sorted_le_unique : forall la lb, StronglySorted Z.le la -> StronglySorted Z.le lb -> Permutation la lb -> la = lb.
Proof.
  intros la lb Sa. revert lb. induction Sa as [|x la Sa IH F]; intros lb Sb P; [apply Permutation_nil in P; auto|].
  destruct lb as [|y lb]; [symmetry in P; apply Permutation_nil in P; discriminate|]. inversion Sb as [|? ? Sb' F']; subst. rewrite Forall_forall in F, F'.
  assert (x = y).
  { assert (Hx : In x (y :: lb)) by (apply (Permutation_in _ P); now left). assert (Hy : In y (x :: la)) by (apply (Permutation_in _ (Permutation_sym P)); now left).
    destruct Hx as [|Hx]; auto. destruct Hy as [|Hy]; auto. specialize (F y Hy). specialize (F' x Hx). lia. }
  subst y. f_equal. apply IH; auto. now apply Permutation_cons_inv in P.
Qed.
Lemma reference_unique : forall h k r r', reference h k r -> reference h k r' -> r = r'.
Proof. intros h k r r' (l & S & P & ->) (l' & S' & P' & ->). f_equal. apply sorted_le_unique; auto. now rewrite P, P'. Qed.
Lemma cr_reference_spec : forall h k, reference h k (cr_reference (Z.of_nat (2 * h)) (Z.of_nat (2 * k))).
Proof.
  intros h k. unfold cr_reference. rewrite !Nat2Z.inj_mul. change (Z.of_nat 2) with 2%Z. rewrite !(Z.mul_comm 2), !Z.div_mul by lia. rewrite Nat2Z.id.
  set (l := flat_map _ _). exists (sorted_Z l). split; [|split].
  - apply sorted_Z_sorted.
  - rewrite sorted_Z_perm. unfold l. rewrite map_app.
    assert (X : forall n s, Permutation (flat_map (fun i => [Z.of_nat i; Z.of_nat k + Z.of_nat i]%Z) (seq s n)) (map Z.of_nat (seq s n) ++ map Z.of_nat (seq (k + s) n))).
    { induction n as [|n IH]; intros t; cbn [seq flat_map map app]; auto. constructor. rewrite <- Permutation_middle. rewrite Nat2Z.inj_add. constructor. rewrite (IH (S t)). now rewrite Nat.add_succ_r. }
    rewrite (X h 0), Nat.add_0_r. reflexivity.
  - apply by_twos_twos.
Qed.

Lemma cr_loop : forall l seen, cr_pairs_loop seen l = base_pairs_loop seen l.
Proof. reflexivity. Qed.
Lemma sort_pair_ordered : forall p, sort_pair p = ordered p.
Proof. intros [a b]. unfold sort_pair, ordered. cbn [fst snd]. destruct (Z.ltb_spec b a); f_equal; lia. Qed.
Lemma orbpairs_ok : forall ns o r, (0 < ns)%Z -> (cr_assign_orbpairs ns o = Ok r <-> orbital_pairs ns o r /\ (o = None -> r = all_pairs (Z.to_nat ns))).
Proof.
  intros ns o r Hn. unfold cr_assign_orbpairs. rewrite cr_loop. set (l := match o with None => _ | Some l => l end).
  destruct (base_loop_spec l [] (NoDup_nil _)) as [A B]. cbn [rev app] in A, B.
  assert (Lall : o = None -> l = all_pairs (Z.to_nat ns)) by (intros ->; reflexivity).
  assert (Hall : forall x y, In (x, y) (all_pairs (Z.to_nat ns)) <-> (0 <= x < y /\ y < ns)%Z).
  { intros x y. rewrite all_pairs_In. cbn [fst snd]. lia. }
  assert (Mall : map sort_pair (all_pairs (Z.to_nat ns)) = all_pairs (Z.to_nat ns)).
  { rewrite <- (map_id (all_pairs _)) at 2. apply map_ext_in. intros [x y] H. apply sort_pair_id. apply Hall in H. cbn [fst snd]. lia. }
  split.
  - intros E. apply A in E as (-> & N & D). split; [split; auto|].
    + destruct o as [g|]; [split; auto; apply map_ext, sort_pair_ordered|]. rewrite (Lall eq_refl), Mall. exact Hall.
    + intros Eo. rewrite (Lall Eo). exact Mall.
  - intros ((N & H) & Q). destruct (base_pairs_loop [] l) as [r'|e] eqn:E.
    + destruct (A _ eq_refl) as (-> & _ & _). f_equal. destruct o as [g|].
      * destruct H as [_ ->]. apply map_ext, sort_pair_ordered.
      * rewrite (Lall eq_refl), Mall. symmetry. auto.
    + exfalso. destruct (B _ eq_refl) as [_ Q']. apply Q'. clear A B E. destruct o as [g|].
      * destruct H as [D ->]. split; auto. rewrite (map_ext _ _ sort_pair_ordered). exact N.
      * rewrite (Lall eq_refl), Mall. split; [|rewrite <- (Q eq_refl); exact N]. intros [x y] Hp. apply Hall in Hp. cbn [fst snd]. lia.
Qed.
Lemma orbpairs_err : forall ns o e, cr_assign_orbpairs ns o = Err e -> e = ValueError.
Proof. intros ns o e. unfold cr_assign_orbpairs. rewrite cr_loop. intros E. now apply (base_loop_spec _ [] (NoDup_nil _)) in E. Qed.
Lemma orbital_lt : forall ns o pairs, orbital_pairs ns o pairs -> forall p, In p pairs -> (fst p < snd p)%Z.
Proof.
  intros ns o pairs [N H] [x y] Hp. destruct o as [g|].
  - destruct H as [D ->]. apply in_map_iff in Hp as ([a b] & E & Hp). apply D in Hp. unfold ordered in E. cbn [fst snd] in *. injection E as <- <-. lia.
  - apply H in Hp. cbn [fst snd]. lia.
Qed.

Lemma zpair_dec : forall a b : Z * Z, {a = b} + {a <> b}.
Proof. decide equality; apply Z.eq_dec. Qed.
Section Init.
Context {K : CField}.
Local Open Scope cr_scope.
Lemma set_reference_ok : forall pairs ref (ps : list K), NoDup pairs ->
  (forall p, In p ref -> exists i, nth_error pairs i = Some p /\ (i < length ps)%nat) ->
  exists l, set_reference pairs ref ps = Ok l /\ length l = length ps /\
    forall i, (forall p, nth_error pairs i = Some p -> In p ref -> nth_error l i = Some 1) /\
              ((forall p, nth_error pairs i = Some p -> ~ In p ref) -> nth_error l i = nth_error ps i).
Proof.
  intros pairs ref ps N. revert ps. induction ref as [|p ref IH]; intros ps H; cbn [set_reference].
  - exists ps. repeat split; auto. intros p _ [].
  - destruct (H p (or_introl eq_refl)) as (i & Ei & Li). apply (pair_index_spec _ _ _ N) in Ei as Ei'. unfold cr_col. rewrite Ei'. cbn [bind]. rewrite (proj2 (Nat.ltb_lt _ _) Li).
    destruct (IH (upd ps i 1)) as (l & E & L & V).
    + intros q Hq. rewrite upd_length. apply H. now right.
    + exists l. split; auto. rewrite upd_length in L. split; auto. intros j. destruct (V j) as [V1 V2]. split.
      * intros q Hj [<-|Hq]; [|now apply (V1 q)]. destruct (in_dec zpair_dec p ref) as [I|I]; [now apply (V1 p)|].
        rewrite V2; [|intros q Hq; congruence]. assert (i = j) by (eapply NoDup_nth_error; eauto; [apply nth_error_Some|]; congruence). subst j. now apply nth_error_upd_eq.
      * intros D. rewrite V2 by (intros q Hq Hr; apply (D q Hq); now right). apply nth_error_upd_neq. intros ->. apply (D p Ei). now left.
Qed.
Lemma set_reference_inv : forall pairs ref (ps l : list K), NoDup pairs -> set_reference pairs ref ps = Ok l -> forall p, In p ref -> exists i, nth_error pairs i = Some p /\ (i < length ps)%nat.
Proof.
  intros pairs ref ps l N. revert ps. induction ref as [|q ref IH]; intros ps E p Hp; [destruct Hp|]. cbn [set_reference] in E. unfold cr_col in E. destruct (pair_index q pairs) as [i|] eqn:X; [|discriminate]. cbn [bind] in E.
  destruct (Nat.ltb_spec i (length ps)) as [L|]; [|discriminate]. destruct Hp as [<-|Hp]; [apply (pair_index_spec _ _ _ N) in X; eauto|]. destruct (IH _ E p Hp) as (j & Ej & Lj). rewrite upd_length in Lj. eauto.
Qed.
Lemma set_reference_err : forall pairs ref (ps : list K) e, NoDup pairs -> set_reference pairs ref ps = Err e ->
  (e = ValueError /\ exists p, In p ref /\ ~ In p pairs) \/ (e = IndexError /\ exists p i, In p ref /\ nth_error pairs i = Some p /\ (length ps <= i)%nat).
Proof.
  intros pairs ref ps e N. revert ps. induction ref as [|q ref IH]; intros ps E; cbn [set_reference] in E; [discriminate|]. unfold cr_col in E. destruct (pair_index q pairs) as [i|] eqn:X; cbn [bind] in E.
  - destruct (Nat.ltb_spec i (length ps)) as [L|L].
    + destruct (IH _ E) as [[-> (p & H1 & H2)]|[-> (p & j & H1 & H2 & H3)]]; [left; split; auto; exists p; split; auto; now right|]. right. split; auto. exists p, j. rewrite upd_length in H3. repeat split; auto. now right.
    + injection E as <-. right. split; auto. apply (pair_index_spec _ _ _ N) in X. exists q, i. repeat split; auto. now left.
  - injection E as <-. left. split; auto. exists q. split; [now left|]. now apply pair_index_none.
Qed.
Lemma new_inv : forall ne ns o ps (w : creation K), new_creation ne ns o ps = Ok w -> exists h k, (0 < h)%nat /\ (0 < k)%nat /\ ne = Z.of_nat (2 * h) /\ ns = Z.of_nat (2 * k) /\
  orbital_pairs ns o (cr_pairs w) /\ (o = None -> cr_pairs w = all_pairs (Z.to_nat ns)) /\ wf_cr w h /\ cr_nelec w = ne /\ cr_nspin w = ns /\ set_reference (cr_pairs w) (cr_reference ne ns) (given_params ns ps) = Ok (cr_params w).
Proof.
  intros ne ns o ps w E. unfold new_creation in E. unfold cr_assign_nelec in E. destruct (Z.leb_spec ne 0); [discriminate|]. destruct (Z.eqb_spec (ne mod 2) 0) as [M|]; [|discriminate]. cbn [negb bind] in E.
  unfold assign_nspin in E. destruct (Z.leb_spec ns 0); [discriminate|]. destruct (Z.eqb_spec (ns mod 2) 1) as [|M2]; [discriminate|]. cbn [bind] in E.
  destruct (cr_assign_orbpairs ns o) as [pairs|] eqn:Ep; [|discriminate]. cbn [bind] in E. apply orbpairs_ok in Ep as [Ep En]; auto.
  destruct (cr_given ne ns pairs ps) as [l|] eqn:El; [|discriminate]. cbn [bind] in E. apply Ok_inj in E. subst w. cbn [cr_pairs cr_nelec cr_nspin cr_params].
  exists (Z.to_nat (ne / 2)), (Z.to_nat (ns / 2)). pose proof (Z.div_mod ne 2). pose proof (Z.div_mod ns 2). pose proof (Z.mod_pos_bound ns 2). 
  assert (Hne : ne = Z.of_nat (2 * Z.to_nat (ne / 2))) by lia. assert (Hns : ns = Z.of_nat (2 * Z.to_nat (ns / 2))) by lia. repeat split; auto; try lia; try apply Ep.
  - cbn [cr_perms]. now rewrite <- Hne.
  - intros p Hp. eapply orbital_lt; eauto.
Qed.
Lemma new_ok : forall h k o (ps : option (list K)) pairs ref, (0 < h)%nat -> (0 < k)%nat -> orbital_pairs (Z.of_nat (2 * k)) o pairs -> (o = None -> pairs = all_pairs (2 * k)) -> reference h k ref ->
  (forall p, In p ref -> exists i, nth_error pairs i = Some p /\ (i < length (given_params (Z.of_nat (2 * k)) ps))%nat) ->
  exists w, new_creation (Z.of_nat (2 * h)) (Z.of_nat (2 * k)) o ps = Ok w /\ cr_pairs w = pairs.
Proof.
  intros h k o ps pairs ref Hh Hk Ep En R H. unfold new_creation, cr_assign_nelec. rewrite (proj2 (Z.leb_gt _ _)) by lia. replace (Z.of_nat (2 * h) mod 2 =? 0)%Z with true. 2:{ symmetry. apply Z.eqb_eq. rewrite Nat2Z.inj_mul, Z.mul_comm. apply Z.mod_mul. lia. }
  cbn [negb bind]. unfold assign_nspin. rewrite (proj2 (Z.leb_gt _ _)) by lia. replace (Z.of_nat (2 * k) mod 2 =? 1)%Z with false. 2:{ symmetry. apply Z.eqb_neq. rewrite Nat2Z.inj_mul, Z.mul_comm, Z.mod_mul; lia. }
  cbn [bind]. assert (Eo : cr_assign_orbpairs (Z.of_nat (2 * k)) o = Ok pairs) by (apply orbpairs_ok; [lia|]; split; auto; intros Eo; rewrite Nat2Z.id; auto). rewrite Eo. cbn [bind].
  unfold cr_given. rewrite <- (reference_unique h k _ _ R (cr_reference_spec h k)).
  destruct (set_reference_ok pairs ref (given_params (Z.of_nat (2 * k)) ps)) as (l & E & _); auto; [apply Ep|]. unfold given_params in E. rewrite E. cbn [bind]. eauto.
Qed.
End Init.
