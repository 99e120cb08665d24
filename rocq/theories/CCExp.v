(** The sum over the rows is the coefficient of the exponential *)
From Coq Require Import List ZArith NArith Arith Bool Lia Permutation Sorted.
From Verif Require Import Py BitSpec BitLemmas Slater SlaterBits2 SignSpec SignLemmas Graphs GraphSpec MatchSpec MathTools PermLemmas SdLemmas Combos
  GeneralLemmas BicliqueLemmas P_Slater1 Fock FockLemmas FockInner Alg CreLemmas GemSpec CC CCRows CCRows2 CCGen CCSpec CCFock.
Import ListNotations.
Local Open Scope nat_scope.

Lemma can_apply : forall l s n, NoDup (map snd l) -> (forall o, In o l -> bit n (snd o) = negb (fst o)) ->
  exists b m, applys l (Some (s, n)) = Some (b, m).
Proof.
  induction l as [|[d i] l IH]; intros s n N H; [eexists; eexists; reflexivity|]. cbn [map snd] in N. inversion N; subst.
  rewrite applys_cons. cbn [apply1 fst snd]. pose proof (H (d, i) (or_introl eq_refl)) as B. cbn [fst snd] in B. rewrite B.
  replace (Bool.eqb (negb d) d) with false by now destruct d. apply IH; auto. intros o Ho. rewrite bit_flip_neq.
  - apply H. now right.
  - intros ->. apply H2. now apply in_map.
Qed.
Lemma one_way_bits : forall l n, (forall o, In o l -> bit n (snd o) = negb (fst o)) -> one_way l.
Proof. intros l n H i H1 H2. apply H in H1, H2. cbn in *. congruence. Qed.
Lemma existsb_mem : forall j l, existsb (Nat.eqb j) l = true <-> In j l.
Proof.
  intros j l. rewrite existsb_exists. split; [intros (y & Hy & E); apply Nat.eqb_eq in E; now subst|]. intros H. exists j. now rewrite Nat.eqb_refl.
Qed.
Lemma diff_state : forall ref sd, exists b,
  applys (map Ann (snd (diff_orbs sd ref)) ++ map Cre (fst (diff_orbs sd ref))) (Some (false, ref)) = Some (b, sd).
Proof.
  intros ref sd. set (l := map Ann (snd (diff_orbs sd ref)) ++ map Cre (fst (diff_orbs sd ref))).
  assert (E : map snd l = snd (diff_orbs sd ref) ++ fst (diff_orbs sd ref)).
  { unfold l. rewrite map_app, !map_map. cbn. now rewrite !map_id. }
  assert (N : NoDup (map snd l)).
  { rewrite E. destruct (C05_sorted sd ref) as (_ & S1 & S2). apply SlaterBits2.NoDup_app_intro; try (now apply BitLemmas.increasing_NoDup).
    intros x. rewrite diff_orbs_In1, diff_orbs_In2. intuition congruence. }
  assert (H : forall o, In o l -> bit ref (snd o) = negb (fst o)).
  { intros o Ho. unfold l in Ho. apply in_app_iff in Ho as [Ho|Ho]; apply in_map_iff in Ho as (i & <- & Hi).
    - apply diff_orbs_In2 in Hi. now cbn.
    - apply diff_orbs_In1 in Hi. now cbn. }
  destruct (can_apply l false ref N H) as (b & m & Ea). exists b. rewrite Ea. do 2 f_equal.
  destruct (one_way_state l _ _ _ _ (one_way_bits l ref H) Ea) as (_ & _ & M). apply bit_ext. intros j. rewrite M, E.
  destruct (existsb (Nat.eqb j) (snd (diff_orbs sd ref) ++ fst (diff_orbs sd ref))) eqn:X.
  - apply existsb_mem, in_app_iff in X as [X|X]; [apply diff_orbs_In2 in X as [-> ->]|apply diff_orbs_In1 in X as [-> ->]]; reflexivity.
  - rewrite xorb_false_r. apply not_true_iff_false in X. rewrite existsb_mem, in_app_iff, diff_orbs_In1, diff_orbs_In2 in X.
    destruct (bit ref j), (bit sd j); auto; exfalso; apply X; auto.
Qed.

Definition good_key (ranks : list Z) (e : list Z) : Prop :=
  StronglySorted Z.lt (annihilators e) /\ StronglySorted Z.lt (creators e) /\ length (annihilators e) = length (creators e) /\
  In (Z.of_nat (length (annihilators e))) ranks /\ (forall z, In z e -> (0 <= z)%Z).
Lemma halves : forall e, annihilators e ++ creators e = e.
Proof. intros e. apply firstn_skipn. Qed.
Lemma half_length : forall e, length (annihilators e) = length (creators e) -> length (annihilators e) = length e / 2 /\ length (creators e) = length e / 2.
Proof.
  intros e L. assert (E : length e = length (annihilators e) * 2) by (rewrite <- (halves e) at 1; rewrite app_length; lia).
  assert (D : length e / 2 = length (annihilators e)) by (rewrite E at 1; apply Nat.div_mul; lia). rewrite D. auto.
Qed.
Definition halved (ei : list Z * nat) : list Z * list Z := (annihilators (fst ei), creators (fst ei)).
Lemma cat_halved : forall ei, cat (halved ei) = fst ei.
Proof. intros ei. apply halves. Qed.

Lemma dict_get_In : forall {V} (d : list (list Z * V)) e i, NoDup (map fst d) -> (dict_get d e = Some i <-> In (e, i) d).
Proof.
  induction d as [|[k v] d IH]; intros e i N; cbn [dict_get]; [split; [discriminate|intros []]|].
  cbn [map fst] in N. inversion N; subst. unfold key_eqb. destruct (list_eq_dec Z.eq_dec e k) as [->|Ne].
  - split; [intros E; injection E as ->; now left|]. intros [E|X]; [now injection E as ->|]. exfalso. apply H1. now apply (in_map fst) in X.
  - rewrite IH by auto. split; [now right|]. intros [E|X]; [|auto]. injection E as -> ->. now destruct Ne.
Qed.
Lemma flat_map_snd_map : forall {A B C} (f : A -> B * list C) l, flat_map snd (map f l) = flat_map (fun x => snd (f x)) l.
Proof. intros. apply flat_map_map. Qed.
Lemma words_map : forall {A B} (g : A -> B) l k, words (map g l) k = map (map g) (words l k).
Proof.
  intros A B g l. induction k as [|k IH]; [reflexivity|]. cbn [words]. rewrite IH, flat_map_map, map_flat_map. apply flat_map_ext_in. intros x _.
  rewrite !map_map. reflexivity.
Qed.
Lemma permutations_perm : forall {A} (l p : list A), NoDup l -> (In p (permutations l (length l)) <-> Permutation l p).
Proof.
  intros A l p N. rewrite permutations_In by auto. split.
  - intros (L & Np & I). symmetry. apply NoDup_Permutation_bis; auto. lia.
  - intros P. split; [now rewrite (Permutation_length P)|]. split; [eapply Permutation_NoDup; eauto|]. intros x Hx. eapply Permutation_in; [symmetry; exact P|auto].
Qed.
Lemma picks_len : forall {A} (l : list A), length (picks l) = length l.
Proof. induction l as [|x l IH]; [reflexivity|]. cbn [picks length]. now rewrite map_length, IH. Qed.
Lemma picks_rest : forall {A} (l : list A) p, In p (picks l) -> S (length (snd p)) = length l.
Proof.
  induction l as [|x l IH]; intros p H; [destruct H|]. cbn [picks] in H. destruct H as [<-|H]; [reflexivity|].
  apply in_map_iff in H as (q & <- & Hq). cbn [snd length]. now rewrite (IH q Hq).
Qed.
Lemma permutations_len : forall {A} n (l : list A), length l = n -> length (permutations l n) = fact n.
Proof.
  induction n as [|n IH]; intros l L; [reflexivity|]. cbn [permutations fact].
  assert (G : forall ps : list (A * list A), (forall p, In p ps -> length (snd p) = n) ->
     length (flat_map (fun p => map (cons (fst p)) (permutations (snd p) n)) ps) = length ps * fact n).
  { induction ps as [|p ps IHp]; intros H; [reflexivity|]. cbn [flat_map length Nat.mul]. rewrite app_length, map_length, IH, IHp; auto; [intros; apply H; now right|apply H; now left]. }
  rewrite G; [rewrite picks_len, L; cbn; lia|]. intros p Hp. apply picks_rest in Hp. lia.
Qed.
Lemma flat_map_perm : forall {A B} (f : A -> list B) l l', Permutation l l' -> Permutation (flat_map f l) (flat_map f l').
Proof.
  induction 1; cbn [flat_map]; [constructor| | |etransitivity; eauto].
  - now apply Permutation_app_head.
  - rewrite !app_assoc. apply Permutation_app_tail, Permutation_app_comm.
Qed.
(** blocks of even length may be exchanged *)
Lemma even_blocks : forall {A} (f : A -> list op) l l', Permutation l l' -> (forall x, In x l -> Nat.even (length (f x)) = true) ->
  exists k, swaps k (flat_map f l) (flat_map f l') /\ Nat.odd k = false.
Proof.
  intros A f l l' P. induction P as [|x l l' P IH|x y l|l l1 l2 P1 IH1 P2 IH2]; intros H.
  - exists 0. split; [constructor|reflexivity].
  - destruct IH as (k & W & E); [intros; apply H; now right|]. exists k. split; [|auto]. cbn [flat_map]. now apply swaps_app_l.
  - exists (length (f y) * length (f x)). cbn [flat_map]. split.
    + rewrite !app_assoc. apply swaps_app_r, swaps_block.
    + rewrite Nat.odd_mul. rewrite <- !Nat.negb_even, (H x), (H y); [reflexivity|now left|right; now left].
  - destruct (IH1 H) as (k1 & W1 & E1). destruct IH2 as (k2 & W2 & E2).
    { intros x Hx. apply H. eapply Permutation_in; [symmetry; exact P1|auto]. }
    exists (k1 + k2). split; [eapply swaps_trans; eauto|]. now rewrite Nat.odd_add, E1, E2.
Qed.

Lemma SS_of_nat : forall l, StronglySorted lt l -> StronglySorted Z.lt (map Z.of_nat l).
Proof.
  induction 1 as [|x l S IH Fx]; [constructor|]. cbn [map]. constructor; auto. apply Forall_forall. intros y Hy. apply in_map_iff in Hy as (i & <- & Hi).
  rewrite Forall_forall in Fx. apply Fx in Hi. lia.
Qed.
Lemma pd_eq_NoDup : forall {A} (l : list A), pairwise_distinct eq l -> NoDup l.
Proof. induction 1 as [|x l Fx D IH]; constructor; auto. intros H. rewrite Forall_forall in Fx. now apply (Fx x H). Qed.
Lemma pd_filter : forall {A} (R : A -> A -> Prop) p l, pairwise_distinct R l -> pairwise_distinct R (filter p l).
Proof.
  unfold pairwise_distinct. induction 1 as [|x l Fx D IH]; [constructor|]. cbn [filter]. destruct (p x); auto. constructor; auto.
  apply Forall_forall. intros y Hy. apply filter_In in Hy. rewrite Forall_forall in Fx. apply Fx. tauto.
Qed.

Section Main.
Context {F : CField}.
Local Open Scope cr_scope.
Add Ring K_ring55 : (rth F).
Hypothesis CZ : char_zero F.
Variables (d : exops) (ranks : list Z) (amp : nat -> F) (ref sd : N).
Hypothesis Hpos : forall r, In r ranks -> (0 < r)%Z.
Hypothesis Hnd : NoDup ranks.
Hypothesis Dkeys : NoDup (map fst d).
Hypothesis Good : forall e, In e (map fst d) -> good_key ranks e.
Hypothesis Sep : separated (map fst d).
Let a : list Z := map Z.of_nat (snd (diff_orbs sd ref)).
Let c : list Z := map Z.of_nat (fst (diff_orbs sd ref)).
Hypothesis Lac : (length a <= length c)%nat.
Definition wops (w : list (list Z * nat)) : list op := flat_map (fun ei => eops (fst ei)) w.
Definition wval (w : list (list Z * nat)) : F := prodf (fun ei => amp (snd ei)) w * sgnr (melem sd (wops w) ref).
Definition word_of (r : row) : list (list Z * nat) := map (fun p => (cat p, ind_of d (cat p))) r.

Lemma Sa : StronglySorted Z.lt a.
Proof. apply SS_of_nat. apply C05_sorted. Qed.
Lemma Sc : StronglySorted Z.lt c.
Proof. apply SS_of_nat. apply C05_sorted. Qed.
Lemma NoDup_d : NoDup d.
Proof. eapply NoDup_map_inv. exact Dkeys. Qed.
Lemma ac_disjoint : forall z, In z a -> ~ In z c.
Proof.
  intros z H1 H2. unfold a, c in *. apply in_map_iff in H1 as (i & <- & H1), H2 as (j & E & H2). apply Nat2Z.inj in E. subst j.
  apply diff_orbs_In2 in H1. apply diff_orbs_In1 in H2. intuition congruence.
Qed.

(** a word whose product leads from ref to sd is a row *)
Lemma word_ops_perm : forall w, incl w d -> Permutation (wops w) (map AnnZ (flat_map annihilators (map fst w)) ++ map CreZ (flat_map creators (map fst w))).
Proof.
  intros w I. unfold wops. rewrite <- (flat_map_map eops fst). rewrite !map_flat_map. 
  eapply swaps_perm. apply (hops_swaps (map fst w) []). intros e He. apply half_length. apply Good. apply in_map_iff in He as (x & <- & Hx). apply in_map. auto.
Qed.
Lemma word_row : forall w, incl w d -> melem sd (wops w) ref <> 0%Z -> row_of ranks a c (map halved w).
Proof.
  intros w I H. pose proof (word_ops_perm w I) as P.
  assert (Gw : forall e, In e (map fst w) -> good_key ranks e).
  { intros e He. apply Good. apply in_map_iff in He as (x & <- & Hx). apply in_map. auto. }
  assert (NN : forall z, In z (flat_map annihilators (map fst w)) \/ In z (flat_map creators (map fst w)) -> (0 <= z)%Z).
  { intros z [Hz|Hz]; apply in_flat_map in Hz as (e & He & Hz); apply (Gw e He); rewrite <- (halves e); apply in_app_iff; auto. }
  assert (IA : forall i, In (Ann i) (wops w) <-> In (Z.of_nat i) (flat_map annihilators (map fst w))).
  { intros i. split; intros X.
    - apply (Permutation_in _ P) in X. apply in_app_iff in X as [X|X]; apply in_map_iff in X as (z & E & X); [|discriminate].
      injection E as <-. rewrite Z2Nat.id; auto.
    - apply (Permutation_in _ (Permutation_sym P)). apply in_app_iff. left. apply in_map_iff. exists (Z.of_nat i). split; auto. unfold AnnZ. now rewrite Nat2Z.id. }
  assert (IC : forall i, In (Cre i) (wops w) <-> In (Z.of_nat i) (flat_map creators (map fst w))).
  { intros i. split; intros X.
    - apply (Permutation_in _ P) in X. apply in_app_iff in X as [X|X]; apply in_map_iff in X as (z & E & X); [discriminate|].
      injection E as <-. rewrite Z2Nat.id; auto.
    - apply (Permutation_in _ (Permutation_sym P)). apply in_app_iff. right. apply in_map_iff. exists (Z.of_nat i). split; auto. unfold CreZ. now rewrite Nat2Z.id. }
  assert (W : one_way (wops w)).
  { intros i H1 H2. apply IA in H1. apply IC in H2. apply in_flat_map in H1 as (e & He & H1), H2 as (e' & He' & H2).
    assert (X : forall e, In e (map fst w) -> In e (map fst d)) by (intros x Hx; apply in_map_iff in Hx as (y & <- & Hy); apply in_map; auto).
    apply (Sep e e' (Z.of_nat i)); auto. }
  unfold melem in H. destruct (applys (wops w) (Some (false, ref))) as [[b m]|] eqn:E; [|now destruct H].
  cbn [braket] in H. destruct (N.eqb_spec sd m) as [<-|]; [|now destruct H].
  destruct (one_way_state _ _ _ _ _ W E) as (N & B & M).
  assert (N' : NoDup (map Z.to_nat (flat_map annihilators (map fst w)) ++ map Z.to_nat (flat_map creators (map fst w)))).
  { eapply Permutation_NoDup; [|exact N]. rewrite (Permutation_map snd P), map_app, !map_map. reflexivity. }
  apply NoDup_app_iff in N' as (N1 & N2 & _). apply NoDup_map_inv in N1, N2.
  split; [|split].
  - apply Forall_forall. intros p Hp. apply in_map_iff in Hp as (x & <- & Hx). destruct (Gw (fst x)) as (G1 & G2 & G3 & G4 & _); [now apply in_map|]. auto.
  - rewrite map_map. cbn [fst halved]. rewrite <- (map_map fst annihilators), <- flat_map_concat_map.
    apply NoDup_Permutation; auto; [apply SS_NoDup, Sa|]. intros z. split; intros Hz.
    + assert (0 <= z)%Z by (apply NN; auto). rewrite <- (Z2Nat.id z) in Hz by auto. apply IA in Hz.
      unfold a. apply in_map_iff. exists (Z.to_nat z). split; [now apply Z2Nat.id|]. apply diff_orbs_In2. pose proof (B _ Hz) as B1. cbn in B1. split; [auto|].
      rewrite M, B1. assert (X : existsb (Nat.eqb (Z.to_nat z)) (map snd (wops w)) = true); [|now rewrite X].
      apply existsb_mem. apply in_map_iff. exists (Ann (Z.to_nat z)). auto.
    + unfold a in Hz. apply in_map_iff in Hz as (i & <- & Hi). apply diff_orbs_In2 in Hi as [B1 B2]. rewrite M, B1 in B2. apply IA.
      assert (X : existsb (Nat.eqb i) (map snd (wops w)) = true) by (destruct (existsb (Nat.eqb i) (map snd (wops w))); auto).
      apply existsb_mem, in_map_iff in X as ([dd j] & Ej & X). cbn in Ej. subst j. pose proof (B _ X) as B3. cbn in B3. rewrite B1 in B3. destruct dd; [discriminate|]. exact X.
  - rewrite map_map. cbn [snd halved]. rewrite <- (map_map fst creators), <- flat_map_concat_map.
    apply NoDup_Permutation; auto; [apply SS_NoDup, Sc|]. intros z. split; intros Hz.
    + assert (0 <= z)%Z by (apply NN; auto). rewrite <- (Z2Nat.id z) in Hz by auto. apply IC in Hz.
      unfold c. apply in_map_iff. exists (Z.to_nat z). split; [now apply Z2Nat.id|]. apply diff_orbs_In1. pose proof (B _ Hz) as B1. cbn in B1. split; [|auto].
      rewrite M, B1. assert (X : existsb (Nat.eqb (Z.to_nat z)) (map snd (wops w)) = true); [|now rewrite X].
      apply existsb_mem. apply in_map_iff. exists (Cre (Z.to_nat z)). auto.
    + unfold c in Hz. apply in_map_iff in Hz as (i & <- & Hi). apply diff_orbs_In1 in Hi as [B1 B2]. rewrite M, B2 in B1. apply IC.
      assert (X : existsb (Nat.eqb i) (map snd (wops w)) = true) by (destruct (existsb (Nat.eqb i) (map snd (wops w))); auto).
      apply existsb_mem, in_map_iff in X as ([dd j] & Ej & X). cbn in Ej. subst j. pose proof (B _ X) as B3. cbn in B3. rewrite B2 in B3. destruct dd; [|discriminate]. exact X.
Qed.

Lemma row_word : forall r, row_of ranks a c r -> row_ok d r = true -> incl (word_of r) d /\ map halved (word_of r) = r.
Proof.
  intros r (Fr & _ & _) K. rewrite Forall_forall in Fr. unfold row_ok in K. rewrite forallb_forall in K. split.
  - intros x Hx. unfold word_of in Hx. apply in_map_iff in Hx as (p & <- & Hp). specialize (K (cat p) (in_map cat _ _ Hp)).
    unfold known in K. unfold ind_of. destruct (dict_get d (cat p)) as [i|] eqn:E; [|discriminate]. now apply dict_get_In in E.
  - unfold word_of. rewrite map_map. rewrite <- (map_id r) at 2. apply map_ext_in. intros p Hp. unfold halved. cbn [fst].
    destruct (cat_halves p) as (-> & -> & _); [now apply Fr|]. now destruct p.
Qed.
Lemma word_back : forall w, incl w d -> word_of (map halved w) = w /\ row_ok d (map halved w) = true.
Proof.
  intros w I. assert (H : forall x, In x w -> dict_get d (fst x) = Some (snd x)).
  { intros x Hx. apply dict_get_In; auto. apply I in Hx. now destruct x. }
  split.
  - unfold word_of. rewrite map_map. rewrite <- (map_id w) at 2. apply map_ext_in. intros x Hx. rewrite cat_halved. unfold ind_of. rewrite H by auto. now destruct x.
  - unfold row_ok. apply forallb_forall. intros e He. rewrite map_map in He. apply in_map_iff in He as (x & <- & Hx). rewrite cat_halved. unfold known. now rewrite H.
Qed.
Lemma wops_word : forall r, wops (word_of r) = flat_map eops (map cat r).
Proof. intros r. unfold wops, word_of. now rewrite !flat_map_map. Qed.
Lemma ac_ops : map snd (map AnnZ a ++ map CreZ c) = snd (diff_orbs sd ref) ++ fst (diff_orbs sd ref) /\
  map AnnZ a ++ map CreZ c = map Ann (snd (diff_orbs sd ref)) ++ map Cre (fst (diff_orbs sd ref)).
Proof.
  assert (E : map AnnZ a ++ map CreZ c = map Ann (snd (diff_orbs sd ref)) ++ map Cre (fst (diff_orbs sd ref))).
  { unfold a, c. rewrite !map_map. f_equal; apply map_ext; intros i; unfold AnnZ, CreZ; now rewrite Nat2Z.id. }
  split; auto. rewrite E, map_app, !map_map. cbn. now rewrite !map_id.
Qed.
Lemma row_nodup : forall r, row_of ranks a c r -> NoDup (map snd (wops (word_of r))).
Proof.
  intros r R. rewrite wops_word. destruct (row_sign_swaps ranks a c Sa Sc r R) as (k & _ & W). apply swaps_perm in W.
  eapply Permutation_NoDup; [symmetry; apply Permutation_map; exact W|]. destruct ac_ops as [-> _].
  destruct (C05_sorted sd ref) as (_ & S1 & S2). apply SlaterBits2.NoDup_app_intro; try (now apply BitLemmas.increasing_NoDup).
  intros x. rewrite diff_orbs_In1, diff_orbs_In2. intuition congruence.
Qed.
Lemma row_melem : forall r s, row_of ranks a c r -> sign_excite (Some ref) (snd (diff_orbs sd ref)) (fst (diff_orbs sd ref)) = Ok s ->
  exists k, row_sign a c (map cat r) = Ok (pow_m1 k) /\ melem sd (wops (word_of r)) ref = (pow_m1 k * s)%Z.
Proof.
  intros r s R E. destruct (row_sign_swaps ranks a c Sa Sc r R) as (k & Ek & W). exists k. split; auto.
  unfold melem. rewrite wops_word. rewrite (applys_swaps k _ _ _ W) by (rewrite <- wops_word; now apply row_nodup).
  rewrite braket_xor. destruct ac_ops as [_ ->]. rewrite sign_excite_eq in E. destruct (diff_state ref sd) as (b & Eb). rewrite Eb in *. apply Ok_inj in E. subst s.
  cbn [braket]. rewrite N.eqb_refl. reflexivity.
Qed.
Lemma wval_perm : forall r p, row_of ranks a c r -> row_ok d r = true -> Permutation (word_of r) p -> wval p = wval (word_of r).
Proof.
  intros r p R K P. unfold wval. rewrite (prodf_perm _ _ _ P). f_equal. f_equal. unfold melem. f_equal.
  destruct (even_blocks (fun ei : list Z * nat => eops (fst ei)) _ _ P) as (k & W & E).
  - intros x Hx. unfold word_of in Hx. apply in_map_iff in Hx as (q & <- & Hq). cbn [fst]. unfold eops. rewrite app_length, !map_length.
    destruct R as (Fr & _ & _). rewrite Forall_forall in Fr. destruct (cat_halves q) as (-> & -> & _); [now apply Fr|].
    replace (length (fst q)) with (length (snd q)) by (symmetry; now apply Fr). replace (length (snd q) + length (snd q))%nat with (2 * length (snd q))%nat by lia.
    rewrite Nat.even_mul. reflexivity.
  - symmetry. change (applys (wops (word_of r)) (Some (false, ref)) = applys (wops p) (Some (false, ref))). rewrite (applys_swaps k (wops (word_of r)) (wops p)); auto; [|now apply row_nodup].
    rewrite E. apply xor_ket_false.
Qed.

Variable parts : list (list Z).
Hypothesis Hparts : parts_ok ranks a parts.
Let rr : list row := filter (row_ok d) (flat_map (part_rows a c) (rev parts)).
Lemma rr_In : forall r, In r rr -> row_of ranks a c r /\ row_ok d r = true.
Proof. intros r H. apply filter_In in H as [H1 H2]. split; auto. now apply (rows_sound ranks a c Sa Sc Hpos Lac parts Hparts). Qed.
Lemma word_NoDup : forall r, row_of ranks a c r -> row_ok d r = true -> NoDup (word_of r).
Proof.
  intros r R K. apply (NoDup_map_inv halved). destruct (row_word r R K) as [_ ->]. apply (NoDup_map_inv fst). destruct R as (Fr & P1 & _).
  apply concat_NoDup_blocks.
  - eapply Permutation_NoDup; [symmetry; exact P1|apply SS_NoDup, Sa].
  - apply Forall_forall. intros b Hb. apply in_map_iff in Hb as (p & <- & Hp). rewrite Forall_forall in Fr. apply Fr in Hp as (_ & _ & _ & Hr). apply Hpos in Hr.
    intros X. rewrite X in Hr. cbn in Hr. lia.
Qed.
Lemma word_len : forall r, length (word_of r) = length r.
Proof. intros. apply map_length. Qed.
Lemma sum_words : forall k, sumf wval (words d k) = nat_r (fact k) * sumf (fun r => wval (word_of r)) (filter (fun r => Nat.eqb (length r) k) rr).
Proof.
  intros k. set (rk := filter (fun r => Nat.eqb (length r) k) rr).
  assert (Hk : forall r, In r rk -> row_of ranks a c r /\ row_ok d r = true /\ length r = k).
  { intros r H. unfold rk in H. apply filter_In in H as [H1 H2]. apply Nat.eqb_eq in H2. apply rr_In in H1. tauto. }
  transitivity (sumf wval (flat_map (fun r => permutations (word_of r) (length (word_of r))) rk)).
  - apply sumf_support.
    + apply words_NoDup, NoDup_d.
    + apply pd_eq_NoDup. apply (pd_flat_map (@Permutation (list Z * list Z))).
      * unfold rk, rr. do 2 apply pd_filter. apply (rows_distinct ranks a c Sa Sc Hpos Lac parts Hparts).
      * intros r Hr. apply Hk in Hr as (H1 & H2 & _). apply pd_NoDup_eq; [|auto]. apply permutations_NoDup. now apply word_NoDup.
      * intros r1 r2 p1 p2 H1 H2 Q1 Q2 <-. apply Hk in H1 as (R1 & K1 & _), H2 as (R2 & K2 & _).
        apply permutations_perm in Q1; [|now apply word_NoDup]. apply permutations_perm in Q2; [|now apply word_NoDup].
        rewrite <- (proj2 (row_word r1 R1 K1)), <- (proj2 (row_word r2 R2 K2)). apply Permutation_map. rewrite Q1. now symmetry.
    + intros p Hp. apply in_flat_map in Hp as (r & Hr & Hp). apply Hk in Hr as (R & K & L). apply permutations_perm in Hp; [|now apply word_NoDup].
      apply words_In. split; [rewrite <- (Permutation_length Hp), word_len; auto|]. intros x Hx. apply (row_word r R K). eapply Permutation_in; [symmetry; exact Hp|auto].
    + intros w Hw. apply words_In in Hw as [Lw Iw]. destruct (Z.eq_dec (melem sd (wops w) ref) 0) as [Z0|Nz].
      * left. unfold wval. rewrite Z0. change (sgnr 0) with (0 : F). ring.
      * right. pose proof (word_row w Iw Nz) as R. destruct (rows_complete ranks a c Sa Sc Hpos parts Hparts _ R) as (r & Hr & P).
        pose proof (rows_sound ranks a c Sa Sc Hpos Lac parts Hparts r Hr) as R'.
        destruct (word_back w Iw) as [E K].
        assert (K' : row_ok d r = true).
        { unfold row_ok in *. rewrite forallb_forall in *. intros e He. apply K. eapply Permutation_in; [|exact He]. symmetry. now apply Permutation_map. }
        apply in_flat_map. exists r. split.
        -- apply filter_In. split; [apply filter_In; auto|]. apply Nat.eqb_eq. rewrite <- (Permutation_length P), map_length. exact Lw.
        -- apply permutations_perm; [now apply word_NoDup|]. rewrite <- E. unfold word_of. apply Permutation_map. now symmetry.
  - rewrite sumf_flat_map. rewrite <- sumf_mul_l. apply sumf_ext. intros r Hr. apply Hk in Hr as (R & K & L).
    rewrite (sumf_ext _ (fun _ => wval (word_of r))).
    + rewrite sumf_const. rewrite (permutations_len (length (word_of r))) by auto. rewrite word_len, L. reflexivity.
    + intros p Hp. apply permutations_perm in Hp; [|now apply word_NoDup]. now apply wval_perm.
Qed.
Lemma row_len : forall r, row_of ranks a c r -> (length r <= length a)%nat.
Proof.
  intros r (Fr & P & _). rewrite <- (Permutation_length P). clear - Fr Hpos. induction Fr as [|p r (_ & _ & _ & Hp) Fr IH]; [auto|]. cbn [length map concat].
  rewrite app_length. apply Hpos in Hp. lia.
Qed.
Lemma sum_by_length : forall (f : row -> F) l n, (forall r, In r l -> (length r <= n)%nat) ->
  sumf (fun k => sumf f (filter (fun r => Nat.eqb (length r) k) l)) (seq 0%nat (S n)) = sumf f l.
Proof.
  intros f l n H. rewrite (sumf_ext _ (fun k => sumf (fun r => if Nat.eqb (length r) k then f r else 0) l)) by (intros; apply sumf_filter).
  rewrite sumf_swap. apply sumf_ext. intros r Hr. rewrite (sumf_single _ _ (length r)).
  - now rewrite Nat.eqb_refl.
  - apply seq_NoDup.
  - apply in_seq. specialize (H r Hr). lia.
  - intros k Hk Nk. destruct (Nat.eqb_spec (length r) k); auto. congruence.
Qed.
Theorem exp_rows : forall n, (length a <= n)%nat ->
  exp_coeff n (map (fun ei : list Z * nat => (amp (snd ei), eops (fst ei))) d) ref sd = sumf (fun r => wval (word_of r)) rr.
Proof.
  intros n Hn. unfold exp_coeff. rewrite <- (sum_by_length _ rr n).
  - apply sumf_ext. intros k _. rewrite coeff_powers. rewrite sumf_cons. cbn [fst snd].
    rewrite words_map, sumf_map. rewrite (sumf_ext _ wval).
    + rewrite sum_words. assert (X : (nat_r (fact k) : F) <> 0) by (apply CZ, lt_O_fact).
      generalize (sumf (fun r => wval (word_of r)) (filter (fun r => Nat.eqb (length r) k) rr)). intros S0. cbn [sumf fold_right].
      transitivity ((finv (nat_r (fact k)) * nat_r (fact k)) * S0); [ring|].
      transitivity ((nat_r (fact k) * finv (nat_r (fact k))) * S0); [ring|]. rewrite f_inv_r by auto. ring.
    + intros w _. unfold wval, wops. rewrite prodf_map, flat_map_map. reflexivity.
  - intros r Hr. apply rr_In in Hr as [R _]. apply row_len in R. lia.
Qed.
End Main.
