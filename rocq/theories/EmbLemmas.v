(** Lemmas for EmbeddedCC *)
From Coq Require Import List ZArith NArith Arith Bool Lia Permutation Sorted.
From Verif Require Import Py Slater SlaterBits2 PermLemmas BicliqueLemmas GeneralLemmas Alg WfnCI CC CCRows CCSpec CCExp CCLemmas CCMain P_CC EmbCC EmbSpec SignLemmas BitLemmas.
Import ListNotations.
Local Open Scope nat_scope.

Lemma mapM_F2 : forall {A B} (f : A -> res B) l l', mapM f l = Ok l' <-> Forall2 (fun x y => f x = Ok y) l l'.
Proof.
  intros A B f. induction l as [|x l IH]; intros l'; cbn [mapM].
  - split; intros H; [apply Ok_inj in H; subst; constructor|inversion H; reflexivity].
  - destruct (f x) as [y|] eqn:E; cbn [bind].
    + destruct (mapM f l) as [ys|] eqn:El; cbn [bind]; split; intros H.
      * apply Ok_inj in H. subst. constructor; [auto|]. now apply IH.
      * inversion H; subst. assert (y0 = y) by congruence. apply IH in H4. apply Ok_inj in H4. now subst.
      * discriminate.
      * inversion H; subst. apply IH in H4. discriminate.
    + split; [discriminate|]. intros H. inversion H; subst. congruence.
Qed.
Lemma perm_filter : forall {A} (f : A -> bool) a b, Permutation a b -> Permutation (filter f a) (filter f b).
Proof.
  intros A f. induction 1 as [|x a b P IH|x y a|a b c P1 IH1 P2 IH2]; cbn [filter]; auto.
  - destruct (f x); auto.
  - destruct (f x), (f y); auto. apply perm_swap.
  - etransitivity; eauto.
Qed.
Lemma nd_app_r : forall {A} (a b : list A), NoDup (a ++ b) -> NoDup b.
Proof. intros A. induction a as [|x a IH]; intros b H; [exact H|]. inversion H; subst. auto. Qed.
Lemma nd_app_l : forall {A} (a b : list A), NoDup (a ++ b) -> NoDup a.
Proof.
  intros A. induction a as [|x a IH]; intros b H; [constructor|]. inversion H; subst. constructor; [|eauto]. intros X. apply H2, in_or_app. auto.
Qed.
Definition place (inds : list (list Z)) (k : nat) (j : Z) : Z := nth (Z.to_nat j) (sorted_Z (nth k inds [])) 0%Z.
Lemma to_system_ok : forall inds k j z, to_system inds k j = Ok z <-> k < length inds /\ (0 <= j < Z.of_nat (length (nth k inds [])))%Z /\ z = place inds k j.
Proof.
  intros inds k j z. unfold to_system, place. destruct (nth_error inds k) as [l|] eqn:E.
  - pose proof (proj1 (nth_error_Some inds k)) as L. rewrite E in L. specialize (L ltac:(discriminate)). rewrite (nth_error_nth _ _ [] E).
    destruct (Z.leb_spec 0 j), (Z.ltb_spec j (Z.of_nat (length l))); cbn [andb]; split; intros X; try discriminate; try (destruct X as (_ & X & _); lia).
    + apply Ok_inj in X. auto.
    + destruct X as (_ & _ & ->). reflexivity.
  - apply nth_error_None in E. split; [discriminate|]. intros (H & _). lia.
Qed.
Lemma mapM_place : forall inds k e e', mapM (to_system inds k) e = Ok e' -> e' = map (place inds k) e /\ (forall j, In j e -> (0 <= j < Z.of_nat (length (nth k inds [])))%Z).
Proof.
  intros inds k e e' H. apply mapM_F2 in H. induction H as [|j z e e' Hj H [-> IH]]; [split; [reflexivity|contradiction]|].
  apply to_system_ok in Hj as (_ & B & ->). split; [reflexivity|]. intros i [<-|Hi]; auto.
Qed.
Section Place.
Variables (inds : list (list Z)) (k : nat).
Let l := nth k inds [].
Hypothesis N : NoDup l.
Lemma sorted_SS : StronglySorted Z.lt (sorted_Z l).
Proof. apply sorted_strict; [apply (Permutation_NoDup (Permutation_sym (sorted_Z_perm l))); auto|apply sorted_Z_sorted]. Qed.
Lemma sorted_len : length (sorted_Z l) = length l.
Proof. apply Permutation_length, sorted_Z_perm. Qed.
Lemma SS_nth_lt : forall (s : list Z) i j, StronglySorted Z.lt s -> i < j -> j < length s -> (nth i s 0 < nth j s 0)%Z.
Proof.
  induction s as [|x s IH]; intros i j S H1 H2; [cbn in H2; lia|]. inversion S; subst. destruct j; [lia|]. cbn [length] in H2. destruct i; cbn [nth].
  - rewrite Forall_forall in H4. apply H4, nth_In. lia.
  - apply IH; auto; lia.
Qed.
Lemma place_lt : forall i j, (0 <= i < j)%Z -> (j < Z.of_nat (length l))%Z -> (place inds k i < place inds k j)%Z.
Proof. intros i j H1 H2. unfold place. apply SS_nth_lt; [apply sorted_SS|lia|]. fold l. rewrite sorted_len. lia. Qed.
Lemma place_In : forall j, (0 <= j < Z.of_nat (length l))%Z -> In (place inds k j) l.
Proof. intros j H. apply (Permutation_in _ (sorted_Z_perm l)). unfold place. fold l. apply nth_In. rewrite sorted_len. lia. Qed.
Lemma place_inj : forall i j, (0 <= i < Z.of_nat (length l))%Z -> (0 <= j < Z.of_nat (length l))%Z -> place inds k i = place inds k j -> i = j.
Proof.
  intros i j Hi Hj E. destruct (Z.lt_trichotomy i j) as [H|[H|H]]; auto.
  - pose proof (place_lt i j ltac:(lia) ltac:(lia)). lia.
  - pose proof (place_lt j i ltac:(lia) ltac:(lia)). lia.
Qed.
Lemma below_nth : forall s i, StronglySorted Z.lt s -> i < length s -> length (filter (fun y => (y <? nth i s 0)%Z) s) = i.
Proof.
  induction s as [|x s IH]; intros i S H; [cbn in H; lia|]. inversion S; subst. rewrite Forall_forall in H3. destruct i; cbn [nth filter].
  - rewrite Z.ltb_irrefl. rewrite filter_false; [reflexivity|]. intros y Hy. apply H3 in Hy. apply Z.ltb_ge. lia.
  - cbn [length] in H. assert (X : (x < nth i s 0)%Z) by (apply H3, nth_In; lia). apply Z.ltb_lt in X. rewrite X. cbn [length]. rewrite IH; auto. lia.
Qed.
Lemma place_sits : forall j, (0 <= j < Z.of_nat (length l))%Z -> sits l j (place inds k j).
Proof.
  intros j H. split; [now apply place_In|]. assert (E : length (filter (fun y => (y <? place inds k j)%Z) (sorted_Z l)) = Z.to_nat j).
  { unfold place. fold l. apply below_nth; [apply sorted_SS|rewrite sorted_len; lia]. }
  assert (P : Permutation (filter (fun y => (y <? place inds k j)%Z) (sorted_Z l)) (filter (fun y => (y <? place inds k j)%Z) l)).
  { apply perm_filter, sorted_Z_perm. }
  rewrite <- (Permutation_length P), E. lia.
Qed.
Lemma place_good : forall ranks e, good_key ranks e -> (forall j, In j e -> (0 <= j < Z.of_nat (length l))%Z) -> (forall z, In z l -> (0 <= z)%Z) ->
  forall ranks', In (Z.of_nat (length (annihilators e))) ranks' -> good_key ranks' (map (place inds k) e).
Proof.
  intros ranks e (S1 & S2 & L & R & P) B Pos ranks' R'.
  assert (A : annihilators (map (place inds k) e) = map (place inds k) (annihilators e)) by (unfold annihilators; now rewrite map_length, firstn_map).
  assert (C : creators (map (place inds k) e) = map (place inds k) (creators e)) by (unfold creators; now rewrite map_length, skipn_map).
  assert (Mono : forall s, StronglySorted Z.lt s -> (forall j, In j s -> (0 <= j < Z.of_nat (length l))%Z) -> StronglySorted Z.lt (map (place inds k) s)).
  { induction s as [|x s IH]; intros S Bs; [constructor|]. inversion S; subst. cbn [map]. constructor; [apply IH; auto; intros; apply Bs; now right|].
    rewrite Forall_forall in *. intros z Hz. apply in_map_iff in Hz as (j & <- & Hj). apply place_lt; [|apply Bs; now right].
    pose proof (Bs x (or_introl eq_refl)). specialize (H2 j Hj). lia. }
  unfold good_key. rewrite A, C, !map_length. split; [|split; [|split; [|split]]]; auto.
  - apply Mono; auto. intros j Hj. apply B. rewrite <- (halves e). apply in_or_app. auto.
  - apply Mono; auto. intros j Hj. apply B. rewrite <- (halves e). apply in_or_app. auto.
  - intros z Hz. apply in_map_iff in Hz as (j & <- & Hj). apply Pos, place_In. auto.
Qed.
End Place.

(** ** dictionaries *)
Definition counted (d : exops) : Prop := NoDup (map fst d) /\ map snd d = seq 0 (length d).
Lemma fold_set : forall (items d : exops), NoDup (map fst d ++ map fst items) -> fold_left (fun d ei => dict_set d (fst ei) (snd ei)) items d = d ++ items.
Proof.
  induction items as [|[e i] items IH]; intros d H; [cbn; now rewrite app_nil_r|]. cbn [fold_left fst snd map] in *.
  rewrite dict_set_new.
  - rewrite IH; [now rewrite <- app_assoc|]. rewrite map_app, <- app_assoc. exact H.
  - intros X. apply NoDup_remove_2 in H. apply H, in_or_app. auto.
Qed.
Lemma counted_get : forall d e i, counted d -> (get_ind d e = Ok i <-> In (e, i) d).
Proof.
  intros d e i (N & _). rewrite <- dict_get_In by exact N. unfold get_ind. destruct (dict_get d e); split; intros H; try discriminate; congruence.
Qed.

(** ** the loop *)
Section Loop.
Context {K : CRing}.
Local Open Scope cr_scope.
Variable inds : list (list Z).
Hypothesis NI : NoDup (concat inds).
Lemma sub_facts : forall (u : sub K) w, sub_cc u = Ok w -> counted (cc_exops w) /\ length (cc_params w) = length (cc_exops w) /\
  (forall e, In e (map fst (cc_exops w)) -> good_key (cc_ranks w) e) /\ (forall e, In e (map fst (cc_exops w)) -> e <> []).
Proof.
  intros u w H. unfold sub_cc in H. destruct (new_cc_built _ _ _ _ _ _ _ _ _ _ H) as (g & B). destruct (C46_bijection _ _ _ _ _ _ _ _ _ _ H) as (_ & _ & _ & _ & _ & N & S).
  assert (L : length (cc_params w) = length (cc_exops w)) by (apply (f_equal (@length nat)) in S; rewrite map_length, seq_length in S; auto).
  assert (G : forall e, In e (map fst (cc_exops w)) -> good_key (cc_ranks w) e) by (apply (built_good _ _ _ _ _ _ _ _ _ _ B)).
  split; [split; [exact N|now rewrite <- L]|]. split; [exact L|]. split; [exact G|].
  intros e He ->. apply G in He as (_ & _ & _ & X & _). cbn in X. apply (built_ranks _ _ _ _ _ _ _ _ _ _ B) in X. lia.
Qed.
Lemma nd_part : forall k, NoDup (nth k inds []).
Proof.
  intros k. destruct (Nat.lt_ge_cases k (length inds)) as [H|H]; [|rewrite nth_overflow by auto; constructor].
  apply (nth_split _ []) in H as (l1 & l2 & E & _). revert NI. rewrite E at 1. rewrite concat_app. cbn [concat]. intros X. now apply nd_app_r, nd_app_l in X.
Qed.
(** the orbitals of the first k subsystems *)
Definition before (k : nat) (z : Z) : Prop := exists j, j < k /\ In z (nth j inds []).
Lemma before_not : forall k z, before k z -> ~ In z (nth k inds []).
Proof.
  intros k z (j & Hj & Hz) Hk. destruct (Nat.lt_ge_cases k (length inds)) as [H|H]; [|rewrite nth_overflow in Hk by auto; contradiction].
  destruct (nth_split _ [] H) as (l1 & l2 & E & L1). revert NI. rewrite E at 1. rewrite concat_app. cbn [concat]. intros X.
  assert (Q : In z (concat l1)).
  { apply in_concat. exists (nth j inds []). split; auto. rewrite E, app_nth1 by lia. apply nth_In. lia. }
  clear - X Q Hk. induction (concat l1) as [|y m IH]; [contradiction|]. cbn in X. inversion X; subst. destruct Q as [->|Q]; auto.
  apply H1. apply in_or_app. right. apply in_or_app. now left.
Qed.
(** what the loop does *)
Record looped (k : nat) (subs : list (sub K)) (d : exops) (ps : list (list K)) (d' : exops) (ps' : list (list K)) : Prop := mklooped {
  lo_counted : counted d'; lo_params : length (concat ps') = length d';
  lo_keep : exists t q, d' = d ++ t /\ ps' = ps ++ q /\ (q = [] -> t = []);
  lo_sub : forall j u, nth_error subs j = Some u -> su_nelec u <> 0%Z -> exists w, sub_cc u = Ok w /\
    forall e i, In (e, i) (cc_exops w) -> (forall z, In z e -> (0 <= z < Z.of_nat (length (nth (k + j) inds [])))%Z) /\
      exists i', In (map (place inds (k + j)) e, i') d' /\ nth i' (concat ps') 0 = nth i (cc_params w) 0;
  lo_from : forall e' i', In (e', i') d' -> In (e', i') d \/ exists j u w e, nth_error subs j = Some u /\ su_nelec u <> 0%Z /\ sub_cc u = Ok w /\
    In e (map fst (cc_exops w)) /\ e' = map (place inds (k + j)) e }.
Lemma emb_loop : forall subs k d ps d' ps', emb_subs inds k subs d ps = Ok (d', ps') -> counted d -> length (concat ps) = length d ->
  (forall e, In e (map fst d) -> e <> [] /\ forall z, In z e -> before k z) -> looped k subs d ps d' ps'.
Proof.
  induction subs as [|u subs IH]; intros k d ps d' ps' E C L Hd; cbn [emb_subs] in E.
  - injection E as <- <-. constructor; auto.
    + exists [], []. rewrite !app_nil_r. auto.
    + intros [|j]; discriminate.
  - assert (Mon : forall z, before k z -> before (S k) z) by (intros z (j & H1 & H2); exists j; auto).
    destruct (Z.eqb_spec (su_nelec u) 0) as [Z0|Nz].
    + apply IH in E; auto; [|intros e He; destruct (Hd e He); auto]. destruct E as [E1 E2 E3 E4 E5]. constructor; auto.
      * intros [|j] v Hj Hv; [cbn in Hj; injection Hj as <-; contradiction|]. destruct (E4 j v Hj Hv) as (w & Hw & H). exists w. split; auto. now rewrite <- Nat.add_succ_comm.
      * intros e' i' H. destruct (E5 e' i' H) as [H'|(j & v & w & e & H1 & H2 & H3 & H4 & H5)]; auto. right. exists (S j), v, w, e. rewrite <- Nat.add_succ_comm. auto.
    + destruct (su_nspin u =? 0)%Z; [discriminate|]. destruct (sub_cc u) as [w|] eqn:Ew; [|discriminate]. cbn [bind] in E.
      destruct (mapM _ (cc_exops w)) as [items|] eqn:Ei; [|discriminate]. cbn [bind] in E.
      destruct (sub_facts u w Ew) as ((N1 & N2) & Lw & G & Ne).
      assert (It : items = map (fun ei => (map (place inds k) (fst ei), (snd ei + length d)%nat)) (cc_exops w) /\
        forall e, In e (map fst (cc_exops w)) -> forall j, In j e -> (0 <= j < Z.of_nat (length (nth k inds [])))%Z).
      { clear - Ei. apply mapM_F2 in Ei. induction Ei as [|[e i] it l items He H [-> IH]]; [split; [reflexivity|contradiction]|]. cbn [fst snd] in *.
        destruct (mapM (to_system inds k) e) as [e'|] eqn:Em; [|discriminate]. cbn [bind] in He. apply Ok_inj in He. subst it. apply mapM_place in Em as [-> B].
        split; [reflexivity|]. intros x [<-|Hx]; [exact B|now apply IH]. }
      destruct It as [-> Bd]. clear Ei. pose proof (nd_part k) as Nk.
      assert (Fs : map fst (map (fun ei => (map (place inds k) (fst ei), (snd ei + length d)%nat)) (cc_exops w)) = map (map (place inds k)) (map fst (cc_exops w))) by (rewrite !map_map; reflexivity).
      assert (Nn : NoDup (map fst d ++ map (map (place inds k)) (map fst (cc_exops w)))).
      { apply SlaterBits2.NoDup_app_intro; [apply C| |].
        - clear - N1 Bd Nk. induction (map fst (cc_exops w)) as [|e m IHm]; [constructor|]. inversion N1; subst. cbn [map]. constructor.
          + intros X. apply in_map_iff in X as (e' & Ee & He'). assert (e' = e); [|now subst].
            assert (B1 := Bd e (or_introl eq_refl)). assert (B2 := Bd e' (or_intror He')). clear - Ee B1 B2 Nk. revert e Ee B1. induction e' as [|x e' IHe]; intros [|y e] Ee B1; try discriminate; [reflexivity|].
            cbn [map] in Ee. injection Ee as E1 E2. f_equal; [apply (place_inj inds k Nk); auto; [apply B2|apply B1]; now left|].
            apply IHe; auto; intros j Hj; [apply B2|apply B1]; now right.
          + apply IHm; auto. intros e' He'. apply Bd. now right.
        - intros e H1 H2. apply in_map_iff in H2 as (e0 & <- & He0). destruct (Hd _ H1) as [_ B]. pose proof (Ne e0 He0) as Nz0. destruct e0 as [|x e0]; [congruence|].
          specialize (B (place inds k x) (or_introl eq_refl)). apply before_not in B. apply B. apply (place_In inds k). apply (Bd (x :: e0)); auto. now left. }
      rewrite fold_set in E by (rewrite Fs; exact Nn).
      set (items := map (fun ei => (map (place inds k) (fst ei), (snd ei + length d)%nat)) (cc_exops w)) in *.
      assert (Li : length items = length (cc_exops w)) by (unfold items; apply map_length).
      apply IH in E.
      * destruct E as [E1 E2 (t & q & E3 & E3' & _) E4 E5]. constructor; auto.
        -- exists (items ++ t), ([cc_params w] ++ q). rewrite E3, E3', <- !app_assoc. split; [reflexivity|]. split; [reflexivity|]. discriminate.
        -- intros [|j] v Hj Hv.
           ++ cbn in Hj. injection Hj as <-. exists w. split; [auto|]. intros e i He. rewrite Nat.add_0_r. split.
              ** intros z Hz. apply (Bd e); auto. now apply (in_map fst) in He.
              ** exists (i + length d)%nat. split.
                 --- rewrite E3. apply in_or_app. left. apply in_or_app. right. unfold items. apply in_map_iff. exists (e, i). auto.
                 --- rewrite E3', !concat_app. cbn [concat]. rewrite app_nil_r, <- app_assoc, <- L, Nat.add_comm, app_nth2_plus.
                     apply app_nth1. apply (in_map snd) in He. rewrite N2 in He. apply in_seq in He. cbn in He. lia.
           ++ destruct (E4 j v Hj Hv) as (w' & Hw & H). exists w'. split; auto. now rewrite <- Nat.add_succ_comm.
        -- intros e' i' H. destruct (E5 e' i' H) as [H'|(j & v & w' & e & H1 & H2 & H3 & H4 & H5)].
           ++ apply in_app_iff in H' as [H'|H']; auto. right. unfold items in H'. apply in_map_iff in H' as ([e i] & Ee & He). cbn [fst snd] in Ee. injection Ee as <- <-.
              exists 0%nat, u, w, e. rewrite Nat.add_0_r. split; [reflexivity|]. split; [auto|]. split; [auto|]. split; [now apply (in_map fst) in He|reflexivity].
           ++ right. exists (S j), v, w', e. rewrite <- Nat.add_succ_comm. auto.
      * split; [rewrite map_app, Fs; exact Nn|]. rewrite map_app, app_length, seq_app. destruct C as (_ & ->). f_equal.
        rewrite Li. unfold items. rewrite map_map. cbn [snd].
        transitivity (map (fun i => (i + length d)%nat) (map snd (cc_exops w))); [now rewrite map_map|]. rewrite N2. cbn [Nat.add].
        clear. generalize (length (cc_exops w)). intros n. change (length d) with (0 + length d)%nat at 2. generalize 0%nat. induction n as [|n IHn]; intros m; [reflexivity|]. cbn [seq map]. f_equal. apply (IHn (S m)).
      * rewrite concat_app, !app_length. cbn [concat]. rewrite app_nil_r, L, Li, Lw. reflexivity.
      * intros e He. rewrite map_app in He. apply in_app_iff in He as [He|He].
        -- destruct (Hd e He). auto.
        -- rewrite Fs in He. apply in_map_iff in He as (e0 & <- & He0). split.
           ++ pose proof (Ne e0 He0). destruct e0; [congruence|discriminate].
           ++ intros z Hz. apply in_map_iff in Hz as (j & <- & Hj). exists k. split; [lia|]. apply (place_In inds k). now apply (Bd e0).
Qed.
End Loop.

(** ** operators between subsystems *)
Lemma emb_inter_ok : forall inter d d', emb_inter inter d = Ok d' -> counted d -> d' = d ++ combine inter (seq (length d) (length inter)) /\ counted d'.
Proof.
  unfold emb_inter. induction inter as [|e inter IH]; intros d d' H C; cbn [foldM] in H.
  - apply Ok_inj in H. subst. rewrite app_nil_r. auto.
  - destruct (dict_get d e) eqn:E; [discriminate|]. cbn [bind] in H. assert (X : ~ In e (map fst d)).
    { intros X. apply in_map_iff in X as ([e' i] & <- & X). apply dict_get_In in X; [|apply C]. cbn in E. congruence. }
    rewrite dict_set_new in H by exact X. apply IH in H.
    + destruct H as [-> H]. rewrite app_length. cbn [length seq combine]. rewrite Nat.add_1_r, <- app_assoc. cbn [app]. split; [reflexivity|].
      rewrite app_length, <- app_assoc in H. cbn [length app] in H. now rewrite Nat.add_1_r in H.
    + destruct C as (C1 & C2). split.
      * rewrite map_app. cbn [map fst]. apply SlaterBits2.NoDup_app_intro; auto; [constructor; [intros []|constructor]|]. intros z Hz [<-|[]]. contradiction.
      * rewrite map_app, app_length, seq_app, C2. reflexivity.
Qed.
