(** Property C75: the operators, amplitudes and overlaps of EmbeddedCC. *)
From Coq Require Import List ZArith NArith Arith Bool Lia Permutation Sorted.
From Verif Require Import Py Slater SlaterBits2 PermLemmas BicliqueLemmas GeneralLemmas Alg WfnCI CC CCRows CCSpec CCFock CCExp CCLemmas CCMain GemSpec P_CC
  EmbCC EmbSpec EmbLemmas EmbDeriv EmbEx P_CI SignLemmas.
Import ListNotations.

Section P.
Context {K : CRing}.
Local Open Scope cr_scope.
Add Ring K_ring140 : (rth K).
Variables (nelecs nspins : list Z) (inds : list (list Z)) (classes : list ccclass) (ranks : option (list ranksarg))
  (ix : option (list (option (list (list Z))))) (inter : list (list Z)) (refs : list refarg) (ps : option (list (ccparams K)))
  (inter_params : option (list K)) (given : bool) (refresh : Z) (w : cc K).
Hypothesis New : new_emb nelecs nspins inds classes ranks ix inter refs ps inter_params given refresh = Ok w.
(** one list of orbitals for each subsystem *)
Hypothesis Lists : length inds = length nspins.
Lemma emb_nodup : emb_indices_ok nspins inds = true -> NoDup (concat inds) /\ (forall z, In z (concat inds) -> (0 <= z)%Z).
Proof.
  unfold emb_indices_ok. intros H. apply andb_true_iff in H as [H1 H2]. unfold key_eqb in H2. destruct (list_eq_dec Z.eq_dec _ _) as [E|]; [|discriminate]. clear H2.
  set (n := fold_right Z.add 0%Z nspins) in *.
  assert (L : Z.of_nat (length (concat inds)) = n).
  { unfold n. clear - H1 Lists. revert nspins H1 Lists. induction inds as [|l t IH]; intros [|m nspins'] H Ln; try discriminate; [reflexivity|]. cbn [combine forallb fst snd] in H.
    apply andb_true_iff in H as [H H']. apply andb_true_iff in H as [_ H]. apply Z.eqb_eq in H. cbn [concat fold_right]. rewrite app_length, Nat2Z.inj_add, H.
    rewrite (IH nspins'); auto. }
  assert (Inc : forall z, In z (orbitals n) <-> In z (concat inds)) by (intros z; rewrite <- E; apply sorted_set_In).
  split.
  - apply (NoDup_incl_NoDup (l := orbitals n)).
    + unfold orbitals. apply FinFun.Injective_map_NoDup; [intros x y; lia|apply seq_NoDup].
    + unfold orbitals. rewrite map_length, seq_length. lia.
    + intros z Hz. now apply Inc.
  - intros z Hz. apply Inc in Hz. unfold orbitals in Hz. apply in_map_iff in Hz as (i & <- & _). lia.
Qed.
Definition subs_of (rf : list refarg) : list (sub K) :=
  zip_subs (or_none (length nelecs) None ix) nelecs nspins (or_none (length nelecs) RanksNone ranks) rf classes (or_none (length nelecs) CPNone ps).
Lemma emb_parts : exists rf d0 ps0,
  match refs with [] => mapM (fun p => do g <- ground (fst p) (snd p); Ok (RefSd g)) (combine nelecs nspins) | _ => Ok refs end = Ok rf /\
  NoDup (concat inds) /\ (forall z, In z (concat inds) -> (0 <= z)%Z) /\ looped inds 0 (subs_of rf) [] [] d0 ps0 /\
  cc_exops w = d0 ++ combine inter (seq (length d0) (length inter)) /\ counted (cc_exops w) /\
  cc_params w = concat ps0 ++ (match inter_params with Some l => match inter with [] => [] | _ => l end | None => repeat 0 (length inter) end) /\
  length (cc_params w) = length (cc_exops w) /\ cc_class w = CCBase /\ cc_combs w = (if given then None else Some []) /\
  (exists ra, emb_ranks nelecs ranks = Ok ra /\ assign_ranks (fold_right Z.add 0%Z nelecs) ra = Ok (cc_ranks w)) /\
  (exists g, ground (fold_right Z.add 0%Z nelecs) (fold_right Z.add 0%Z nspins) = Ok g /\ cc_ref w = RSd g).
Proof.
  pose proof New as H. unfold new_emb, assign_nelec, assign_nspin in H. set (ne := fold_right Z.add 0%Z nelecs) in *. set (ns := fold_right Z.add 0%Z nspins) in *.
  destruct (ne <=? 0)%Z; [discriminate|]. cbn [bind] in H. 
  match type of H with bind ?x _ = _ => destruct x as [ns'|] eqn:En; [|discriminate] end. cbn [bind] in H.
  assert (ns' = ns) by (repeat match type of En with context [if ?b then _ else _] => destruct b; try discriminate end; now apply Ok_inj in En). subst ns'. clear En.
  destruct (emb_indices_ok nspins inds) eqn:Eo; [|discriminate]. cbn [negb] in H. destruct (emb_nodup Eo) as [ND PZ].
  destruct (emb_ranks nelecs ranks) as [ra|] eqn:Era; [|discriminate]. cbn [bind] in H. destruct (assign_ranks ne ra) as [rk|] eqn:Erk; [|discriminate]. cbn [bind] in H.
  cbn [assign_refwfn] in H. destruct (ground ne ns) as [g|] eqn:Eg; [|discriminate]. cbn [bind] in H.
  match type of H with bind ?x _ = _ => destruct x as [rf|] eqn:Erf; [|discriminate] end. cbn [bind] in H. fold (subs_of rf) in H.
  destruct (emb_subs inds 0 (subs_of rf) [] []) as [[d0 ps0]|] eqn:Es; [|discriminate]. cbn [bind fst snd] in H.
  pose proof (emb_loop inds ND _ _ _ _ _ _ Es) as Lo. assert (LP : looped inds 0 (subs_of rf) [] [] d0 ps0).
  { apply Lo; [split; [constructor|reflexivity]|reflexivity|intros e []]. }
  clear Lo. destruct (match inter with [] => Ok d0 | _ => emb_inter inter d0 end) as [d|] eqn:Ed; [|discriminate]. cbn [bind] in H.
  destruct (emb_params inter inter_params ps0) as [params|] eqn:Ep; [|discriminate]. cbn [bind] in H. apply Ok_inj in H. subst w. cbn [cc_exops cc_params cc_class cc_combs cc_ranks cc_ref].
  assert (D : d = d0 ++ combine inter (seq (length d0) (length inter)) /\ counted d).
  { destruct inter as [|e t].
    - apply Ok_inj in Ed. subst d. cbn. rewrite app_nil_r. split; [reflexivity|]. apply (lo_counted _ _ _ _ _ _ _ LP).
    - apply emb_inter_ok; [exact Ed|]. apply (lo_counted _ _ _ _ _ _ _ LP). }
  destruct D as [Dd Dc]. exists rf, d0, ps0. split; [reflexivity|]. split; [exact ND|]. split; [exact PZ|]. split; [exact LP|]. split; [exact Dd|]. split; [exact Dc|].
  assert (P : params = concat ps0 ++ (match inter_params with Some l => match inter with [] => [] | _ => l end | None => repeat 0 (length inter) end) /\
    length (match inter_params with Some l => match inter with [] => [] | _ => l end | None => repeat 0 (length inter) end) = length inter).
  { unfold emb_params in Ep. destruct inter as [|e t].
    - cbn [bind] in Ep. split; [|now destruct inter_params]. destruct ps0 as [|p q]; [discriminate|]. apply Ok_inj in Ep. subst params. destruct inter_params; cbn [repeat length]; now rewrite app_nil_r.
    - destruct inter_params as [l|].
      + destruct (Nat.eqb_spec (length (e :: t)) (length l)) as [El|]; [|discriminate]. cbn [bind] in Ep. split; [|auto].
        destruct (ps0 ++ [l]) as [|p q] eqn:Eq; [now apply app_eq_nil in Eq|]. apply Ok_inj in Ep. subst params. rewrite <- Eq, concat_app. cbn [concat]. now rewrite app_nil_r.
      + cbn [bind] in Ep. split; [|apply repeat_length].
        destruct (ps0 ++ [repeat 0 (length (e :: t))]) as [|p q] eqn:Eq; [now apply app_eq_nil in Eq|]. apply Ok_inj in Ep. subst params. rewrite <- Eq, concat_app. cbn [concat]. now rewrite app_nil_r. }
  destruct P as [Pp Pl]. split; [exact Pp|]. split.
  - rewrite Pp, Dd, !app_length, Pl, combine_length, seq_length, Nat.min_id, (lo_params _ _ _ _ _ _ _ LP). reflexivity.
  - split; [reflexivity|]. split; [reflexivity|]. split; [exists ra; auto|]. exists g. auto.
Qed.
(** operators and amplitudes are in bijection *)
Theorem C75_operators : NoDup (map fst (cc_exops w)) /\ map snd (cc_exops w) = seq 0%nat (length (cc_params w)).
Proof. destruct emb_parts as (rf & d0 & ps0 & _ & _ & _ & _ & _ & (C1 & C2) & _ & L & _). split; [exact C1|]. now rewrite L. Qed.
(** only lists that partition the orbitals of the whole, as many for each subsystem as it has, are accepted *)
Theorem C75_partition : NoDup (concat inds) /\ (forall z, In z (concat inds) <-> (0 <= z < fold_right Z.add 0%Z nspins)%Z) /\
  forall k l n, nth_error inds k = Some l -> nth_error nspins k = Some n -> Z.of_nat (length l) = n.
Proof.
  destruct (emb_indices_ok nspins inds) eqn:Eo.
  2: { exfalso. pose proof New as H. unfold new_emb in H. rewrite Eo in H. destruct (assign_nelec _ _); [|discriminate]. destruct (assign_nspin _); discriminate. }
  destruct (emb_nodup Eo) as [ND PZ]. split; [exact ND|]. unfold emb_indices_ok in Eo. apply andb_true_iff in Eo as [H1 H2]. unfold key_eqb in H2.
  destruct (list_eq_dec Z.eq_dec _ _) as [E|]; [|discriminate]. split.
  - intros z. rewrite <- sorted_set_In, E. unfold orbitals. rewrite in_map_iff. split.
    + intros (i & <- & Hi). apply in_seq in Hi. lia.
    + intros Hz. exists (Z.to_nat z). split; [lia|]. apply in_seq. lia.
  - clear - H1. intros k l n. revert k nspins H1. induction inds as [|a t IH]; intros [|k] [|m nspins'] H1 Hl Hn; try discriminate; cbn in *.
    + injection Hl as ->. injection Hn as ->. apply andb_true_iff in H1 as [H1 _]. apply andb_true_iff in H1 as [_ H1]. now apply Z.eqb_eq in H1.
    + apply andb_true_iff in H1 as [_ H1]. now apply (IH k nspins').
Qed.
(** the electrons, orbitals, ranks and the reference are those of the whole *)
Theorem C75_reference : exists g ra, ground (fold_right Z.add 0%Z nelecs) (fold_right Z.add 0%Z nspins) = Ok g /\ cc_ref w = RSd g /\
  emb_ranks nelecs ranks = Ok ra /\ assign_ranks (fold_right Z.add 0%Z nelecs) ra = Ok (cc_ranks w).
Proof. destruct emb_parts as (rf & d0 & ps0 & _ & _ & _ & _ & _ & _ & _ & _ & _ & _ & (ra & R1 & R2) & (g & G1 & G2)). exists g, ra. auto. Qed.
(** the reference has overlap one; given combinations are not kept and every other overlap fails *)
Theorem C75_given_combinations_refuted : given = true -> forall ref sd, cc_ref w = RSd ref -> cc_overlap w ref = Ok 1 /\ (sd <> ref -> cc_overlap w sd = Err AttributeError).
Proof.
  intros Hg ref sd Ref. destruct emb_parts as (rf & d0 & ps0 & _ & _ & _ & _ & _ & _ & _ & _ & Cl & Cm & _). split.
  - unfold cc_overlap, cc_olp, with_table. rewrite Ref, N.eqb_refl. reflexivity.
  - intros Ne. unfold cc_overlap, cc_olp, with_table. rewrite Ref. apply N.eqb_neq in Ne. rewrite Ne. unfold excitation_of.
    destruct (diff_state ref sd) as (b & Eb). rewrite sign_excite_eq, Eb. cbn [bind]. rewrite Hg in Cm. unfold get_multi. now rewrite Cl, Cm.
Qed.
(** each operator of the wavefunction of a subsystem is an operator of the whole with the same amplitude; default references of the
    subsystems are their ground determinants *)
Lemma zip_nth : forall k a ne ns rk r c p (A : list (option (list (list Z)))) B C D E F G,
  nth_error A k = Some a -> nth_error B k = Some ne -> nth_error C k = Some ns -> nth_error D k = Some rk -> nth_error E k = Some r -> nth_error F k = Some c -> nth_error G k = Some p ->
  nth_error (zip_subs (K := K) A B C D E F G) k = Some (mksub ne ns rk a r c p).
Proof.
  induction k as [|k IH]; intros a ne ns rk r c p [|? A] [|? B] [|? C] [|? D] [|? E] [|? F] [|? G]; cbn; try discriminate.
  - intros. congruence.
  - apply IH.
Qed.
Lemma zip_fields : forall k u (A : list (option (list (list Z)))) B C D E F G, nth_error (zip_subs (K := K) A B C D E F G) k = Some u ->
  nth_error A k = Some (su_indices u) /\ nth_error B k = Some (su_nelec u) /\ nth_error C k = Some (su_nspin u) /\ nth_error D k = Some (su_ranks u) /\
  nth_error E k = Some (su_ref u) /\ nth_error F k = Some (su_class u) /\ nth_error G k = Some (su_params u).
Proof.
  induction k as [|k IH]; intros u [|? A] [|? B] [|? C] [|? D] [|? E] [|? F] [|? G]; cbn; try discriminate.
  - intros H. injection H as <-. repeat split.
  - apply IH.
Qed.
Theorem C75_subsystems : exists rf,
  (refs <> [] -> rf = refs) /\
  (refs = [] -> forall k ne ns, nth_error nelecs k = Some ne -> nth_error nspins k = Some ns -> exists g, ground ne ns = Ok g /\ nth_error rf k = Some (RefSd g)) /\
  forall k ne ns rk i r c p,
    nth_error nelecs k = Some ne -> nth_error nspins k = Some ns -> nth_error classes k = Some c -> nth_error rf k = Some r ->
    nth_error (or_none (length nelecs) RanksNone ranks) k = Some rk -> nth_error (or_none (length nelecs) None ix) k = Some i ->
    nth_error (or_none (length nelecs) CPNone ps) k = Some p -> ne <> 0%Z ->
    exists v, new_cc c ne ns rk i r p false 0 = Ok v /\
      forall e j, get_ind (cc_exops v) e = Ok j -> exists e' j', same_operator (nth k inds []) e e' /\
        get_ind (cc_exops w) e' = Ok j' /\ nth j' (cc_params w) 0 = nth j (cc_params v) 0.
Proof.
  destruct emb_parts as (rf & d0 & ps0 & Erf & ND & _ & LP & Ed & Dc & Ep & Lp & _). exists rf. split; [|split].
  - intros H. destruct refs; [congruence|]. now apply Ok_inj in Erf.
  - intros H k ne ns H1 H2. rewrite H in Erf. apply mapM_F2 in Erf.
    assert (Hc : nth_error (combine nelecs nspins) k = Some (ne, ns)).
    { clear - H1 H2. revert nelecs nspins H1 H2. induction k as [|k IH]; intros [|x l] [|y m] H1 H2; try discriminate; cbn in *; [congruence|]. now apply IH. }
    revert k H1 H2 Hc. induction Erf as [|x y l l' Hx Hl IH]; intros [|k] H1 H2 Hc; try discriminate; cbn in *.
    + injection Hc as ->. cbn [fst snd] in Hx. destruct (ground ne ns) as [g|]; [|discriminate]. cbn [bind] in Hx. apply Ok_inj in Hx. subst y. exists g. auto.
    + clear H1 H2. revert k Hc. clear - Hl. induction Hl as [|x y l l' Hx Hl IH]; intros [|k] Hc; try discriminate; cbn in *.
      * injection Hc as ->. cbn [fst snd] in Hx. destruct (ground ne ns) as [g|]; [|discriminate]. cbn [bind] in Hx. apply Ok_inj in Hx. subst y. exists g. auto.
      * now apply IH.
  - intros k ne ns rk i r c p H1 H2 H3 H4 H5 H6 H7 Hne.
    destruct (lo_sub _ _ _ _ _ _ _ LP k (mksub ne ns rk i r c p)) as (v & Ev & Hv); [now apply zip_nth|exact Hne|]. exists v. split; [exact Ev|].
    destruct (sub_facts _ _ Ev) as (Cv & _). intros e j Hj. apply counted_get in Hj; [|exact Cv]. destruct (Hv e j Hj) as (B & j' & Hj' & Va). cbn [Nat.add] in *.
    exists (map (place inds k) e), j'. split; [|split].
    + unfold same_operator. pose proof (nd_part inds ND k) as Nk. clear - B Nk. induction e as [|x e IH]; [constructor|]. cbn [map]. constructor.
      * apply place_sits; auto. apply B. now left.
      * apply IH. intros z Hz. apply B. now right.
    + apply counted_get; [exact Dc|]. rewrite Ed. apply in_or_app. now left.
    + rewrite Ep, <- Va. apply app_nth1. pose proof (lo_counted _ _ _ _ _ _ _ LP) as (_ & S). apply (in_map snd) in Hj'. rewrite S in Hj'. apply in_seq in Hj'. rewrite (lo_params _ _ _ _ _ _ _ LP). cbn in Hj'. lia.
Qed.
(** the operators between subsystems come last, in the given order *)
Theorem C75_inter : exists start, (start + length inter = length (cc_params w))%nat /\
  forall m e, nth_error inter m = Some e -> get_ind (cc_exops w) e = Ok (start + m)%nat /\
    nth (start + m) (cc_params w) 0 = match inter_params with Some l => nth m l 0 | None => 0 end.
Proof.
  destruct emb_parts as (rf & d0 & ps0 & Erf & ND & _ & LP & Ed & Dc & Ep & Lp & _). exists (length d0). split.
  - rewrite Lp, Ed, app_length, combine_length, seq_length, Nat.min_id. reflexivity.
  - intros m e H. assert (Lm : (m < length inter)%nat) by (apply nth_error_Some; congruence). split.
    + apply counted_get; [exact Dc|]. rewrite Ed. apply in_or_app. right.
      assert (X : nth_error (combine inter (seq (length d0) (length inter))) m = Some (e, (length d0 + m)%nat)).
      { clear - H Lm. revert m H Lm. generalize (length d0) as s. induction inter as [|x t IH]; intros s m H Lm; [cbn in Lm; lia|]. destruct m; cbn in *.
        - injection H as ->. now rewrite Nat.add_0_r.
        - rewrite <- Nat.add_succ_comm. apply IH; auto. lia. }
      now apply nth_error_In in X.
    + rewrite Ep, <- (lo_params _ _ _ _ _ _ _ LP), app_nth2_plus. destruct inter_params as [l|]; [destruct inter; [cbn in Lm; lia|reflexivity]|]. apply nth_repeat.
Qed.
(** there are no other operators *)
Theorem C75_no_others : forall e', In e' (map fst (cc_exops w)) -> In e' inter \/
  exists k ne ns rk i r c (p : ccparams K) v e, nth_error nelecs k = Some ne /\ nth_error nspins k = Some ns /\ nth_error classes k = Some c /\
    nth_error (or_none (length nelecs) RanksNone ranks) k = Some rk /\ ne <> 0%Z /\ new_cc c ne ns rk i r p false 0 = Ok v /\
    In e (map fst (cc_exops v)) /\ same_operator (nth k inds []) e e'.
Proof.
  destruct emb_parts as (rf & d0 & ps0 & Erf & ND & _ & LP & Ed & Dc & Ep & Lp & _). intros e' He. rewrite Ed, map_app in He. apply in_app_iff in He as [He|He].
  - right. apply in_map_iff in He as ([x i'] & <- & He). cbn [fst]. apply (lo_from _ _ _ _ _ _ _ LP) in He as [[]|(k & u & v & e & Hu & Hn & Ev & Hin & Ee)]. cbn [Nat.add] in Ee.
    pose proof (zip_fields _ _ _ _ _ _ _ _ _ Hu) as (F1 & F2 & F3 & F4 & F5 & F6 & F7).
    exists k, (su_nelec u), (su_nspin u), (su_ranks u), (su_indices u), (su_ref u), (su_class u), (su_params u), v, e.
    split; [auto|]. split; [auto|]. split; [auto|]. split; [auto|]. split; [auto|]. split; [exact Ev|]. split; [auto|].
    destruct (lo_sub _ _ _ _ _ _ _ LP k u Hu Hn) as (v' & Ev' & Hv). rewrite Ev in Ev'. apply Ok_inj in Ev'. subst v'.
    apply in_map_iff in Hin as ([e0 j] & E0 & Hin). cbn [fst] in E0. subst e0. destruct (Hv e j Hin) as (B & _). cbn [Nat.add] in B.
    rewrite Ee. unfold same_operator. pose proof (nd_part inds ND k) as Nk. clear - B Nk. induction e as [|y e IH]; [constructor|]. cbn [map]. constructor.
    * apply place_sits; auto. apply B. now left.
    * apply IH. intros z Hz. apply B. now right.
  - left. apply in_map_iff in He as ([x i] & <- & He). now apply in_combine_l in He.
Qed.
(** with the ranks and no operators between subsystems left to the default, every operator takes part in overlaps *)
Lemma emb_good : ranks = None -> inter = [] -> forall e, In e (map fst (cc_exops w)) -> good_key (cc_ranks w) e.
Proof.
  intros Hr Hi e' He. destruct emb_parts as (rf & d0 & ps0 & Erf & ND & PZ & LP & Ed & Dc & Ep & Lp & _ & _ & (ra & R1 & R2) & _).
  rewrite Hi in Ed. cbn in Ed. rewrite app_nil_r in Ed. rewrite Ed in He. apply in_map_iff in He as ([x i'] & <- & He). cbn [fst].
  pose proof (lo_from _ _ _ _ _ _ _ LP _ _ He) as Fr. destruct Fr as [[]|(k & u & v & e & Hu & Hn & Ev & Hin & Ee)]. rewrite Ee. cbn [Nat.add].
  pose proof (zip_fields _ _ _ _ _ _ _ _ _ Hu) as (F1 & F2 & F3 & F4 & F5 & F6 & F7).
  destruct (lo_sub _ _ _ _ _ _ _ LP k u Hu Hn) as (v' & Ev' & Hv). rewrite Ev in Ev'. apply Ok_inj in Ev'. subst v'.
  destruct (sub_facts _ _ Ev) as (_ & _ & G & _). apply (place_good inds k (nd_part inds ND k) (cc_ranks v)).
  - now apply G.
  - apply in_map_iff in Hin as ([e0 j] & <- & Hin). now apply (Hv e0 j Hin).
  - intros z Hz. apply PZ. apply in_concat. exists (nth k inds []). split; [|exact Hz]. apply nth_In.
    destruct (Nat.lt_ge_cases k (length inds)); auto. rewrite nth_overflow in Hz by auto. contradiction.
  - apply G in Hin as (_ & _ & _ & X & _). set (r := Z.of_nat (length (annihilators e))) in *.
    assert (Y : (1 <= r <= su_nelec u)%Z).
    { unfold sub_cc in Ev. destruct (new_cc_built _ _ _ _ _ _ _ _ _ _ Ev) as (g & B). apply (built_ranks _ _ _ _ _ _ _ _ _ _ B) in X. lia. }
    rewrite Hr in R1. cbn [emb_ranks] in R1. destruct (max_of nelecs) as [m|] eqn:Em; [|discriminate]. cbn [bind] in R1. apply Ok_inj in R1. subst ra.
    assert (Z0 : (su_nelec u <= m)%Z).
    { clear - F2 Em. unfold max_of in Em. destruct nelecs as [|x t]; [discriminate|]. apply Ok_inj in Em. subst m.
      assert (Q : forall t a, (a <= fold_left Z.max t a)%Z /\ forall y, In y t -> (y <= fold_left Z.max t a)%Z).
      { induction t0 as [|y t0 IH]; intros a; cbn [fold_left]; [split; [lia|contradiction]|]. destruct (IH (Z.max a y)) as [I1 I2]. split; [lia|]. intros z [<-|Hz]; [lia|auto]. }
      destruct (Q t x) as [Q1 Q2]. apply nth_error_In in F2 as [<-|F2]; auto. }
    cbn [assign_ranks] in R2. destruct (m <=? 0)%Z; [discriminate|]. destruct (_ <? m)%Z; [discriminate|]. apply Ok_inj in R2. rewrite <- R2. apply in_map_iff.
    exists (Z.to_nat r). split; [lia|]. apply in_seq. lia.
Qed.
(** when all subsystems are described by StandardCC (or its subclass), no orbital is both emptied and filled *)
Lemma emb_separated : (forall c, In c classes -> c = CCStandard \/ c = CCSingles) -> inter = [] -> separated (map fst (cc_exops w)).
Proof.
  intros Hc Hi e1' e2' z He1 He2 Hz1 Hz2. destruct emb_parts as (rf & d0 & ps0 & Erf & ND & PZ & LP & Ed & _).
  rewrite Hi in Ed. cbn in Ed. rewrite app_nil_r in Ed. rewrite Ed in He1, He2.
  assert (Q : forall e', In e' (map fst d0) -> exists k u v e, nth_error (subs_of rf) k = Some u /\ sub_cc u = Ok v /\ In e (map fst (cc_exops v)) /\
    (forall y, In y e -> (0 <= y < Z.of_nat (length (nth k inds [])))%Z) /\ e' = map (place inds k) e).
  { intros e' He. apply in_map_iff in He as ([x i'] & <- & He). cbn [fst]. pose proof (lo_from _ _ _ _ _ _ _ LP _ _ He) as Fr.
    destruct Fr as [[]|(k & u & v & e & Hu & Hn & Ev & Hin & Ee)]. exists k, u, v, e. split; [exact Hu|]. split; [exact Ev|]. split; [exact Hin|]. split; [|exact Ee].
    destruct (lo_sub _ _ _ _ _ _ _ LP k u Hu Hn) as (v' & Ev' & Hv). rewrite Ev in Ev'. apply Ok_inj in Ev'. subst v'.
    apply in_map_iff in Hin as ([e0 j] & <- & Hin). now apply (Hv e0 j Hin). }
  destruct (Q _ He1) as (k1 & u1 & v1 & e1 & U1 & V1 & I1 & B1 & E1), (Q _ He2) as (k2 & u2 & v2 & e2 & U2 & V2 & I2 & B2 & E2). clear Q.
  rewrite E1, map_length, firstn_map in Hz1. rewrite E2, map_length, skipn_map in Hz2.
  apply in_map_iff in Hz1 as (j1 & P1 & J1). apply in_map_iff in Hz2 as (j2 & P2 & J2).
  assert (R1 := B1 j1 ltac:(rewrite <- (firstn_skipn (length e1 / 2) e1); apply in_or_app; now left)).
  assert (R2 := B2 j2 ltac:(rewrite <- (firstn_skipn (length e2 / 2) e2); apply in_or_app; now right)).
  pose proof (place_In inds k1 j1 R1) as N1. pose proof (place_In inds k2 j2 R2) as N2. rewrite P1 in N1. rewrite P2 in N2.
  assert (k1 = k2).
  { destruct (Nat.lt_trichotomy k1 k2) as [L|[L|L]]; auto; exfalso.
    - apply (before_not inds ND k2 z); auto. exists k1. auto.
    - apply (before_not inds ND k1 z); auto. exists k2. auto. }
  subst k2. rewrite U1 in U2. injection U2 as <-. rewrite V1 in V2. apply Ok_inj in V2. subst v2.
  assert (j1 = j2) by (apply (place_inj inds k1 (nd_part inds ND k1)); auto; congruence). subst j2.
  pose proof (zip_fields _ _ _ _ _ _ _ _ _ U1) as (_ & _ & _ & _ & _ & F6 & _). apply nth_error_In in F6.
  unfold sub_cc in V1. destruct (C46_standard _ _ _ _ _ _ _ _ _ _ V1 (Hc _ F6)) as (g & _ & H).
  apply H in I1 as (a1 & c1 & S1 & A1 & _), I2 as (a2 & c2 & S2 & _ & C2).
  destruct (shape_halves _ _ _ _ S1) as [X1 _], (shape_halves _ _ _ _ S2) as [_ X2]. unfold annihilators, creators in X1, X2.
  rewrite X1 in J1. rewrite X2 in J2. apply A1 in J1 as [_ J1]. apply C2 in J2 as [_ J2]. congruence.
Qed.
End P.
Print Assumptions C75_operators.
Print Assumptions C75_partition.
Print Assumptions C75_reference.
Print Assumptions C75_given_combinations_refuted.
Print Assumptions C75_subsystems.
Print Assumptions C75_inter.
Print Assumptions C75_no_others.

Section Der.
Context {K : CRing}.
Local Open Scope cr_scope.
Variables (nelecs nspins : list Z) (inds : list (list Z)) (classes : list ccclass) (ranks : option (list ranksarg))
  (ix : option (list (option (list (list Z))))) (inter : list (list Z)) (refs : list refarg) (ps : option (list (ccparams K)))
  (inter_params : option (list K)) (refresh : Z) (w : cc K).
Hypothesis New : new_emb nelecs nspins inds classes ranks ix inter refs ps inter_params false refresh = Ok w.
Hypothesis Lists : length inds = length nspins.
Lemma emb_ready : forall ref, cc_ref w = RSd ref -> ready w ref /\ (forall a c, table_ok w a c).
Proof.
  intros ref Ref. destruct (emb_parts _ _ _ _ _ _ _ _ _ _ _ _ _ New Lists) as (rf & d0 & ps0 & _ & _ & _ & _ & _ & (C1 & C2) & _ & Lp & Cl & Cm & (ra & _ & R2) & _).
  destruct (assign_ranks_ok _ _ _ R2) as (H1 & H2 & _). split.
  - constructor; auto.
    + rewrite Cl. discriminate.
    + intros r Hr. apply H1 in Hr. lia.
    + unfold keys_of. rewrite map_length, <- C2. clear. induction (cc_exops w) as [|[e i] d IH]; [reflexivity|]. cbn [map combine fst snd]. now f_equal.
    + unfold keys_of. now rewrite map_length.
  - intros a c. exists []. split; [exact Cm|]. intros m H. discriminate.
Qed.
(** the overlap is affine in each amplitude and the derivative is its slope *)
Theorem C75_derivative : forall ref sd, cc_ref w = RSd ref -> (total_occ (Some ref) <= total_occ (Some sd))%nat ->
  exists v D, cc_overlap w sd = Ok v /\ length D = length (cc_params w) /\
  (forall i x, (i < length (cc_params w))%nat -> cc_overlap (set_amp w i x) sd = Ok (v + (x - nth i (cc_params w) 0) * nth i D 0)) /\
  (forall ds is, Forall2 (selects (length (cc_params w))) ds is -> cc_overlap_deriv w sd ds = Ok (map (fun i => nth i D 0) is)) /\
  (forall k, (forall i, ~ selects (length (cc_params w)) k i) -> cc_overlap_deriv w sd [k] = Err IndexError).
Proof. intros ref sd Ref El. destruct (emb_ready ref Ref) as [R T]. now apply (ready_derivative w ref sd). Qed.
(** second derivatives are the slopes of the first ones *)
Theorem C75_hessian : forall ref sd, cc_ref w = RSd ref -> (total_occ (Some ref) <= total_occ (Some sd))%nat ->
  exists H, cc_overlap_hessian w sd = Ok H /\
  length H = length (cc_params w) /\ (forall row, In row H -> length row = length (cc_params w)) /\
  (forall i, (i < length (cc_params w))%nat -> nth i (nth i H []) 0 = 0) /\
  (forall i j, (i < length (cc_params w))%nat -> (j < length (cc_params w))%nat -> nth i (nth j H []) 0 = nth j (nth i H []) 0) /\
  (forall i j x, (i < length (cc_params w))%nat -> (j < length (cc_params w))%nat -> exists D0 D1,
     cc_overlap_deriv w sd [Z.of_nat i] = Ok [D0] /\ cc_overlap_deriv (set_amp w j x) sd [Z.of_nat i] = Ok [D1] /\
     D1 = D0 + (x - nth j (cc_params w) 0) * nth j (nth i H []) 0).
Proof. intros ref sd Ref El. destruct (emb_ready ref Ref) as [R T]. now apply (ready_hessian w ref sd). Qed.
End Der.
Print Assumptions C75_derivative.
Print Assumptions C75_hessian.

Section Exp.
Context {F : CField}.
Local Open Scope cr_scope.
Variables (nelecs nspins : list Z) (inds : list (list Z)) (classes : list ccclass) (ranks : option (list ranksarg))
  (ix : option (list (option (list (list Z))))) (inter : list (list Z)) (refs : list refarg) (ps : option (list (ccparams F)))
  (inter_params : option (list F)) (refresh : Z) (w : cc F).
Hypothesis CZ : GemSpec.char_zero F.
Hypothesis New : new_emb nelecs nspins inds classes ranks ix inter refs ps inter_params false refresh = Ok w.
Hypothesis Lists : length inds = length nspins.
(** the overlap is the coefficient of the determinant in exp(T)|ref>, T the sum of all operators with their amplitudes *)
Theorem C75_overlap : forall ref, cc_ref w = RSd ref -> separated (map fst (cc_exops w)) -> (forall e, In e (map fst (cc_exops w)) -> exists ann cre, exop_shape (cc_ranks w) e ann cre /\ forall z, In z e -> (0 <= z)%Z) ->
  forall sd n, (total_occ (Some ref) <= total_occ (Some sd))%nat -> (total_occ (Some ref) <= n)%nat ->
  cc_overlap w sd = Ok (exp_coeff n (map (fun ei => (nth (snd ei) (cc_params w) 0, excitation (fst ei))) (cc_exops w)) ref sd).
Proof.
  intros ref Ref Sep Sh sd n Hs Hn. destruct (emb_ready _ _ _ _ _ _ _ _ _ _ _ _ New Lists ref Ref) as [R T]. apply (ready_overlap CZ w ref sd n R); auto.
  - now apply anns_length.
  - intros e He. destruct (Sh e He) as (ann & cre & S & P). destruct (shape_halves _ _ _ _ S) as [Ea Ec]. destruct S as (_ & L & Rk & S1 & S2). unfold good_key. rewrite Ea, Ec. auto.
  - etransitivity; [apply anns_bound|exact Hn].
Qed.
Theorem C75_overlap_default : ranks = None -> inter = [] -> forall ref, cc_ref w = RSd ref -> separated (map fst (cc_exops w)) ->
  forall sd n, (total_occ (Some ref) <= total_occ (Some sd))%nat -> (total_occ (Some ref) <= n)%nat ->
  cc_overlap w sd = Ok (exp_coeff n (map (fun ei => (nth (snd ei) (cc_params w) 0, excitation (fst ei))) (cc_exops w)) ref sd).
Proof.
  intros Hr Hi ref Ref Sep sd n Hs Hn. destruct (emb_ready _ _ _ _ _ _ _ _ _ _ _ _ New Lists ref Ref) as [R T]. apply (ready_overlap CZ w ref sd n R); auto.
  - now apply anns_length.
  - intros e He. exact (emb_good _ _ _ _ _ _ _ _ _ _ _ _ _ New Lists Hr Hi e He).
  - etransitivity; [apply anns_bound|exact Hn].
Qed.
Theorem C75_standard : (forall c, In c classes -> c = CCStandard \/ c = CCSingles) -> ranks = None -> inter = [] -> forall ref, cc_ref w = RSd ref ->
  forall sd n, (total_occ (Some ref) <= total_occ (Some sd))%nat -> (total_occ (Some ref) <= n)%nat ->
  cc_overlap w sd = Ok (exp_coeff n (map (fun ei => (nth (snd ei) (cc_params w) 0, excitation (fst ei))) (cc_exops w)) ref sd).
Proof. intros Hc Hr Hi ref Ref. apply C75_overlap_default; auto. exact (emb_separated _ _ _ _ _ _ _ _ _ _ _ _ _ New Lists Hc Hi). Qed.
End Exp.
Print Assumptions C75_standard.
Print Assumptions C75_overlap.
Print Assumptions C75_overlap_default.

(** ** Findings *)
Open Scope Z_scope.
(** the reference is the ground determinant of the whole, not the product of those of the subsystems: here the product (orbitals 0, 2, 4, 6)
    has overlap zero and so has each of its excitations tried, and no operator acts on the reference *)
Theorem C75_product_reference_refuted :
  let w := ex_emb [[0; 1; 4; 5]; [2; 3; 6; 7]] None 5 5 [] None in
  ex_emb_values w [51; 85; 86; 101; 102; 204; 170]%N = Ok [1; 0; 0; 0; 0; 0; 0] /\ ground 2 4 = Ok 5%N.
Proof. vm_compute. split; reflexivity. Qed.
(** ranks_list starting with None: ranks above two are dropped, also from a single subsystem *)
Theorem C75_ranks_refuted : ex_emb_values (ex_emb1 None) [11; 52; 7]%N = ex_emb_values ex_cc1 [11; 52; 7]%N /\
  ex_emb_values (ex_emb1 (Some [RanksNone])) [52]%N = Ok [-50] /\ ex_emb_values ex_cc1 [52]%N = Ok [-69].
Proof. vm_compute. repeat split; reflexivity. Qed.
(** an operator between subsystems whose indices are not increasing is accepted and has no effect *)
Theorem C75_inter_order_refuted : forall x, In x [0; 1; 1000] ->
  ex_emb_values (ex_emb [[0; 2; 4; 6]; [1; 3; 5; 7]] (Some [RanksInt 2; RanksInt 1]) 5 4 [[0; 5; 7; 2]] (Some [x])) [150]%N = Ok [-14] /\
  ex_emb_values (ex_emb [[0; 2; 4; 6]; [1; 3; 5; 7]] (Some [RanksInt 2; RanksInt 1]) 5 4 [[0; 5; 2; 7]] (Some [x])) [150]%N = Ok [x - 14].
Proof. intros x [<-|[<-|[<-|[]]]]; vm_compute; split; reflexivity. Qed.
(** more lists of orbitals than subsystems are accepted: the subsystems may share orbitals and amplitudes are lost *)
Theorem C75_lists_refuted :
  match ex_emb [[0; 1; 2; 3]; [0; 1; 2; 3]; [4; 5; 6; 7]] None 5 5 [] None with
  | Ok w => length (cc_exops w) = 5%nat /\ length (cc_params w) = 10%nat
  | Err _ => False
  end.
Proof. vm_compute. split; reflexivity. Qed.
Print Assumptions C75_product_reference_refuted.
Print Assumptions C75_ranks_refuted.
Print Assumptions C75_inter_order_refuted.
Print Assumptions C75_lists_refuted.

(** ** Examples *)
Example ex_emb_operators :
  match ex_emb [[0; 2; 4; 6]; [1; 3; 5; 7]] (Some [RanksInt 2; RanksInt 1]) 5 4 [[0; 3]; [0; 5; 2; 7]] (Some [100; 1000]) with
  | Ok w => cc_exops w = combine [[0; 2]; [0; 6]; [4; 2]; [4; 6]; [0; 4; 2; 6]; [1; 3]; [1; 7]; [5; 3]; [5; 7]; [0; 3]; [0; 5; 2; 7]] (seq 0 11) /\
     cc_params w = [1; 2; 3; 4; 5; 11; 12; 13; 14; 100; 1000] /\ cc_ref w = RSd 51 /\ cc_ranks w = [1; 2]
  | Err _ => False
  end.
Proof. vm_compute. repeat split; reflexivity. Qed.
Example ex_emb_olps : ex_emb_values (ex_emb [[0; 2; 4; 6]; [1; 3; 5; 7]] None 5 5 [] None) [51; 204; 102; 54; 85]%N = Ok [1; 119; -7; -1; 0].
Proof. vm_compute. reflexivity. Qed.
Example ex_emb_refusals :
  ex_emb_values (ex_emb [[0; 2; 4; 6]; [1; 3; 5; 6]] None 5 5 [] None) [51]%N = Err (Exc 1) /\
  ex_emb_values (ex_emb [[0; 2; 4; 6]; [1; 3; 5; 7]] None 5 5 [[0; 2]] None) [51]%N = Err (Exc 1) /\
  ex_emb_values (ex_emb [[0; 2; 4; 6]; [1; 3; 5; 7]] None 5 5 [[0; 3]] (Some [1; 2])) [51]%N = Err (Exc 1) /\
  ex_emb_values (ex_emb [[0; 2; 4; 6]; [1; 3; 5; 7]] (Some []) 5 5 [] None) [51]%N = Err IndexError.
Proof. vm_compute. repeat split; reflexivity. Qed.

(** ** Ranks of the whole: the union of the lists, or up to the largest number (of electrons if nothing is given) *)
Theorem C75_ranks : forall {K : CRing} nelecs nspins inds classes ranks ix inter refs (ps : option (list (ccparams K))) ip given refresh w,
  new_emb nelecs nspins inds classes ranks ix inter refs ps ip given refresh = Ok w ->
  (forall ls, ranks = Some (map RanksList ls) -> StronglySorted Z.lt (cc_ranks w) /\
     forall r, In r (cc_ranks w) <-> exists l, In l ls /\ In r l) /\
  (forall rs, ranks = Some (map RanksInt rs) \/ (ranks = None /\ rs = nelecs) -> StronglySorted Z.lt (cc_ranks w) /\
     forall r, In r (cc_ranks w) <-> (1 <= r)%Z /\ exists m, In m rs /\ (r <= m)%Z).
Proof.
  intros K nelecs nspins inds classes ranks ix inter refs ps ip given refresh w H.
  assert (R : exists ne ra, emb_ranks nelecs ranks = Ok ra /\ assign_ranks ne ra = Ok (cc_ranks w)).
  { unfold new_emb in H. destruct (assign_nelec _ _) as [ne|]; [|discriminate]. cbn [bind] in H. destruct (assign_nspin _) as [ns|]; [|discriminate]. cbn [bind] in H.
    destruct (negb _); [discriminate|]. destruct (emb_ranks nelecs ranks) as [ra|]; [|discriminate]. cbn [bind] in H. exists ne, ra. split; [reflexivity|].
    destruct (assign_ranks ne ra) as [rk|]; [|discriminate]. cbn [bind] in H. f_equal.
    repeat match type of H with bind ?X _ = _ => destruct X; [cbn [bind] in H|discriminate] end. apply Ok_inj in H. now rewrite <- H. }
  clear H. destruct R as (ne & ra & R & A).
  assert (M : forall t x, (In (fold_left Z.max t x) (x :: t)) /\ forall y, In y (x :: t) -> (y <= fold_left Z.max t x)%Z).
  { clear. induction t as [|z t IH]; intros x; cbn [fold_left]; [split; [now left|intros y [<-|[]]; lia]|]. destruct (IH (Z.max x z)) as [I U]. split.
    - destruct I as [I|I]; [|right; now right]. rewrite <- I. destruct (Z.max_spec x z) as [[_ E]|[_ E]]; rewrite E; cbn; auto.
    - intros y [<-|[<-|Hy]]; [etransitivity; [|apply U; now left]; lia|etransitivity; [|apply U; now left]; lia|apply U; now right]. }
  assert (Q : forall rs m, max_of rs = Ok m -> assign_ranks ne (RanksInt m) = Ok (cc_ranks w) -> StronglySorted Z.lt (cc_ranks w) /\
     forall r, In r (cc_ranks w) <-> (1 <= r)%Z /\ exists m, In m rs /\ (r <= m)%Z).
  { intros rs m Hm Ha. destruct rs as [|x t]; [discriminate|]. apply Ok_inj in Hm. destruct (M t x) as [I U]. rewrite Hm in I, U. unfold assign_ranks in Ha.
    destruct (Z.leb_spec m 0); [discriminate|]. destruct (ne <? m)%Z; [discriminate|]. apply Ok_inj in Ha. rewrite <- Ha. split.
    - clear. generalize 1%nat. induction (Z.to_nat m) as [|k IH]; intros s; cbn [seq map]; constructor; auto. apply Forall_forall. intros z Hz.
      apply in_map_iff in Hz as (y & <- & Hy). apply in_seq in Hy. lia.
    - intros r. rewrite in_map_iff. split.
      + intros (k & <- & Hk). apply in_seq in Hk. split; [lia|]. exists m. split; [exact I|lia].
      + intros (L & m' & Hm' & L'). apply U in Hm'. exists (Z.to_nat r). split; [lia|]. apply in_seq. lia. }
  split.
  - intros ls ->. assert (Un : forall l, union_of (map RanksList l) = Ok (concat l)) by (induction l as [|a l IH]; cbn [map union_of concat]; [reflexivity|now rewrite IH]).
    destruct ls as [|l0 ls]; [discriminate|]. cbn [map emb_ranks] in R. destruct l0 as [|x l0]; [discriminate|].
    change (RanksList (x :: l0) :: map RanksList ls) with (map RanksList ((x :: l0) :: ls)) in R. rewrite Un in R. cbn [bind] in R. apply Ok_inj in R. subst ra.
    cbn [assign_ranks] in A. destruct (negb _); [discriminate|]. destruct (sorted_set _) as [|y t] eqn:E; [discriminate|]. destruct (ne <? _)%Z; [discriminate|].
    apply Ok_inj in A. rewrite <- A, <- E. split; [apply sorted_set_sorted|]. intros r. rewrite !sorted_set_In, in_concat. reflexivity.
  - intros rs [->|[-> ->]].
    + assert (Un : forall l, ints_of (map RanksInt l) = Ok l) by (induction l as [|a l IH]; cbn [map ints_of]; [reflexivity|now rewrite IH]).
      destruct rs as [|x rs]; [discriminate|]. cbn [map emb_ranks] in R. change (RanksInt x :: map RanksInt rs) with (map RanksInt (x :: rs)) in R. rewrite Un in R. cbn [bind] in R.
      destruct (max_of (x :: rs)) as [m|] eqn:Em; [|discriminate]. apply Ok_inj in R. subst ra. now apply (Q _ m).
    + cbn [emb_ranks] in R. destruct (max_of nelecs) as [m|] eqn:Em; [|discriminate]. apply Ok_inj in R. subst ra. now apply (Q _ m).
Qed.
Print Assumptions C75_ranks.
Example C75_ranks_ex :
  (match ex_emb [[0; 2; 4; 6]; [1; 3; 5; 7]] (Some [RanksList [2]; RanksList [1]]) 1 4 [] None with Ok w => cc_ranks w = [1; 2] | Err _ => False end) /\
  (match ex_emb [[0; 2; 4; 6]; [1; 3; 5; 7]] (Some [RanksInt 1; RanksInt 2]) 4 5 [] None with Ok w => cc_ranks w = [1; 2] | Err _ => False end).
Proof. vm_compute. split; reflexivity. Qed.
