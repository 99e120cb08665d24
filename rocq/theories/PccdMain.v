(** Overlaps of pair coupled-cluster wavefunctions as sums over the rows that are kept *)
From Coq Require Import List ZArith NArith Arith Bool Lia Permutation Sorted.
From Verif Require Import Py BitSpec BitLemmas Slater SlaterBits SlaterBits2 SignSpec SignLemmas Graphs GraphSpec MatchSpec MathTools PermLemmas SdLemmas Combos
  GeneralLemmas BicliqueLemmas P_Slater1 P_Slater2 Fock FockLemmas FockInner Alg WfnCI CILemmas CC CCRows CCRows2 CCGen CCSpec CCFock CCExp CCLemmas CCMain CCDeriv
  CCEx CCCacheSpec P_CCCache Pccd PccdSpec PccdRows.
Import ListNotations.
Local Open Scope nat_scope.

Definition closed (ns : Z) (ref : N) : Prop := forall z, In z (zoccs ref) -> (0 <= z < 2 * ns)%Z /\ In (partner ns z) (zoccs ref).

Lemma filterM_ok : forall {A} (f : A -> res bool) k l, (forall x, In x l -> f x = Ok (k x)) -> filterM f l = Ok (filter k l).
Proof.
  induction l as [|x l IH]; intros H; [reflexivity|]. cbn [filterM filter]. rewrite (H x) by now left. cbn [bind]. rewrite IH by (intros; apply H; now right). reflexivity.
Qed.
Definition kept (k : list nat * Z -> bool) (m : multi) : multi := map (fun p => (fst p, filter k (snd p))) m.
Lemma kept_rows : forall k m, all_rows (kept k m) = filter k (all_rows m).
Proof. intros k m. unfold all_rows, kept. induction m as [|p m IH]; [reflexivity|]. cbn [map flat_map fst snd]. now rewrite filter_app, IH. Qed.
Lemma filter_idem : forall {A} (k : A -> bool) l, filter k (filter k l) = filter k l.
Proof. induction l as [|x l IH]; [reflexivity|]. cbn [filter]. destruct (k x) eqn:E; auto. cbn [filter]. now rewrite E, IH. Qed.
Lemma kept_idem : forall k m, kept k (kept k m) = kept k m.
Proof. intros k m. unfold kept. rewrite map_map. apply map_ext. intros p. cbn [fst snd]. now rewrite filter_idem. Qed.
Lemma keep_rows_ok : forall ns ops occs k m, (forall row, In row (all_rows m) -> keep_row ns ops occs [] (fst row) = Ok (k row)) ->
  keep_rows ns ops occs m = Ok (kept k m).
Proof.
  intros ns ops occs k m. unfold keep_rows, kept, all_rows. induction m as [|p m IH]; intros H; [reflexivity|]. cbn [mapM map flat_map] in *.
  rewrite (filterM_ok _ k) by (intros row Hr; apply H; apply in_app_iff; auto). cbn [bind]. rewrite IH by (intros row Hr; apply H; apply in_app_iff; auto). reflexivity.
Qed.

Section Pair.
Context {K : CRing}.
Local Open Scope cr_scope.
Add Ring K_ring77 : (rth K).

Record pready (p : pcc K) (ref : N) : Prop := mkpready {
  pr_ready : ready (p_cc p) ref; pr_ops : p_ops p = keys_of (p_cc p); pr_closed : closed (cc_nspin (p_cc p) / 2) ref }.

Section One.
Variables (p : pcc K) (ref sd : N).
Hypothesis R : pready p ref.
Let w := p_cc p.
Let ns := (cc_nspin w / 2)%Z.
Let a := anns sd ref.
Let c := cres sd ref.
Hypothesis Lac : (length a <= length c)%nat.
Let d := cc_exops w.
Lemma Rw : ready w ref.
Proof. exact (pr_ready _ _ R). Qed.

(** the rows of the determinant: all, and those that are kept *)
Definition good_row (r : row) : Prop := row_of (cc_ranks w) a c r /\ row_ok d r = true /\ StronglySorted le (map (fun q => length (fst q)) r).
Definition okc (r : row) : bool := compatible ns (map cat r).
Lemma row_ann : forall r, row_of (cc_ranks w) a c r -> Permutation (flat_map annihilators (map cat r)) a /\
  (forall e, In e (map cat r) -> annihilators e <> [] /\ (length (annihilators e) + length (annihilators e) = length e)%nat).
Proof.
  intros r (Fr & P & _). rewrite Forall_forall in Fr. split.
  - rewrite <- P. rewrite flat_map_map, flat_map_concat_map. erewrite map_ext_in; [reflexivity|]. intros q Hq. apply (cat_halves q). now apply Fr.
  - intros e He. apply in_map_iff in He as (q & <- & Hq). apply Fr in Hq as (_ & _ & L & Hr). destruct (cat_halves q L) as (-> & _ & _). split.
    + intros X. rewrite X in Hr. apply (r_pos _ _ Rw) in Hr. cbn in Hr. lia.
    + unfold cat. rewrite app_length. lia.
Qed.
Lemma row_ops : forall r, row_ok d r = true -> map (nth_error (p_ops p)) (fst (info d a c r)) = map Some (map cat r).
Proof.
  intros r H. unfold info. cbn [fst]. rewrite map_map. apply map_ext_in. intros e He. unfold row_ok in H. rewrite forallb_forall in H. specialize (H e He).
  unfold known in H. unfold ind_of. destruct (dict_get d e) as [i|] eqn:E; [|discriminate]. apply (r_dict w ref Rw) in E. rewrite (pr_ops _ _ R). fold w.
  rewrite (r_exops _ _ Rw) in E. apply combine_seq_In in E as [_ E]. now rewrite Nat.sub_0_r in E.
Qed.
Lemma anns_In : forall z, In z a <-> In z (zoccs ref) /\ ~ In z (zoccs sd).
Proof.
  intros z. unfold a, anns. rewrite in_map_iff, !zoccs_In. split.
  - intros (i & <- & H). apply diff_orbs_In2 in H as [H1 H2]. split; [eauto|]. intros (j & E & H). apply Nat2Z.inj in E. subst j. congruence.
  - intros [(i & -> & H1) H2]. exists i. split; auto. apply diff_orbs_In2. split; auto. destruct (bit sd i) eqn:E; auto. exfalso. apply H2. eauto.
Qed.
Lemma row_keep : forall r, good_row r ->
  keep_row ns (p_ops p) (zoccs sd) [] (fst (info d a c r)) = Ok (okc r) /\ keep_row ns (p_ops p) (zoccs ref) [] (fst (info d a c r)) = Ok (okc r).
Proof.
  intros r (Hr & Hk & Hs). destruct (row_ann r Hr) as [P Q].
  assert (N : NoDup (flat_map annihilators (map cat r))) by (eapply Permutation_NoDup; [symmetry; exact P|apply SS_NoDup, anns_SS]).
  assert (A : forall e, In e (map cat r) -> length e = 2%nat -> In (nth 0 e 0%Z) a).
  { intros e He L. destruct (single_ann e L) as (z & v & -> & Ea & En). rewrite En. eapply Permutation_in; [exact P|]. apply in_flat_map. exists [z; v]. split; auto. rewrite Ea. now left. }
  assert (C : forall z, In z a -> (0 <= z < 2 * ns)%Z /\ In (partner ns z) (zoccs ref)) by (intros z Hz; apply anns_In in Hz as [Hz _]; now apply (pr_closed _ _ R)).
  rewrite !(keep_row_keep ns (p_ops p) _ (map cat r)) by now apply row_ops. split; f_equal.
  - apply keep_sd; auto. intros e He L. apply A in He; auto. apply C in He as [_ He]. rewrite (Permutation_in' eq_refl P). rewrite anns_In. split; [tauto|].
    intros X. destruct (in_dec Z.eq_dec (partner ns (nth 0 e 0%Z)) (zoccs sd)); auto. exfalso. apply X. auto.
  - apply keep_ref; auto.
    + intros e He. now apply Q.
    + intros e He. now apply Q.
    + intros z Hz. apply C. eapply Permutation_in; eauto.
    + rewrite map_map. rewrite (map_ext_in _ (fun q => (length (fst q) + length (fst q))%nat)).
      * clear - Hs. induction r as [|q r IH]; [constructor|]. cbn [map] in *. inversion Hs; subst. constructor; auto. rewrite Forall_forall in *. intros x Hx.
        apply in_map_iff in Hx as (q' & <- & Hq). specialize (H2 _ (in_map (fun q => length (fst q)) _ _ Hq)). cbn in H2. lia.
      * intros q Hq. unfold cat. rewrite app_length. destruct Hr as (Fr & _ & _). rewrite Forall_forall in Fr. apply Fr in Hq as (_ & _ & L & _). lia.
    + intros e He L. apply A in He; auto. now apply C in He.
Qed.

Definition stored (m m0 : multi) : Prop := m = m0 \/ keep_rows ns (p_ops p) (zoccs sd) m0 = Ok m.
Lemma kept_table : exists m0 parts k, gen_exops d (cc_ranks w) a c = Ok m0 /\ parts_ok (cc_ranks w) a parts /\
  let rr := filter (row_ok d) (flat_map (part_rows a c) (rev parts)) in
  (forall r, In r rr -> good_row r) /\
  Permutation (all_rows (kept k m0)) (map (info d a c) (filter okc rr)) /\
  (forall m, stored m m0 -> keep_rows ns (p_ops p) (zoccs sd) m = Ok (kept k m0) /\ keep_rows ns (p_ops p) (zoccs ref) m = Ok (kept k m0)).
Proof.
  destruct (gen_exops_rows d (cc_ranks w) a c (anns_SS _ _) (cres_SS _ _) (r_pos _ _ Rw) (r_nd _ _ Rw) Lac) as (m0 & parts & E & Hp & P).
  set (rr := filter (row_ok d) (flat_map (part_rows a c) (rev parts))) in *.
  assert (G : forall r, In r rr -> good_row r).
  { intros r Hr. apply filter_In in Hr as [H1 H2]. split; [|split]; auto.
    - apply (rows_sound (cc_ranks w) a c (anns_SS _ _) (cres_SS _ _) (r_pos _ _ Rw) Lac parts Hp r H1).
    - eapply (part_rows_sorted (cc_ranks w) a c); eauto using anns_SS, cres_SS. exact (r_pos _ _ Rw). }
  set (k := fun row : list nat * Z => match keep_row ns (p_ops p) (zoccs sd) [] (fst row) with Ok b => b | Err _ => false end).
  assert (Hk : forall r, In r rr -> k (info d a c r) = okc r) by (intros r Hr; unfold k; now rewrite (proj1 (row_keep r (G r Hr)))).
  assert (A : forall m, (forall row, In row (all_rows m) -> In row (all_rows m0)) ->
     keep_rows ns (p_ops p) (zoccs sd) m = Ok (kept k m) /\ keep_rows ns (p_ops p) (zoccs ref) m = Ok (kept k m)).
  { intros m H. split; apply keep_rows_ok; intros row Hr; apply H in Hr; apply (Permutation_in _ P) in Hr; apply in_map_iff in Hr as (r & <- & Hr); rewrite (Hk r Hr); now apply row_keep, G. }
  exists m0, parts, k. split; [auto|]. split; [auto|]. cbv zeta. fold rr. clearbody rr. split; [exact G|]. split.
  - rewrite kept_rows. etransitivity; [exact (CCRows.perm_filter k _ _ P)|]. clear - Hk. induction rr as [|r rr IH]; [apply perm_nil|]. cbn [map filter]. rewrite (Hk r) by now left.
    assert (X : Permutation (filter k (map (info d a c) rr)) (map (info d a c) (filter okc rr))) by (apply IH; intros; apply Hk; now right).
    destruct (okc r); [cbn [map]; now constructor|exact X].
  - intros m [->|H].
    + now apply A.
    + rewrite (proj1 (A m0 (fun _ X => X))) in H. apply Ok_inj in H. subst m. rewrite <- (kept_idem k m0) at 2 4. apply A. intros row. rewrite kept_rows. intros X. apply filter_In in X. tauto.
Qed.
End One.

(** every stored table is the table of its excitation, or what the filter keeps of it *)
Definition ptab (p : pcc K) (ref : N) : Prop := exists combs, cc_combs (p_cc p) = Some combs /\
  forall sd m, (length (anns sd ref) <= length (cres sd ref))%nat -> dict_get combs (anns sd ref ++ cres sd ref) = Some m ->
    exists m0, gen_exops (cc_exops (p_cc p)) (cc_ranks (p_cc p)) (anns sd ref) (cres sd ref) = Ok m0 /\ stored p sd m m0.
Lemma stored_key : forall (p : pcc K) ref sd sd' m m0, anns sd ref = anns sd' ref -> cres sd ref = cres sd' ref -> stored p sd m m0 -> stored p sd' m m0.
Proof.
  intros p ref sd sd' m m0 Ea Ec H. assert (E : sd = sd'); [|now subst].
  assert (I : forall z, In z (anns sd ref) <-> In z (anns sd' ref)) by (intros; now rewrite Ea).
  assert (J : forall z, In z (cres sd ref) <-> In z (cres sd' ref)) by (intros; now rewrite Ec).
  apply bit_ext. intros i. specialize (I (Z.of_nat i)). specialize (J (Z.of_nat i)). unfold anns, cres in *. rewrite !in_map_iff in *.
  assert (Q : forall s, (exists x, Z.of_nat x = Z.of_nat i /\ In x (snd (diff_orbs s ref))) <-> bit ref i = true /\ bit s i = false).
  { intros s. split; [intros (x & E & Hx); apply Nat2Z.inj in E; subst x; now apply diff_orbs_In2 in Hx|]. intros Hx. exists i. split; auto. now apply diff_orbs_In2. }
  assert (Q' : forall s, (exists x, Z.of_nat x = Z.of_nat i /\ In x (fst (diff_orbs s ref))) <-> bit s i = true /\ bit ref i = false).
  { intros s. split; [intros (x & E & Hx); apply Nat2Z.inj in E; subst x; now apply diff_orbs_In1 in Hx|]. intros Hx. exists i. split; auto. now apply diff_orbs_In1. }
  rewrite !Q in I. rewrite !Q' in J. destruct (bit ref i), (bit sd i), (bit sd' i); intuition congruence.
Qed.

Definition set_params (p : pcc K) (P : list K) : pcc K := with_cc p (with_params (p_cc p) P).
Lemma set_same : forall p : pcc K, set_params p (cc_params (p_cc p)) = p.
Proof. intros [c [] o]. reflexivity. Qed.
Lemma pair_table_eq : forall (p : pcc K) ref sd, pready p ref -> ptab p ref -> (length (anns sd ref) <= length (cres sd ref))%nat -> sd <> ref ->
  exists m parts b w', let d := cc_exops (p_cc p) in let rr := filter (row_ok d) (flat_map (part_rows (anns sd ref) (cres sd ref)) (rev parts)) in
  parts_ok (cc_ranks (p_cc p)) (anns sd ref) parts /\ (forall r, In r rr -> good_row p ref sd r) /\
  Permutation (all_rows m) (map (info d (anns sd ref) (cres sd ref)) (filter (okc p) rr)) /\
  sign_excite (Some ref) (snd (diff_orbs sd ref)) (fst (diff_orbs sd ref)) = Ok (sgn b) /\
  (exists c, w' = with_combs (p_cc p) c) /\ ptab (with_cc p w') ref /\
  (exists m0, gen_exops d (cc_ranks (p_cc p)) (anns sd ref) (cres sd ref) = Ok m0 /\ keep_rows (cc_nspin (p_cc p) / 2) (p_ops p) (zoccs sd) m0 = Ok m) /\
  (forall P A (x : A) f scale, pair_table (set_params p P) sd (fun sd _ => zoccs sd) x f scale = (do v <- f (with_params w' P) m; Ok (scale (sgnr (sgn b)) v, with_cc p (with_params w' P)))) /\
  (forall P A (x : A) f scale, pair_table (set_params p P) sd (fun _ ref => zoccs ref) x f scale = (do v <- f (with_params w' P) m; Ok (scale (sgnr (sgn b)) v, with_cc p (with_params w' P)))).
Proof.
  intros p ref sd R (combs & Ec & T) Lac Hsd. pose proof (pr_ready _ _ R) as Rr.
  destruct (kept_table p ref sd R Lac) as (m0 & parts & k & E & Hp & G & P & S).
  destruct (diff_state ref sd) as (b & Eb).
  assert (Sg : sign_excite (Some ref) (snd (diff_orbs sd ref)) (fst (diff_orbs sd ref)) = Ok (sgn b)) by (rewrite sign_excite_eq, Eb; reflexivity).
  set (key := anns sd ref ++ cres sd ref).
  assert (Q : exists m1 combs1, get_multi (p_cc p) (anns sd ref) (cres sd ref) = Ok (m1, with_combs (p_cc p) (Some combs1)) /\ stored p sd m1 m0 /\
     (forall sd' m, (length (anns sd' ref) <= length (cres sd' ref))%nat -> anns sd' ref ++ cres sd' ref <> key -> dict_get combs1 (anns sd' ref ++ cres sd' ref) = Some m ->
        exists m0, gen_exops (cc_exops (p_cc p)) (cc_ranks (p_cc p)) (anns sd' ref) (cres sd' ref) = Ok m0 /\ stored p sd' m m0)).
  { unfold get_multi. rewrite Ec. fold key. destruct (dict_get combs key) as [m1|] eqn:Ed.
    - exists m1, combs. split; [now rewrite <- Ec, with_combs_same|]. destruct (T sd m1 Lac Ed) as (m0' & E' & S'). rewrite E in E'. apply Ok_inj in E'. subst m0'. split; auto.
    - rewrite E. cbn [bind]. eexists. eexists. split; [reflexivity|]. split; [now left|]. intros sd' m L' N H. rewrite dict_get_set_neq in H by auto.
      destruct (_ && _)%bool; [discriminate H|]. now apply T. }
  destruct Q as (m1 & combs1 & Eg & Sm & T1). destruct (S m1 Sm) as [K1 K2].
  exists (kept k m0), parts, b, (with_combs (p_cc p) (Some (dict_set combs1 key (kept k m0)))). split; [auto|]. split; [auto|]. split; [auto|]. split; [auto|]. split; [eauto|]. split; [|split; [|split]].
  - exists (dict_set combs1 key (kept k m0)). split; [reflexivity|]. cbn [with_cc p_cc with_combs cc_exops cc_ranks]. intros sd' m L' H.
    destruct (list_eq_dec Z.eq_dec (anns sd' ref ++ cres sd' ref) key) as [X|X].
    + rewrite X, dict_get_set_eq in H. injection H as <-. unfold key in X. apply key_inj in X as [Xa Xc]. exists m0. rewrite Xa, Xc. split; [auto|].
      apply (stored_key _ ref sd sd'); auto. right. destruct (S m0) as [Y _]; [now left|]. exact Y.
    + rewrite dict_get_set_neq in H by auto. now apply T1.
  - exists m0. split; [exact E|]. apply S. now left.
  - intros P0 A x f scale. unfold pair_table. cbn [set_params with_cc p_cc p_ops with_params cc_ref cc_nspin]. rewrite (r_ref _ _ Rr). apply N.eqb_neq in Hsd. rewrite Hsd. unfold excitation_of. rewrite Sg. cbn [bind].
    pose proof (get_multi_params _ _ _ _ _ P0 Eg) as Eg'. unfold anns, cres in Eg'. rewrite Eg'. cbn [bind fst snd with_combs cc_combs with_params]. rewrite K1. reflexivity.
  - intros P0 A x f scale. unfold pair_table. cbn [set_params with_cc p_cc p_ops with_params cc_ref cc_nspin]. rewrite (r_ref _ _ Rr). apply N.eqb_neq in Hsd. rewrite Hsd. unfold excitation_of. rewrite Sg. cbn [bind].
    pose proof (get_multi_params _ _ _ _ _ P0 Eg) as Eg'. unfold anns, cres in Eg'. rewrite Eg'. cbn [bind fst snd with_combs cc_combs with_params]. rewrite K2. reflexivity.
Qed.

Lemma set_ready : forall (p : pcc K) ref P, pready p ref -> length P = length (cc_params (p_cc p)) -> pready (set_params p P) ref.
Proof. intros p ref P [R1 R2 R3] L. constructor; auto. cbn [set_params with_cc p_cc]. now apply ready_params. Qed.
Lemma set_tab : forall (p : pcc K) ref P, ptab p ref -> ptab (set_params p P) ref.
Proof. intros p ref P H. exact H. Qed.

(** the values for all parameters *)
Record pformulas (p : pcc K) (ref sd : N) (rr : list row) (s : K) : Prop := mkpformulas {
  pf_value : forall P, length P = length (cc_params (p_cc p)) ->
    pair_overlap (set_params p P) sd = Ok (s * sumf (rval (with_params (p_cc p) P) (anns sd ref) (cres sd ref)) rr);
  pf_slope : forall P, length P = length (cc_params (p_cc p)) -> exists w', pair_olp_deriv (set_params p P) sd =
     Ok (map (fun dd => s * sumf (rslope (p_cc p) ref sd P dd) rr) (seq 0%nat (length P)), w');
  pf_good : forall r, In r rr -> row_of (cc_ranks (p_cc p)) (anns sd ref) (cres sd ref) r /\ row_ok (cc_exops (p_cc p)) r = true }.
Lemma have_pformulas : forall (p : pcc K) ref sd, pready p ref -> ptab p ref -> (length (anns sd ref) <= length (cres sd ref))%nat -> sd <> ref ->
  exists parts b, parts_ok (cc_ranks (p_cc p)) (anns sd ref) parts /\
  sign_excite (Some ref) (snd (diff_orbs sd ref)) (fst (diff_orbs sd ref)) = Ok (sgn b) /\
  pformulas p ref sd (filter (okc p) (filter (row_ok (cc_exops (p_cc p))) (flat_map (part_rows (anns sd ref) (cres sd ref)) (rev parts)))) (sgnr (sgn b)).
Proof.
  intros p ref sd R T Lac Hsd. destruct (pair_table_eq p ref sd R T Lac Hsd) as (m & parts & b & w1 & Hp & G & Pm & Sg & (c1 & Ew) & _ & _ & E1 & E2).
  exists parts, b. split; [auto|]. split; [auto|]. set (rr := filter (okc p) _) in *. pose proof (pr_ready _ _ R) as Rr.
  assert (G' : rows_good (p_cc p) ref sd rr).
  { intros r Hr. apply filter_In in Hr as [Hr _]. apply G in Hr as (H1 & H2 & _). auto. }
  constructor.
  - intros P L. unfold pair_overlap, pair_olp. rewrite E1.
    rewrite (amplitudes_ok (with_params (p_cc p) P) ref sd (ready_params _ _ P Rr L) Lac (with_params w1 P) m rr); auto.
  - intros P L. eexists. unfold pair_olp_deriv. rewrite E2. unfold amplitudes_deriv.
    assert (IB : in_bounds (with_params w1 P) m = true).
    { unfold in_bounds. apply forallb_forall. intros x Hx. apply (Permutation_in _ Pm) in Hx. apply in_map_iff in Hx as (r & <- & Hr).
      apply forallb_forall. intros i Hi. apply Nat.ltb_lt. cbn [with_params cc_params]. rewrite L. destruct (G' r Hr) as [_ Hk]. apply (row_in_bounds (p_cc p) ref sd Rr r Hk i Hi). }
    rewrite IB. cbn [bind with_params cc_params]. rewrite map_map. do 2 f_equal. apply map_ext. intros dd. f_equal. rewrite (sumf_perm _ _ _ Pm), sumf_map. apply sumf_ext. intros r Hr.
    apply (slope_eq (p_cc p) ref sd); [reflexivity|now apply G'].
  - exact G'.
Qed.
End Pair.
