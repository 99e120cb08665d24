From Coq Require Import Ring_theory List ZArith NArith Bool Lia Arith.
From Verif Require Import Py BitSpec BitLemmas Slater SlaterBits SlaterBits2 Alg Combos BulkLemmas SdSpec SdLemmas HamFac.
Import ListNotations.

Section L.
Context {K : CRing} {I : Type}.
Add Ring K_ring146 : (rth K).
Local Open Scope cr_scope.

Lemma v_plus_map : forall {A} (f g : A -> K) l, v_plus (map f l) (map g l) = Ok (map (fun j => f j + g j) l).
Proof.
  intros A f g l. unfold v_plus. rewrite !map_length, Nat.eqb_refl. f_equal.
  induction l as [|x l IH]; cbn [map combine fst snd]; congruence.
Qed.
Lemma map_ext_eq : forall {A B} (f g : A -> B) l, (forall x, f x = g x) -> Ok (map f l) = Ok (map g l).
Proof. intros. f_equal. now apply map_ext. Qed.

Variables (h : facham K I) (ov : N -> res (list K)) (sd : N) (n : nat).
Variables (Q : Type) (js : list Q) (f : Q -> N -> K) (e : N -> K).
Hypothesis Hn : fa_nspin h = Z.of_nat n.
Hypothesis Hsd : fits sd n.
Hypothesis Hov : forall m, fits m n -> ov m = Ok (map (fun j => f j m) js).
Hypothesis He : forall m, fits m n -> fac_ss h sd m = Ok (e m).
Notation occs := (occ_indices (Some sd)).
Notation virs := (vir_indices (Some sd) (fa_nspin h)).

Lemma fo_nd : NoDup occs. Proof. apply increasing_NoDup, occ_indices_increasing. Qed.
Lemma fo_in : forall i, In i occs <-> bit sd i = true. Proof. intros. apply occ_indices_In. Qed.
Lemma fv_nd : NoDup virs.
Proof. rewrite Hn, vir_indices_filter. apply NoDup_filter, seq_NoDup. Qed.
Lemma fv_in : forall i, In i virs <-> (i < n)%nat /\ bit sd i = false.
Proof.
  intros. rewrite Hn, vir_indices_filter, filter_In, in_seq, negb_true_iff. split; intros [? ?]; split; auto; lia.
Qed.

Lemma fpairs : forall k a c, In (a, c) (list_prod (combinations occs k) (combinations virs k)) ->
  excite (Some sd) (a ++ c) = Ok (Some (moved sd a c)) /\ fits (moved sd a c) n.
Proof.
  intros k a c H. split.
  - apply in_prod_iff in H as [H1 H2]. apply combinations_In in H1 as [S1 L1]. apply combinations_In in H2 as [S2 L2].
    apply moved_excite; [congruence| | | |].
    + eapply subseq_NoDup; eauto. apply fo_nd.
    + eapply subseq_NoDup; eauto. apply fv_nd.
    + intros i Hi. apply fo_in. apply (subseq_incl _ _ S1). exact Hi.
    + intros i Hi. assert (X : In i virs) by (apply (subseq_incl _ _ S2); exact Hi). now apply fv_in in X.
  - apply (proj2 (moved_exact sd n k occs virs Hsd fo_nd fv_nd fo_in fv_in) (moved sd a c)).
    apply in_map_iff. exists (a, c). split; auto.
Qed.

Lemma fac_loop_value : forall L F,
  (forall a c, In (a, c) L -> excite (Some sd) (a ++ c) = Ok (Some (moved sd a c)) /\ fits (moved sd a c) n) ->
  fac_loop h ov sd L (map F js) =
  Ok (map (fun j => F j + sumf (fun m => f j m * e m) (map (fun p => moved sd (fst p) (snd p)) L)) js).
Proof.
  induction L as [|[a c] L IH]; intros F H; cbn [fac_loop].
  - apply map_ext_eq. intros. cbn. ring.
  - destruct (H a c (or_introl eq_refl)) as [E1 E2]. rewrite E1. cbn [bind]. rewrite Hov by auto. cbn [bind].
    rewrite He by auto. cbn [bind]. unfold v_scale. rewrite map_map, v_plus_map. cbn [bind].
    rewrite IH by (intros; apply H; now right). apply map_ext_eq. intros j. cbn [map fst snd sumf fold_right]. fold (sumf (fun m => f j m * e m) (map (fun p => moved sd (fst p) (snd p)) L)). ring.
Qed.

Lemma fac_orders_value : forall orders F, (forall k, In k orders -> (0 <= k)%Z) ->
  fac_orders h ov sd orders (map F js) =
  Ok (map (fun j => F j + sumf (fun m => f j m * e m) (candidates sd occs virs orders)) js).
Proof.
  induction orders as [|k t IH]; intros F H; cbn [fac_orders].
  - apply map_ext_eq. intros. cbn. ring.
  - destruct (Z.ltb_spec k 0) as [X|_]; [pose proof (H k (or_introl eq_refl)); lia|].
    rewrite fac_loop_value by (intros a c Hp; exact (fpairs _ a c Hp)). cbn [bind].
    rewrite IH by (intros; apply H; now right). apply map_ext_eq. intros j.
    unfold candidates. cbn [flat_map]. rewrite sumf_app. ring.
Qed.

Lemma fac_value : fa_wfn h = None -> (forall k, In k (fa_orders h) -> (0 <= k)%Z) ->
  fac_integrate h ov sd =
  Ok (map (fun j => sumf (fun m => f j m * e m) (sd :: candidates sd occs virs (fa_orders h))) js).
Proof.
  intros Hw Ho. unfold fac_integrate. rewrite Hw, Hov by auto. cbn [bind]. rewrite He by auto. cbn [bind].
  unfold v_scale. rewrite map_map, fac_orders_value by auto. apply map_ext_eq. intros. reflexivity.
Qed.

Lemma fac_cand_In : forall orders m, (forall k, In k orders -> (0 <= k)%Z) ->
  In m (candidates sd occs virs orders) <-> exists k, In (Z.of_nat k) orders /\ fits m n /\ excitation sd m k.
Proof.
  intros orders m Hk. unfold candidates. rewrite in_flat_map. split.
  - intros (k & H & Hm). exists (Z.to_nat k). rewrite Z2Nat.id by auto. split; auto.
    now apply (moved_exact sd n (Z.to_nat k) occs virs Hsd fo_nd fv_nd fo_in fv_in) in Hm.
  - intros (k & H & Hm). exists (Z.of_nat k). split; auto. rewrite Nat2Z.id.
    now apply (moved_exact sd n k occs virs Hsd fo_nd fv_nd fo_in fv_in).
Qed.
Lemma fac_cand_NoDup : forall orders, (forall k, In k orders -> (0 <= k)%Z) -> NoDup orders ->
  NoDup (candidates sd occs virs orders).
Proof.
  intros orders Hk N. unfold candidates. apply NoDup_flat_map; auto.
  - intros k _. now apply (moved_exact sd n (Z.to_nat k) occs virs Hsd fo_nd fv_nd fo_in fv_in).
  - intros k k' m I1 I2 H1 H2.
    apply (moved_exact sd n (Z.to_nat k) occs virs Hsd fo_nd fv_nd fo_in fv_in) in H1.
    apply (moved_exact sd n (Z.to_nat k') occs virs Hsd fo_nd fv_nd fo_in fv_in) in H2.
    destruct H1 as [_ H1]. destruct H2 as [_ H2].
    pose proof (excitation_unique _ _ _ _ H1 H2). pose proof (Hk k I1). pose proof (Hk k' I2). lia.
Qed.
Lemma fac_sd_notin : forall orders, (forall k, In k orders -> (0 < k)%Z) -> ~ In sd (candidates sd occs virs orders).
Proof.
  intros orders Hk H. apply fac_cand_In in H as (k & Hi & _ & X); [|intros k Hi; pose proof (Hk k Hi); lia].
  assert (k = 0)%nat by (eapply excitation_unique; [exact X|now apply excitation_0]). subst. apply Hk in Hi. lia.
Qed.
End L.
