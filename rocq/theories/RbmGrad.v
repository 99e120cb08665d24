(** Lemmas for C69: the gradient is that of the overlap as a function of each parameter. *)
From Coq Require Import List ZArith NArith Arith Bool Lia Permutation.
From Verif Require Import Py BitSpec BitLemmas Slater SlaterBits Alg CILemmas JacobiSpec WfnCI EqnSpec EqnLemmas Rbm RbmSpec RbmLemmas RbmMain.
From Verif Require BicliqueLemmas SlaterBits2.
Import ListNotations.
Local Open Scope nat_scope.

Lemma upd_lengths : forall {A} (L : list (list A)) l q x, map (@length A) (upd L l (upd (nth l L []) q x)) = map (@length A) L.
Proof. induction L as [|b L IH]; intros l q x; [destruct l; reflexivity|]. destruct l; cbn [upd nth map]; [now rewrite upd_length|]. now rewrite IH. Qed.
Lemma upd_split : forall {A} (L : list A) l b, nth_error L l = Some b -> exists X Y, L = X ++ b :: Y /\ length X = l /\ forall b', upd L l b' = X ++ b' :: Y.
Proof.
  intros A L l b H. apply nth_error_split in H as (X & Y & -> & E). exists X, Y. repeat split; auto. intros b'. subst. apply BicliqueLemmas.upd_app.
Qed.
Lemma skipn_upd_lt : forall {A} (L : list A) m l b, l < m -> skipn m (upd L l b) = skipn m L.
Proof. induction L as [|x L IH]; intros m l b H; [destruct l; reflexivity|]. destruct m; [lia|]. destruct l; cbn; [reflexivity|]. apply IH. lia. Qed.
Lemma skipn_upd_ge : forall {A} (L : list A) m l b, m <= l -> skipn m (upd L l b) = upd (skipn m L) (l - m) b.
Proof. induction L as [|x L IH]; intros m l b H; [destruct l, m; reflexivity|]. destruct m; [now rewrite Nat.sub_0_r|]. destruct l; [lia|]. cbn. apply IH. lia. Qed.
Lemma combine_upd_ge : forall {A C} (o : list A) (L : list C) l b, length o <= l -> combine o (upd L l b) = combine o L.
Proof. induction o as [|x o IH]; intros L l b H; [reflexivity|]. cbn in H. destruct L as [|y L]; [now destruct l|]. destruct l; [lia|]. cbn. f_equal. apply IH. lia. Qed.
Lemma combine_upd_lt : forall {A C} (o : list A) (L : list C) l b x y, nth_error o l = Some x -> nth_error L l = Some y -> exists X Y, combine o L = X ++ (x, y) :: Y /\ length X = l /\ combine o (upd L l b) = X ++ (x, b) :: Y.
Proof.
  induction o as [|x' o IH]; intros L l b x y H1 H2; [destruct l; discriminate|]. destruct L as [|y' L]; [destruct l; discriminate|]. destruct l; cbn in H1, H2.
  - inversion H1; inversion H2; subst. exists [], (combine o L). repeat split.
  - destruct (IH L l b x y H1 H2) as (X & Y & E1 & E2 & E3). exists ((x', y') :: X), Y. cbn. rewrite E1, E3. repeat split. now rewrite E2.
Qed.

Lemma map_repeat : forall {A B} (f : A -> B) x n, map f (repeat x n) = repeat (f x) n.
Proof. induction n as [|n IH]; [reflexivity|]. cbn. now rewrite IH. Qed.

Section G.
Context {K : CField}.
Local Open Scope cr_scope.
Add Ring K_ring118 : (rth K).
Variable ex : K -> K.
Variable Der : (K -> K) -> K -> K -> Prop.
Hypothesis C : calculus Der.
Hypothesis Dex : forall f x g, Der f x g -> Der (fun y => ex (f y)) x (ex (f x) * g).

Lemma store_assign : forall (w : rbm K) ps, map (@length K) ps = rb_sizes w -> rb_assign_params w (RArray (concat ps)) = Ok (rb_store w ps).
Proof. intros w ps H. cbn. rewrite <- H. rewrite <- (app_nil_r (concat ps)), cut_concat. reflexivity. Qed.
Lemma store_shaped : forall (w : rbm K) ps, shaped w -> map (@length K) ps = rb_sizes w -> shaped (rb_store w ps).
Proof. intros w ps (S1 & S2 & S3) H. split; [exact H|split; [exact S2|exact S3]]. Qed.

Definition grads_of (w : rbm K) sd s : list (list K) :=
  map (fun g => rb_collect (rb_nbath w) g (fun y _ => rb_other_vals (rb_nbath w) s (deep_out ex (rb_nbath w) (deeper w) (v0 ex w sd (zipped w))) y))
    (all_grads ex (rb_nbath w) s (fents w sd (zipped w)) (deep_entries ex (rb_nbath w) (deeper w) (v0 ex w sd (zipped w)))).
Lemma dolp_concat : forall w sd s, shaped w -> sd <> 0%N -> within (rb_n w) sd -> rb_scale w = Some s -> (0 < rb_nbath w)%nat -> rb_dolp ex w sd = Ok (concat (grads_of w sd s)).
Proof. intros. rewrite (dolp_ok ex w sd s) by auto. f_equal. unfold grads_of. apply flat_map_concat_map. Qed.
Lemma collect_length : forall B (g : grad3 K) c, length (rb_collect B g c) = (B * fst g)%nat.
Proof. intros B g c. unfold rb_collect. rewrite (rows_length (fun z t => sumf (fun y => c y z * snd g y z t) (seq 0 B)) (seq 0 (fst g)) B). now rewrite seq_length. Qed.
Lemma collect_nth : forall B (g : grad3 K) c z t d, (z < B)%nat -> (t < fst g)%nat -> nth (z * fst g + t) (rb_collect B g c) d = sumf (fun y => c y z * snd g y z t) (seq 0 B).
Proof. intros B g c z t d Hz Ht. apply (nth_rows (fun z t => sumf (fun y => c y z * snd g y z t) (seq 0 B)) (fst g) B z t d Hz Ht). Qed.
Lemma deep_widths : forall B s Ws v, map fst (snd (back ex B s (deep_entries ex B Ws v))) = repeat B (length Ws).
Proof. intros B s. induction Ws as [|W Ws IH]; intros v; [reflexivity|]. cbn [deep_entries back snd map length repeat]. rewrite IH. reflexivity. Qed.
Lemma grads_lengths : forall w sd s, shaped w -> map (@length K) (grads_of w sd s) = rb_sizes w.
Proof.
  intros w sd s H. unfold grads_of, all_grads. rewrite map_map, map_app. unfold rb_sizes. f_equal.
  - unfold fents, pairs_of. rewrite !map_map. erewrite map_ext by (intros ol; rewrite collect_length; cbn; reflexivity).
    unfold zipped. rewrite combine_firstn_r. assert (L : length (firstn (length (rb_orders w)) (rb_params w)) = length (rb_orders w)) by (rewrite firstn_length, (shaped_length w H); lia).
    generalize (rb_orders w) (firstn (length (rb_orders w)) (rb_params w)) L. clear. induction l as [|o l IH]; intros [|y r] L; cbn in L; try discriminate; [reflexivity|]. cbn. f_equal. apply IH. lia.
  - transitivity (map (fun x => (rb_nbath w * x)%nat) (map fst (snd (back ex (rb_nbath w) s (deep_entries ex (rb_nbath w) (deeper w) (v0 ex w sd (zipped w))))))); [rewrite map_map; apply map_ext; intros g; apply collect_length|]. rewrite deep_widths, map_repeat. f_equal. unfold deeper. rewrite skipn_length, (shaped_length w H). lia.
Qed.

Lemma tang_single : forall B s Ws v z (d : K) dv y, (y < B)%nat -> (z < B)%nat -> (forall j, (j < B)%nat -> dv j = if Nat.eqb j z then d else 0) ->
  tang ex B Ws v dv y = fst (back ex B s (deep_entries ex B Ws v)) y z * d.
Proof.
  intros B s Ws v z d dv y Hy Hz H. rewrite <- (back_tang ex B s) by auto. rewrite (sumf_single _ (seq 0 B) z); [now rewrite H, Nat.eqb_refl by auto|apply seq_NoDup|apply in_seq; lia|].
  intros x Hx N. apply in_seq in Hx. rewrite H by lia. destruct (Nat.eqb_spec x z); [congruence|]. ring.
Qed.

Lemma deriv_layer : forall w sd s l q lay, shaped w -> sd <> 0%N -> within (rb_n w) sd -> rb_scale w = Some s -> (0 < rb_nbath w)%nat -> nth_error (rb_params w) l = Some lay -> (q < length lay)%nat ->
  Der (fun x => okv (rb_overlap ex (rb_store w (upd (rb_params w) l (upd lay q x))) sd)) (nth q lay 0) (nth q (nth l (grads_of w sd s) []) 0).
Proof.
  intros w sd s l q lay H Hs Hw Hsc HB Hl Hq.
  assert (El : nth l (rb_params w) [] = lay) by (apply nth_error_nth; exact Hl).
  assert (Hn : (0 < rb_n w)%nat). { destruct (Nat.eq_dec (rb_n w) 0) as [E|]; [|lia]. exfalso. apply Hs. apply occ_empty. destruct (occ_indices (Some sd)) as [|i r] eqn:E'; [reflexivity|]. assert (I : In i (occ_indices (Some sd))) by (rewrite E'; now left). apply occ_indices_In, Hw in I. lia. }
  assert (Sx : forall x, shaped (rb_store w (upd (rb_params w) l (upd lay q x)))) by (intros x; apply store_shaped; auto; rewrite <- El, upd_lengths; apply H).
  apply (cal_ext Der C (fun x => prodf (fun j => deep_out ex (rb_nbath w) (deeper (rb_store w (upd (rb_params w) l (upd lay q x)))) (v0 ex w sd (zipped (rb_store w (upd (rb_params w) l (upd lay q x))))) j * s) (seq 0 (rb_nbath w)))).
  { intros x. rewrite (overlap_ok ex _ sd s) by (auto; apply Hsc). reflexivity. }
  unfold deeper, zipped. cbn [rb_orders rb_params rb_store].
  set (B := rb_nbath w) in *. set (m := length (rb_orders w)).
  assert (Lp : length (rb_params w) = (m + (rb_layers w - 1))%nat) by (apply shaped_length; auto).
  assert (Ll : (l < length (rb_params w))%nat) by (apply nth_error_Some; congruence).
  assert (Us : upd (rb_params w) l lay = rb_params w) by (rewrite <- El; now apply BicliqueLemmas.upd_same).
  set (O := deep_out ex B (deeper w) (v0 ex w sd (zipped w))).
  destruct (Nat.lt_ge_cases l m) as [Lt|Ge].
  - (* first layer *)
    destruct (nth_error (rb_orders w) l) as [o|] eqn:Eo; [|apply nth_error_None in Eo; unfold m in Lt; lia].
    assert (Lw : length lay = (B * rb_n w ^ o)%nat). { assert (X : nth_error (map (@length K) (rb_params w)) l = Some (length lay)) by (now apply map_nth_error). rewrite (proj1 H) in X. unfold rb_sizes in X. rewrite nth_error_app1 in X by (rewrite map_length; exact Lt). rewrite (map_nth_error _ _ _ Eo) in X. injection X as X. symmetry. exact X. }
    set (wd := (rb_n w ^ o)%nat) in *. assert (Hwd : (0 < wd)%nat) by (unfold wd; pose proof (Nat.pow_nonzero (rb_n w) o); lia).
    assert (Eq : q = ((q / wd) * wd + q mod wd)%nat) by (pose proof (Nat.div_mod q wd); lia). set (z := (q / wd)%nat) in *. set (t := (q mod wd)%nat) in *.
    assert (Ht : (t < wd)%nat) by (apply Nat.mod_upper_bound; lia). assert (Hz : (z < B)%nat) by (apply Nat.div_lt_upper_bound; nia).
    destruct (combine_upd_lt (rb_orders w) (rb_params w) l lay o lay Eo Hl) as (X & Y & E1 & E2 & _).
    assert (Ex : forall x, combine (rb_orders w) (upd (rb_params w) l (upd lay q x)) = X ++ (o, upd lay q x) :: Y).
    { intros x. destruct (combine_upd_lt (rb_orders w) (rb_params w) l (upd lay q x) o lay Eo Hl) as (X' & Y' & E1' & E2' & E3'). rewrite E3'. rewrite E1 in E1'. assert (X = X' /\ Y = Y') as [-> ->]; [|reflexivity].
      assert (F : X = X') by (rewrite <- (firstn_all2 (n := l) X) by lia; rewrite <- (firstn_all2 (n := l) X') by lia; replace (firstn l X) with (firstn l (X ++ (o, lay) :: Y)) by (rewrite firstn_app, E2, Nat.sub_diag; cbn; apply app_nil_r); rewrite E1', firstn_app, E2', Nat.sub_diag; cbn; apply app_nil_r).
      subst X'. apply app_inv_head in E1'. inversion E1'. auto. }
    assert (Dl : DV Der B (fun x => v0 ex w sd (combine (rb_orders w) (upd (rb_params w) l (upd lay q x)))) (nth q lay 0) (fun j => if Nat.eqb j z then activation_deriv ex (flin w sd (zipped w) z) * xin w sd o t else 0)).
    { intros j Hj. eapply der_eq.
      - apply (der_act ex Der C Dex (fun x => flin w sd (combine (rb_orders w) (upd (rb_params w) l (upd lay q x))) j) (nth q lay 0) (if Nat.eqb j z then xin w sd o t else 0)).
        apply (cal_ext Der C (fun x => (sumf (fun ol => rb_contract (snd ol) (rb_n w ^ fst ol) (xin w sd (fst ol)) j) X + sumf (fun ol => rb_contract (snd ol) (rb_n w ^ fst ol) (xin w sd (fst ol)) j) Y) + rb_contract (upd lay q x) wd (xin w sd o) j)).
        { intros x. rewrite flin_sum, Ex, sumf_app, sumf_cons. cbn [fst snd]. fold wd. ring. }
        eapply der_eq; [apply (cal_add Der C); [apply (cal_const Der C)|]|].
        + rewrite Eq. apply (contract_der Der C); auto. rewrite <- Eq. exact Hq.
        + ring.
      - cbn beta. rewrite BicliqueLemmas.upd_same by exact Hq. rewrite Us. fold (zipped w). destruct (Nat.eqb_spec j z) as [->|]; [reflexivity|ring]. }
    assert (Ed : forall x, skipn m (upd (rb_params w) l (upd lay q x)) = deeper w) by (intros x; unfold m, deeper; apply skipn_upd_lt; exact Lt).
    eapply der_eq.
    + apply (cal_ext Der C (fun x => prodf (fun j => deep_out ex B (deeper w) (v0 ex w sd (combine (rb_orders w) (upd (rb_params w) l (upd lay q x)))) j * s) (seq 0 B))); [intros x; rewrite Ed; reflexivity|].
      apply (der_product Der C B (fun x => deep_out ex B (deeper w) (v0 ex w sd (combine (rb_orders w) (upd (rb_params w) l (upd lay q x)))))). apply (tang_der ex Der C Dex). exact Dl.
    + cbn beta. rewrite BicliqueLemmas.upd_same by exact Hq. rewrite ?Us. fold (zipped w). fold O.
      unfold grads_of. fold B O. set (gs := all_grads ex B s _ _).
      assert (Gl : nth_error gs l = Some (grad_of ex s (fst (back ex B s (deep_entries ex B (deeper w) (v0 ex w sd (zipped w))))) ((wd, xin w sd o), flin w sd (zipped w), lay))).
      { unfold gs, all_grads. rewrite nth_error_app1 by (rewrite map_length, fents_length, zipped_length by auto; exact Lt). apply map_nth_error. unfold fents, pairs_of. rewrite map_map. unfold zipped. rewrite E1, map_app, nth_error_app2 by (rewrite map_length; lia). rewrite map_length, E2, Nat.sub_diag. cbn [map nth_error fst snd]. rewrite <- E1. reflexivity. }
      rewrite (nth_error_nth _ _ _ (map_nth_error _ _ _ Gl)). rewrite Eq at 1. change wd with (fst (grad_of ex s (fst (back ex B s (deep_entries ex B (deeper w) (v0 ex w sd (zipped w))))) ((wd, xin w sd o), flin w sd (zipped w), lay))) at 1. rewrite collect_nth by auto.
      apply sumf_ext. intros y Hy. apply in_seq in Hy. f_equal. rewrite (tang_single B s _ _ z (activation_deriv ex (flin w sd (zipped w) z) * xin w sd o t)) by (auto; lia). cbn [grad_of snd fst]. unfold dz. ring.
  - (* further layers *)
    assert (Lw : length lay = (B * B)%nat). { assert (X : nth_error (map (@length K) (rb_params w)) l = Some (length lay)) by (now apply map_nth_error). rewrite (proj1 H) in X. unfold rb_sizes in X. rewrite nth_error_app2 in X by (rewrite map_length; exact Ge). apply nth_error_In, repeat_spec in X. exact X. }
    assert (Eq : q = ((q / B) * B + q mod B)%nat) by (pose proof (Nat.div_mod q B); lia). set (z := (q / B)%nat) in *. set (t := (q mod B)%nat) in *.
    assert (Ht : (t < B)%nat) by (apply Nat.mod_upper_bound; lia). assert (Hz : (z < B)%nat) by (apply Nat.div_lt_upper_bound; nia).
    assert (Ed : nth_error (deeper w) (l - m) = Some lay). { unfold deeper. fold m. rewrite <- Hl. rewrite <- (firstn_skipn m (rb_params w)) at 2. rewrite nth_error_app2 by (rewrite firstn_length; lia). rewrite firstn_length. f_equal. lia. }
    destruct (upd_split _ _ _ Ed) as (X & Y & E1 & E2 & E3).
    assert (Ex : forall x, skipn m (upd (rb_params w) l (upd lay q x)) = X ++ upd lay q x :: Y) by (intros x; rewrite skipn_upd_ge by auto; apply E3).
    set (v := v0 ex w sd (zipped w)) in *. set (a := deep_out ex B X v).
    assert (Dl : DV Der B (fun x j => activation ex (rb_contract (upd lay q x) B a j)) (nth q lay 0) (fun j => if Nat.eqb j z then activation_deriv ex (rb_contract lay B a z) * a t else 0)).
    { intros j Hj. eapply der_eq.
      - apply (der_act ex Der C Dex (fun x => rb_contract (upd lay q x) B a j) (nth q lay 0) (if Nat.eqb j z then a t else 0)). rewrite Eq. apply (contract_der Der C); auto. rewrite <- Eq. exact Hq.
      - cbn beta. rewrite BicliqueLemmas.upd_same by exact Hq. destruct (Nat.eqb_spec j z) as [->|]; [reflexivity|ring]. }
    assert (Ev : O = deep_out ex B Y (fun j => activation ex (rb_contract lay B a j))) by (unfold O; fold v; rewrite E1, deep_out_app; reflexivity).
    eapply der_eq.
    + apply (cal_ext Der C (fun x => prodf (fun j => deep_out ex B Y (fun j => activation ex (rb_contract (upd lay q x) B a j)) j * s) (seq 0 B))).
      { intros x. rewrite Ex, combine_upd_ge by exact Ge. fold (zipped w). fold v. rewrite deep_out_app. reflexivity. }
      apply (der_product Der C B (fun x => deep_out ex B Y (fun j => activation ex (rb_contract (upd lay q x) B a j)))). apply (tang_der ex Der C Dex B Y (fun x j => activation ex (rb_contract (upd lay q x) B a j))). exact Dl.
    + cbn beta. rewrite BicliqueLemmas.upd_same by exact Hq. rewrite <- Ev.
      unfold grads_of. fold B v. fold O. set (gs := all_grads ex B s _ _). set (u := fun j => activation ex (rb_contract lay B a j)) in *.
      assert (Gl : nth_error gs l = Some (grad_of ex s (fst (back ex B s (deep_entries ex B Y u))) ((B, a), rb_contract lay B a, lay))).
      { unfold gs, all_grads. rewrite nth_error_app2 by (rewrite map_length, fents_length, zipped_length by auto; exact Ge). rewrite map_length, fents_length, zipped_length by auto. fold m. rewrite E1, deep_entries_app. cbn [deep_entries]. fold a u.
        destruct (back_middle ex B s (deep_entries ex B X v) ((B, a), rb_contract lay B a, lay) (deep_entries ex B Y u)) as (g1 & g2 & L & Eb). rewrite deep_entries_length, E2 in L. etransitivity; [apply (f_equal (fun l0 => nth_error l0 (l - m)) Eb)|]. rewrite nth_error_app2 by lia. rewrite L, Nat.sub_diag. reflexivity. }
      rewrite (nth_error_nth _ _ _ (map_nth_error _ _ _ Gl)). rewrite Eq at 1.
      symmetry. etransitivity; [apply (collect_nth B (grad_of ex s (fst (back ex B s (deep_entries ex B Y u))) ((B, a), rb_contract lay B a, lay)) (fun y _ => rb_other_vals B s O y) z t 0 Hz Ht)|]. symmetry.
      apply sumf_ext. intros y Hy. apply in_seq in Hy. f_equal. rewrite (tang_single B s _ _ z (activation_deriv ex (rb_contract lay B a z) * a t)) by (auto; lia). cbn [grad_of snd fst]. unfold dz. ring.
Qed.
Lemma deriv_ok : forall w sd s k, shaped w -> sd <> 0%N -> within (rb_n w) sd -> rb_scale w = Some s -> (0 < rb_nbath w)%nat -> (k < length (rb_flat w))%nat ->
  Der (fun x => okv (do u <- rb_assign_params w (RArray (upd (rb_flat w) k x)); rb_overlap ex u sd)) (nth k (rb_flat w) 0) (nth k (concat (grads_of w sd s)) 0).
Proof.
  intros w sd s k H Hs Hw Hsc HB Hk. unfold rb_flat in *. destruct (concat_pos _ _ Hk) as (l & q & lay & El & Hq & Ek).
  assert (Ll : (l < length (rb_params w))%nat) by (apply nth_error_Some; congruence). assert (En : nth l (rb_params w) [] = lay) by (now apply nth_error_nth). subst lay.
  assert (Gl : map (@length K) (grads_of w sd s) = map (@length K) (rb_params w)) by (rewrite grads_lengths by auto; symmetry; apply H).
  assert (Lg : length (grads_of w sd s) = length (rb_params w)) by (rewrite <- (map_length (@length K) (grads_of w sd s)), Gl, map_length; reflexivity).
  assert (Nq : length (nth l (grads_of w sd s) []) = length (nth l (rb_params w) [])) by (rewrite <- !(map_nth (@length K)); now rewrite Gl).
  rewrite Ek. rewrite concat_nth by auto. rewrite <- (same_lengths_offset _ _ l Gl), concat_nth by (rewrite ?Lg, ?Nq; auto). rewrite (same_lengths_offset _ _ l Gl).
  apply (cal_ext Der C (fun x => okv (rb_overlap ex (rb_store w (upd (rb_params w) l (upd (nth l (rb_params w) []) q x))) sd))); [|now apply deriv_layer].
  intros x. rewrite concat_upd by auto. rewrite store_assign by (rewrite upd_lengths; apply H). reflexivity.
Qed.
End G.
