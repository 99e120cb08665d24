(** Derivatives of composite wavefunctions, and the methods for many determinants. *)
From Coq Require Import List ZArith NArith Arith Bool Lia.
From Verif Require Import Py Slater Alg WfnCI Composite CompSpec BicliqueLemmas.
Import ListNotations.

Lemma mapM_length : forall {A B} (f : A -> res B) l l', mapM f l = Ok l' -> length l' = length l.
Proof.
  induction l as [|x l IH]; intros l' H; cbn in H; [apply Ok_inj in H; subst; reflexivity|]. destruct (f x); [|discriminate]. cbn in H.
  destruct (mapM f l); [|discriminate]. cbn in H. apply Ok_inj in H. subst. cbn. f_equal. auto.
Qed.
Lemma mapM_nth : forall {A B} (f : A -> res B) l l' k x, mapM f l = Ok l' -> nth_error l k = Some x -> exists y, nth_error l' k = Some y /\ f x = Ok y.
Proof.
  induction l as [|y l IH]; intros l' k x H Hk; [destruct k; discriminate|]. cbn in H. destruct (f y) as [z|] eqn:E; [|discriminate]. cbn in H.
  destruct (mapM f l) as [t|]; [|discriminate]. cbn in H. apply Ok_inj in H. subst l'. destruct k as [|k]; cbn in Hk |- *; [injection Hk as <-; eauto|eapply IH; eauto].
Qed.
Lemma mapM_upd : forall {A B} (f : A -> res B) l l' k x y, mapM f l = Ok l' -> f x = Ok y -> mapM f (upd l k x) = Ok (upd l' k y).
Proof.
  induction l as [|z l IH]; intros l' k x y H Hx; cbn in H.
  - apply Ok_inj in H. subst. destruct k; reflexivity.
  - destruct (f z) as [v|] eqn:E; [|discriminate]. cbn in H. destruct (mapM f l) as [t|] eqn:E2; [|discriminate]. cbn in H. apply Ok_inj in H. subst l'.
    destruct k as [|k]; cbn; [rewrite Hx, E2; reflexivity|]. rewrite E. cbn. rewrite (IH t k x y eq_refl Hx). reflexivity.
Qed.
Lemma find_comp_at : forall {K : CRing} (l : list (comp K)) k c, NoDup (map c_id l) -> nth_error l k = Some c -> find_comp (c_id c) l = Some k.
Proof.
  intros K. induction l as [|a l IH]; intros k c N H; [destruct k; discriminate|]. cbn [find_comp]. cbn [map] in N. apply NoDup_cons_iff in N. destruct N as [N1 N2].
  destruct k as [|k]; cbn in H.
  - injection H as <-. rewrite Nat.eqb_refl. reflexivity.
  - destruct (Nat.eqb_spec (c_id a) (c_id c)) as [E|E]; [|rewrite (IH k c) by auto; reflexivity].
    exfalso. apply N1. rewrite E. apply in_map. eapply nth_error_In. exact H.
Qed.
Lemma find_comp_none : forall {K : CRing} (l : list (comp K)) i, ~ In i (map c_id l) -> find_comp i l = None.
Proof.
  intros K. induction l as [|a l IH]; intros i H; [reflexivity|]. cbn [find_comp]. cbn [map In] in H. destruct (Nat.eqb_spec (c_id a) i); [tauto|]. rewrite IH by tauto. reflexivity.
Qed.
Lemma repeated_NoDup : forall l, repeated l = false <-> NoDup l.
Proof.
  induction l as [|x l IH]; cbn [repeated]; [split; [constructor|reflexivity]|]. rewrite orb_false_iff, IH, NoDup_cons_iff. split; intros [A B]; split; auto.
  - intros H. assert (X : existsb (Nat.eqb x) l = true) by (apply existsb_exists; exists x; rewrite Nat.eqb_refl; auto). congruence.
  - destruct (existsb (Nat.eqb x) l) eqn:E; [|reflexivity]. apply existsb_exists in E. destruct E as (y & Hy & E). apply Nat.eqb_eq in E. subst. contradiction.
Qed.

Section Grad.
Context {K : CRing}.
Local Open Scope cr_scope.
Add Ring K_ring65 : (rth K).
Lemma bmul_same : forall a b : list K, length a = length b -> bmul a b = Ok (map (fun xy => fst xy * snd xy) (combine a b)).
Proof. intros a b E. unfold bmul. rewrite E, Nat.eqb_refl. reflexivity. Qed.
Lemma lc_overlap_value : forall (w : lincomb K) sd os, mapM (fun c => get_olp c sd) (lc_wfns w) = Ok os -> length (lc_params w) = length (lc_wfns w) ->
  lc_overlap w sd = Ok (weighted (lc_params w) os).
Proof.
  intros w sd os E Le. unfold lc_overlap. rewrite E. cbn [bind]. rewrite bmul_same by (apply mapM_length in E; congruence). cbn [bind]. f_equal.
  unfold weighted. rewrite sumf_map. reflexivity.
Qed.
Lemma weighted_upd : forall (ps os : list K) k y, (k < length ps)%nat -> (k < length os)%nat ->
  weighted ps (upd os k y) = weighted ps (upd os k 0) + nth k ps 0 * y.
Proof.
  unfold weighted. induction ps as [|p ps IH]; intros os k y Hp Ho; [cbn in Hp; lia|]. destruct os as [|o os]; [cbn in Ho; lia|].
  destruct k as [|k]; cbn [upd combine nth]; rewrite !sumf_cons; cbn [fst snd].
  - ring.
  - rewrite (IH os k y) by (cbn in Hp, Ho; lia). ring.
Qed.
Lemma weighted_upd_l : forall (ps os : list K) k y, (k < length ps)%nat -> (k < length os)%nat ->
  weighted (upd ps k y) os = weighted (upd ps k 0) os + nth k os 0 * y.
Proof.
  unfold weighted. induction ps as [|p ps IH]; intros os k y Hp Ho; [cbn in Hp; lia|]. destruct os as [|o os]; [cbn in Ho; lia|].
  destruct k as [|k]; cbn [upd combine nth]; rewrite !sumf_cons; cbn [fst snd].
  - ring.
  - rewrite (IH os k y) by (cbn in Hp, Ho; lia). ring.
Qed.
Lemma prodf_upd : forall (os : list K) k y, (k < length os)%nat ->
  prodf (fun x => x) (upd os k y) = (prodf (fun x => x) (firstn k os) * prodf (fun x => x) (skipn (S k) os)) * y.
Proof.
  induction os as [|o os IH]; intros k y H; [cbn in H; lia|]. destruct k as [|k].
  - cbn [upd firstn skipn]. rewrite prodf_cons. change (prodf (fun x : K => x) []) with (1 : K). ring.
  - cbn [upd firstn]. change (skipn (S (S k)) (o :: os)) with (skipn (S k) os). rewrite !prodf_cons, IH by (cbn in H; lia). ring.
Qed.

Section Der.
Variable Der : (K -> K) -> K -> K -> Prop.
Hypothesis HD : derivation Der.
Lemma gradient_scale : forall (ov ov' : nat -> K -> res K) at_ ps gs a b,
  gradient Der ov at_ ps gs -> (forall p x v, In p ps -> ov p x = Ok v -> ov' p x = Ok (a + b * v)) ->
  gradient Der ov' at_ ps (map (rmul b) gs).
Proof.
  intros ov ov' at_ ps gs a b G H. unfold gradient in *. induction G as [|p g ps gs (f & F1 & F2) G IH]; cbn [map]; constructor.
  - exists (fun x => a + b * f x). split; [intros x; apply H; [left; reflexivity|apply F1]|]. apply der_affine; auto.
  - apply IH. intros; apply H; auto. right; auto.
Qed.
End Der.

(** * products *)
Lemma pr_contrib_upd : forall (ws : list (comp K)) sds os k c sd y, pr_contrib ws sds = Ok os -> nth_error sds k = Some sd -> get_olp c sd = Ok y ->
  pr_contrib (upd ws k c) sds = Ok (upd os k y).
Proof.
  intros ws sds os k c sd y E Hs Hy. unfold pr_contrib in *.
  assert (Q : combine sds (upd ws k c) = upd (combine sds ws) k (sd, c)).
  { clear - Hs. revert ws k Hs. induction sds as [|s sds IH]; intros ws k H; [destruct k; discriminate|].
    destruct ws as [|a ws]; [destruct k; reflexivity|]. destruct k as [|k]; cbn in H |- *; [injection H as <-; reflexivity|]. f_equal. apply IH. exact H. }
  rewrite Q. apply (mapM_upd _ _ _ _ (sd, c) y E). exact Hy.
Qed.
Lemma combine_nth_error : forall {A B} (la : list A) (lb : list B) k a b, nth_error la k = Some a -> nth_error lb k = Some b -> nth_error (combine la lb) k = Some (a, b).
Proof.
  induction la as [|x la IH]; intros lb k a b Ha Hb; [destruct k; discriminate|]. destruct lb as [|y lb]; [destruct k; discriminate|].
  destruct k; cbn in *; [congruence|]. apply IH; auto.
Qed.

(** * many determinants at once *)
Definition val (c : comp K) (sd : N) : K := match get_olp c sd with Ok v => v | Err _ => 0 end.
Lemma get_olps_ok : forall (c : comp K) sds, batch_ok c -> get_olps c sds = mapM (get_olp c) sds.
Proof. intros c sds H. unfold get_olps, batch_ok in *. destruct (c_olps c) as [[f g]|]; [apply H|reflexivity]. Qed.
Lemma get_dolps_ok : forall (c : comp K) sds d, batch_ok c -> get_dolps c sds d = mapM (fun sd => get_dolp c sd d) sds.
Proof. intros c sds d H. unfold get_dolps, batch_ok in *. destruct (c_olps c) as [[f g]|]; [apply H|reflexivity]. Qed.
Lemma mapM_Ok_all : forall {A B} (f : A -> res B) l r, mapM f l = Ok r -> forall x, In x l -> exists y, f x = Ok y.
Proof.
  induction l as [|a l IH]; intros r H x Hx; [destruct Hx|]. cbn in H. destruct (f a) as [v|] eqn:E; [|discriminate]. cbn in H.
  destruct (mapM f l) as [t|]; [|discriminate]. destruct Hx as [<-|Hx]; [eauto|eapply IH; eauto].
Qed.
Lemma mapM_vals : forall {A B} (f : A -> res B) (d : A -> B) l, (forall x y, In x l -> f x = Ok y -> d x = y) -> (forall x, In x l -> exists y, f x = Ok y) -> mapM f l = Ok (map d l).
Proof.
  induction l as [|a l IH]; intros H1 H2; [reflexivity|]. cbn. destruct (H2 a (or_introl eq_refl)) as (y & E). rewrite E. cbn.
  rewrite IH by (intros; (apply H1 || apply H2); auto; right; auto). cbn. rewrite (H1 a y (or_introl eq_refl) E). reflexivity.
Qed.
Lemma val_ok : forall (c : comp K) sd y, get_olp c sd = Ok y -> val c sd = y.
Proof. intros c sd y E. unfold val. rewrite E. reflexivity. Qed.
(** every component has an overlap with its part of every determinant *)
Definition all_ok (ws : list (comp K)) (rows : list (list N)) : Prop :=
  forall row s c, In row rows -> nth_error ws s = Some c -> exists y, get_olp c (nth s row 0%N) = Ok y.
Definition vals (ws : list (comp K)) (row : list N) : list K := map (fun sc => val (snd sc) (nth (fst sc) row 0%N)) (enumerate ws).
Lemma combine_enum : forall (ws : list (comp K)) (row : list N), length row = length ws ->
  combine row ws = map (fun sc => (nth (fst sc) row 0%N, snd sc)) (enumerate ws).
Proof.
  intros ws row. unfold enumerate. revert ws. induction row as [|x row IH]; intros [|c ws] E; try discriminate; [reflexivity|].
  cbn [length seq combine map fst snd nth]. f_equal. rewrite IH by (cbn in E; lia).
  clear. generalize (length ws) as n. intros n.
  assert (G : forall a m, combine (seq (S a) m) ws = map (fun sc => (S (fst sc), snd sc)) (combine (seq a m) ws)).
  { induction ws as [|c' ws IHw]; intros a m; [destruct m; reflexivity|]. destruct m; [reflexivity|]. cbn [seq combine map fst snd]. f_equal. apply IHw. }
  rewrite G, map_map. cbn [fst snd]. reflexivity.
Qed.
Lemma enum_nth : forall {A} (l : list A) sc, In sc (enumerate l) -> nth_error l (fst sc) = Some (snd sc).
Proof.
  intros A l [s c] H. cbn. unfold enumerate in H.
  assert (G : forall a, In (s, c) (combine (seq a (length l)) l) -> exists j, s = (a + j)%nat /\ nth_error l j = Some c).
  { clear. induction l as [|y l IH]; intros a H; [destruct H|]. cbn [length seq combine] in H. destruct H as [E|H]; [injection E as <- <-; exists 0%nat; split; [lia|reflexivity]|].
    apply IH in H. destruct H as (j & -> & H). exists (S j). split; [lia|exact H]. }
  apply G in H. destruct H as (j & -> & H). exact H.
Qed.
Lemma contrib_vals : forall (ws : list (comp K)) rows row, all_ok ws rows -> In row rows -> length row = length ws -> pr_contrib ws row = Ok (vals ws row).
Proof.
  intros ws rows row H Hr Le. unfold pr_contrib, vals. rewrite combine_enum by auto. rewrite <- (map_map (fun sc => (nth (fst sc) row 0%N, snd sc)) (fun sw => val (snd sw) (fst sw))).
  apply mapM_vals.
  - intros [sd c] y Hi E. cbn [fst snd] in *. apply val_ok. exact E.
  - intros [sd c] Hi. apply in_map_iff in Hi. destruct Hi as ([s c'] & E & Hi). injection E as <- <-. apply enum_nth in Hi. cbn [fst snd] in *. eapply H; eauto.
Qed.
Lemma contrib_all_ok : forall (ws : list (comp K)) rows, (forall row, In row rows -> length row = length ws) -> (forall row, In row rows -> exists v, pr_contrib ws row = Ok v) -> all_ok ws rows.
Proof.
  intros ws rows Le H row s c Hr Hs. destruct (H row Hr) as (v & E). unfold pr_contrib in E. 
  assert (X : In (nth s row 0%N, c) (combine row ws)).
  { apply (nth_error_In _ s). apply combine_nth_error; [|exact Hs]. apply nth_error_nth'. rewrite Le by auto. apply nth_error_Some. congruence. }
  apply (mapM_Ok_all _ _ _ E) in X. exact X.
Qed.
Lemma transpose_length : forall k rows, length (transpose_sds k rows) = k.
Proof. intros. unfold transpose_sds. rewrite map_length, seq_length. reflexivity. Qed.
Lemma combine_transpose : forall (ws : list (comp K)) rows, combine (transpose_sds (length ws) rows) ws = map (fun sc => (map (fun r => nth (fst sc) r 0%N) rows, snd sc)) (enumerate ws).
Proof.
  intros ws rows. unfold transpose_sds, enumerate. generalize 0%nat. induction ws as [|c ws IH]; intros a; [reflexivity|]. cbn [length seq map combine fst snd]. f_equal. apply IH.
Qed.
Lemma batch_rows : forall (ws : list (comp K)) rows, Forall batch_ok ws -> all_ok ws rows ->
  pr_contribs ws (length rows) (transpose_sds (length ws) rows) = Ok (map (fun sc => map (fun row => val (snd sc) (nth (fst sc) row 0%N)) rows) (enumerate ws)).
Proof.
  intros ws rows HB H. unfold pr_contribs. rewrite combine_transpose.
  assert (E : mapM (fun sw => get_olps (snd sw) (fst sw)) (map (fun sc => (map (fun r => nth (fst sc) r 0%N) rows, snd sc)) (enumerate ws)) = Ok (map (fun sc => map (fun row => val (snd sc) (nth (fst sc) row 0%N)) rows) (enumerate ws))).
  { assert (G : forall l, (forall sc, In sc l -> nth_error ws (fst sc) = Some (snd sc)) -> mapM (fun sw => get_olps (snd sw) (fst sw)) (map (fun sc => (map (fun r => nth (fst sc) r 0%N) rows, snd sc)) l) = Ok (map (fun sc => map (fun row => val (snd sc) (nth (fst sc) row 0%N)) rows) l)).
    { induction l as [|[s c] l IH]; intros Hl; [reflexivity|]. cbn [map mapM fst snd]. specialize (Hl _ (or_introl eq_refl)) as Hs. cbn [fst snd] in Hs.
      rewrite Forall_forall in HB. rewrite get_olps_ok by (apply HB; eapply nth_error_In; exact Hs).
      rewrite (mapM_vals (get_olp c) (val c)).
      - cbn [bind]. rewrite IH by (intros; apply Hl; right; auto). cbn [bind]. rewrite map_map. reflexivity.
      - intros x y _ E. apply val_ok. exact E.
      - intros x Hx. apply in_map_iff in Hx. destruct Hx as (row & <- & Hr). eapply H; eauto. }
    apply G. intros sc Hi. apply enum_nth. exact Hi. }
  rewrite E. cbn [bind]. unfold same_length.
  match goal with |- (if ?b then _ else _) = _ => assert (X : b = true) end.
  { apply forallb_forall. intros r Hr. apply in_map_iff in Hr. destruct Hr as (sc & <- & _). rewrite map_length. apply Nat.eqb_refl. }
  rewrite X. reflexivity.
Qed.
Lemma batch_all_ok : forall (ws : list (comp K)) rows v, Forall batch_ok ws -> pr_contribs ws (length rows) (transpose_sds (length ws) rows) = Ok v -> all_ok ws rows.
Proof.
  intros ws rows v HB E row s c Hr Hs. unfold pr_contribs in E. rewrite combine_transpose in E.
  destruct (mapM _ _) as [r|] eqn:M in E; [|discriminate].
  assert (X : In (map (fun r => nth s r 0%N) rows, c) (map (fun sc => (map (fun r => nth (fst sc) r 0%N) rows, snd sc)) (enumerate ws))).
  { apply in_map_iff. exists (s, c). split; [reflexivity|]. clear - Hs. unfold enumerate. apply (nth_error_In _ s).
    apply combine_nth_error; [|exact Hs]. rewrite nth_error_nth' with (d := 0%nat) by (rewrite seq_length; apply nth_error_Some; congruence).
    rewrite seq_nth by (apply nth_error_Some; congruence). reflexivity. }
  apply (mapM_Ok_all _ _ _ M) in X. destruct X as (y & X). cbn [fst snd] in X. rewrite Forall_forall in HB.
  rewrite get_olps_ok in X by (apply HB; eapply nth_error_In; exact Hs). eapply (mapM_Ok_all _ _ _ X). apply in_map_iff. exists row. auto.
Qed.
Lemma prod_rows_vals : forall (l : list (nat * comp K)) rows, prod_rows (length rows) (map (fun sc => map (fun row => val (snd sc) (nth (fst sc) row 0%N)) rows) l) =
  map (fun row => prodf (fun x => x) (map (fun sc => val (snd sc) (nth (fst sc) row 0%N)) l)) rows.
Proof.
  intros l rows. unfold prod_rows. apply (nth_ext _ _ 0 0); rewrite !map_length, seq_length; [reflexivity|]. intros j Hj.
  set (g := fun row : list N => prodf (fun x : K => x) (map (fun sc => val (snd sc) (nth (fst sc) row 0%N)) l)).
  rewrite (nth_indep (map g rows) 0 (g [])) by (rewrite map_length; auto). rewrite map_nth.
  set (h := fun j => prodf (fun r : list K => nth j r 0) (map (fun sc => map (fun row => val (snd sc) (nth (fst sc) row 0%N)) rows) l)).
  rewrite (nth_indep (map h (seq 0%nat (length rows))) 0 (h 0%nat)) by (rewrite map_length, seq_length; auto). rewrite map_nth, seq_nth by auto. cbn [Nat.add].
  unfold h, g. rewrite !prodf_map. apply prodf_ext. intros [s c] _. cbn [fst snd].
  rewrite (nth_indep _ 0 (val c (nth s [] 0%N))) by (rewrite map_length; auto).
  rewrite (map_nth (fun row => val c (nth s row 0%N)) rows []). reflexivity.
Qed.
Lemma batch_overlaps : forall (ws : list (comp K)) rows r, Forall batch_ok ws -> (forall row, In row rows -> length row = length ws) ->
  (pr_overlaps_at ws (length rows) (transpose_sds (length ws) rows) = Ok r <-> mapM (pr_overlap_at ws) rows = Ok r).
Proof.
  intros ws rows r HB HL.
  assert (G : all_ok ws rows -> pr_overlaps_at ws (length rows) (transpose_sds (length ws) rows) = mapM (pr_overlap_at ws) rows).
  { intros A. unfold pr_overlaps_at. rewrite batch_rows by auto. cbn [bind]. rewrite prod_rows_vals. symmetry. apply mapM_vals.
    - intros row y Hr E. unfold pr_overlap_at in E. rewrite (contrib_vals ws rows row A Hr (HL row Hr)) in E. cbn [bind] in E. apply Ok_inj in E. exact E.
    - intros row Hr. unfold pr_overlap_at. rewrite (contrib_vals ws rows row A Hr (HL row Hr)). cbn [bind]. eauto. }
  split; intros E.
  - rewrite <- G; [exact E|]. unfold pr_overlaps_at in E. destruct (pr_contribs _ _ _) eqn:C in E; [|discriminate]. eapply batch_all_ok; eauto.
  - rewrite G; [exact E|]. apply contrib_all_ok; auto. intros row Hr. destruct (mapM_Ok_all _ _ _ E row Hr) as (y & Y). unfold pr_overlap_at in Y.
    destruct (pr_contrib ws row); [eauto|discriminate].
Qed.
Lemma batch_derivs : forall (ws : list (comp K)) rows k c d r, Forall batch_ok ws -> (forall row, In row rows -> length row = length ws) ->
  NoDup (map c_id ws) -> nth_error ws k = Some c ->
  (pr_derivs_at ws (length rows) (transpose_sds (length ws) rows) (c_id c) d = Ok r <-> mapM (fun row => pr_deriv_at ws row (c_id c) d) rows = Ok r).
Proof.
  intros ws rows k c d r HB HL HN Hk.
  assert (Hlt : (k < length ws)%nat) by (apply nth_error_Some; congruence).
  assert (HBc : batch_ok c) by (rewrite Forall_forall in HB; apply HB; eapply nth_error_In; exact Hk).
  assert (ET : nth_error (transpose_sds (length ws) rows) k = Some (map (fun row => nth k row 0%N) rows)).
  { unfold transpose_sds. rewrite nth_error_map, nth_error_nth' with (d := 0%nat) by (rewrite seq_length; auto). rewrite seq_nth by auto. reflexivity. }
  set (dv := fun row => match get_dolp c (nth k row 0%N) d with Ok g => g | Err _ => [] end).
  assert (G : all_ok ws rows -> pr_derivs_at ws (length rows) (transpose_sds (length ws) rows) (c_id c) d = Ok r <-> mapM (fun row => pr_deriv_at ws row (c_id c) d) rows = Ok r).
  { intros A. unfold pr_derivs_at. rewrite batch_rows by auto. cbn [bind]. rewrite (find_comp_at ws k c HN Hk), Hk, ET. rewrite get_dolps_ok by auto.
    set (q := fun row => prodf (fun x : K => x) (firstn k (vals ws row)) * prodf (fun x : K => x) (skipn (S k) (vals ws row))).
    assert (EQ : map (fun xy => fst xy * snd xy) (combine (prod_rows (length rows) (firstn k (map (fun sc => map (fun row => val (snd sc) (nth (fst sc) row 0%N)) rows) (enumerate ws))))
       (prod_rows (length rows) (skipn (S k) (map (fun sc => map (fun row => val (snd sc) (nth (fst sc) row 0%N)) rows) (enumerate ws))))) = map q rows).
    { rewrite firstn_map, skipn_map, !prod_rows_vals. unfold q, vals. clear. induction rows as [|row rows IH]; [reflexivity|]. cbn [map combine fst snd].
      rewrite firstn_map, skipn_map. f_equal. exact IH. }
    rewrite EQ. clear EQ.
    assert (ED : forall row, In row rows -> pr_deriv_at ws row (c_id c) d = do g <- get_dolp c (nth k row 0%N) d; Ok (map (rmul (q row)) g)).
    { intros row Hr. unfold pr_deriv_at. rewrite (contrib_vals ws rows row A Hr (HL row Hr)). cbn [bind]. rewrite (find_comp_at ws k c HN Hk), Hk.
      rewrite (nth_error_nth' row 0%N) by (rewrite HL; auto). reflexivity. }
    clear A HL. clear HB HN ET. revert r ED. induction rows as [|row rows IH]; intros r ED; [cbn; tauto|].
    cbn [map mapM]. rewrite (ED row (or_introl eq_refl)). destruct (get_dolp c (nth k row 0%N) d) as [g|e]; cbn [bind]; [|split; discriminate].
    specialize (IH (match r with [] => [] | _ :: t => t end) (fun row' H => ED row' (or_intror H))).
    destruct (mapM (fun sd => get_dolp c sd d) (map (fun row => nth k row 0%N) rows)) as [gs|e] eqn:EG; cbn [bind] in IH |- *.
    - assert (LG : length gs = length rows) by (apply mapM_length in EG; rewrite map_length in EG; exact EG).
      cbn [length]. rewrite LG in IH |- *. rewrite Nat.eqb_refl in IH |- *. cbn [combine map fst snd].
      destruct (mapM (fun row => pr_deriv_at ws row (c_id c) d) rows) as [ys|e]; cbn [bind].
      + split; intros E; apply Ok_inj in E; subst r; destruct IH as [I1 I2].
        * specialize (I1 eq_refl). apply Ok_inj in I1. rewrite I1. reflexivity.
        * specialize (I2 eq_refl). apply Ok_inj in I2. rewrite I2. reflexivity.
      + split; intros E; [|discriminate]. apply Ok_inj in E. subst r. destruct IH as [I1 _]. specialize (I1 eq_refl). discriminate.
    - split; [discriminate|]. destruct (mapM (fun row => pr_deriv_at ws row (c_id c) d) rows) as [ys|e']; cbn [bind]; [|discriminate].
      intros E. apply Ok_inj in E. subst r. destruct IH as [_ I2]. specialize (I2 eq_refl). discriminate. }
  split; intros E.
  - apply G; [|exact E]. unfold pr_derivs_at in E. destruct (pr_contribs _ _ _) eqn:C in E; [|discriminate]. eapply batch_all_ok; eauto.
  - apply G; [|exact E]. apply contrib_all_ok; auto. intros row Hr. destruct (mapM_Ok_all _ _ _ E row Hr) as (y & Y). unfold pr_deriv_at in Y.
    destruct (pr_contrib ws row); [eauto|discriminate].
Qed.
End Grad.
