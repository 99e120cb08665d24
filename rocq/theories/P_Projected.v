(** C56: the projected equations and their Jacobian. *)
From Coq Require Import List ZArith NArith Arith Bool Lia Ring.
From Verif Require Import Py Slater BitSpec BitLemmas Alg BicliqueLemmas ParamSel ParamSelSpec ParamSelLemmas P_ParamSel EqnBase EqnSpec EqnLemmas EqnMain EqnObj EqnObjSpec P_Eqn EqnJac ProjSpec.
Import ListNotations.

Lemma nth_concat : forall A (ls : list (list A)) j t d, t < length (nth j ls []) ->
  nth (list_sum (map (@length A) (firstn j ls)) + t) (concat ls) d = nth t (nth j ls []) d.
Proof.
  intros A ls. induction ls as [|l ls IH]; intros j t d H; [destruct j; simpl in H; lia|].
  destruct j as [|j]; simpl in *.
  - apply app_nth1. auto.
  - rewrite app_nth2 by lia. rewrite <- (IH j t d H). f_equal. lia.
Qed.
Lemma map_firstn : forall A B (f : A -> B) n l, map f (firstn n l) = firstn n (map f l).
Proof. intros A B f n. induction n; intros [|a l]; simpl; auto. rewrite IHn. reflexivity. Qed.
Lemma Forall2_lengths : forall A B (f : A -> nat) l (vs : list (list B)), Forall2 (fun c v => length v = f c) l vs -> map (@length B) vs = map f l.
Proof. induction 1; simpl; congruence. Qed.
Lemma Forall2_len : forall A B (R : A -> B -> Prop) l l', Forall2 R l l' -> length l = length l'.
Proof. induction 1; simpl; congruence. Qed.
Lemma length_concat' : forall A (ls : list (list A)), length (concat ls) = list_sum (map (@length A) ls).
Proof. induction ls; simpl; auto. rewrite app_length. lia. Qed.

Section P.
Context {K : CField}.
Local Open Scope cr_scope.
Add Ring K_ring72 : (rth K).

Lemma all_cons_run : forall A (f : cons K -> step K (list A)) l w vs w', cons_run f l w vs w' -> all_cons f l w = (w', Ok (concat vs)).
Proof.
  intros A f l w vs w' H. induction H as [|c t w v w1 vs w2 E R IH]; [reflexivity|]. simpl. unfold sbind. rewrite E, IH. reflexivity.
Qed.
Lemma part_ok : forall A b e (f : cons K -> step K (list A)) w vs w', constraints_ran b e f w vs w' ->
  constraints_part b e f w = (w', Ok (concat vs)) /\ length (concat vs) = cons_eqns b e.
Proof.
  intros A b e f w vs w' [L H].
  assert (Lc : length (concat vs) = cons_eqns b e) by (rewrite length_concat', (Forall2_lengths _ _ _ _ _ L); reflexivity).
  split; auto. unfold constraints_part, num_eqns. destruct H as [[Pos R]|[Z ->]].
  - rewrite (proj2 (Nat.ltb_lt _ _)) by lia. unfold sbind. rewrite (all_cons_run _ _ _ _ _ _ R). unfold reading, fill. rewrite Lc, Nat.eqb_refl. reflexivity.
  - rewrite Z, Nat.add_0_r, Nat.ltb_irrefl. unfold reading. do 2 f_equal. rewrite Z in Lc. destruct (concat vs); [reflexivity|discriminate].
Qed.
Lemma cons_entry : forall A b (e : eqns K) (vs : list (list A)) j c t d, Forall2 (fun c v => length v = k_num c b) (e_cons e) vs ->
  nth_error (e_cons e) j = Some c -> (t < k_num c b)%nat ->
  length (nth j vs []) = k_num c b /\ nth (list_sum (map (fun c => k_num c b) (firstn j (e_cons e))) + t) (concat vs) d = nth t (nth j vs []) d.
Proof.
  intros A b e vs j c t d F E H.
  assert (Lj : length (nth j vs []) = k_num c b).
  { clear H. revert j E. induction F; intros [|j] E; simpl in *; try discriminate; [injection E as ->; auto|auto]. }
  split; auto. rewrite <- (nth_concat A vs j t d) by lia. f_equal. f_equal. f_equal.
  rewrite !map_firstn. f_equal. symmetry. apply Forall2_lengths. auto.
Qed.
Lemma weigh_ok : forall A (times : K -> A -> A) ws vals, length ws = length vals ->
  weigh times ws vals = Ok (map (fun wv => times (fst wv) (snd wv)) (combine ws vals)).
Proof. intros A times ws vals L. unfold weigh. rewrite L, Nat.eqb_refl. reflexivity. Qed.
Lemma nth_weigh : forall A (times : K -> A -> A) ws vals j d, length ws = length vals -> (j < length vals)%nat ->
  nth j (map (fun wv => times (fst wv) (snd wv)) (combine ws vals)) d = times (nth j ws 0) (nth j vals d).
Proof.
  intros A times ws. induction ws as [|x ws IH]; intros [|v vals] j d L H; simpl in *; try lia. destruct j; auto. apply IH; lia.
Qed.
Lemma residuals_values : forall (y : sys K) ps (E : K) w, (forall sd, In sd ps -> exists i o, y_int y w sd = Ok i /\ y_ov y w sd = Ok o) ->
  residuals y ps E w = Ok (map (fun sd => okv (y_int y w sd) - E * okv (y_ov y w sd)) ps).
Proof.
  intros y ps E w H. unfold residuals.
  rewrite (mapM_values _ (wrapped_int y w) ps) by (intros sd I; destruct (H sd I) as (i & o & E1 & E2); exists i; exact E1). cbn [bind].
  rewrite (mapM_values _ (wrapped_ov y w) ps) by (intros sd I; destruct (H sd I) as (i & o & E1 & E2); exists o; exact E2). cbn [bind].
  f_equal. unfold vsub, vscale. rewrite map_map, combine_maps, map_map. reflexivity.
Qed.

(** The objective: the parameters are assigned, the wavefunction is normalized, the energy is found, and the result is
    the weighted residuals of the determinants followed by the weighted equations of the constraints. *)
Theorem C56_values : forall b (e : eqns K) p w w1 w2 E vs w4,
  let y := o_sys (e_obj e) in let w3 := with_energy e E w2 in
  assign_step (e_obj e) p w = (w1, Ok tt) -> o_normalize (e_obj e) (e_ref e) w1 = (w2, Ok tt) -> energy_of e w2 = Ok E ->
  (forall sd, In sd (e_pspace e) -> exists i o, y_int y w3 sd = Ok i /\ y_ov y w3 sd = Ok o) ->
  constraints_ran b e (fun c => k_obj c p) w3 vs w4 -> length (e_weights e) = num_eqns b e ->
  exists v, eqn_objective b e true true p w = (w4, Ok v) /\ length v = num_eqns b e
  /\ (forall j sd i o, nth_error (e_pspace e) j = Some sd -> y_int y w3 sd = Ok i -> y_ov y w3 sd = Ok o ->
        nth j v 0 = nth j (e_weights e) 0 * (i - E * o))
  /\ (forall j c t, nth_error (e_cons e) j = Some c -> (t < k_num c b)%nat ->
        nth (cons_place b e j t) v 0 = nth (cons_place b e j t) (e_weights e) 0 * nth t (nth j vs []) 0).
Proof.
  intros b e p w w1 w2 E vs w4 y w3 E1 E2 E3 HR HC LW. destruct (part_ok _ _ _ _ _ _ _ HC) as [Pc Lc].
  set (rs := map (fun sd => okv (y_int y w3 sd) - E * okv (y_ov y w3 sd)) (e_pspace e)).
  assert (Lr : length (rs ++ concat vs) = num_eqns b e) by (rewrite app_length, Lc; unfold rs; rewrite map_length; reflexivity).
  eexists. split.
  { unfold eqn_objective, when. unfold sbind at 1. rewrite E1. unfold sbind at 1. rewrite E2. unfold sbind at 1. unfold reading at 1. rewrite E3.
    unfold sbind at 1. replace (store_energy e E w2) with (w3, Ok tt : res unit) by (unfold w3, with_energy, store_energy; destruct (e_type e); reflexivity).
    unfold sbind at 1. unfold reading at 1. fold y. rewrite (residuals_values y _ E w3 HR). unfold sbind. rewrite Pc. unfold reading. fold rs.
    rewrite weigh_ok by congruence. reflexivity. }
  assert (Nv : forall j, (j < num_eqns b e)%nat -> nth j (map (fun wv => fst wv * snd wv) (combine (e_weights e) (rs ++ concat vs))) 0 = nth j (e_weights e) 0 * nth j (rs ++ concat vs) 0).
  { intros j Hj. apply nth_weigh; congruence. }
  split; [rewrite map_length, combine_length; lia|]. split.
  - intros j sd i o Ej Ei Eo. assert (Hj : (j < nproj e)%nat) by (apply nth_error_Some; congruence).
    rewrite Nv by (unfold num_eqns; lia). f_equal. rewrite app_nth1 by (unfold rs; rewrite map_length; auto).
    apply nth_error_nth. unfold rs. rewrite nth_error_map, Ej. simpl. rewrite Ei, Eo. reflexivity.
  - intros j c t Ej Ht. destruct HC as [F2 _]. destruct (cons_entry _ b e vs j c t 0 F2 Ej Ht) as [Lj Nt].
    assert (B : (list_sum (map (fun c => k_num c b) (firstn j (e_cons e))) + t < cons_eqns b e)%nat).
    { unfold cons_eqns. rewrite <- (firstn_skipn j (e_cons e)) at 2. rewrite map_app, list_sum_app.
      assert (X : exists l2, skipn j (e_cons e) = c :: l2).
      { clear - Ej. revert j Ej. induction (e_cons e) as [|a l IH]; intros [|j] E; simpl in *; try discriminate; [injection E as ->; eauto|auto]. }
      destruct X as [l2 ->]. simpl. lia. }
    unfold cons_place. rewrite Nv by (unfold num_eqns; lia). f_equal.
    rewrite app_nth2 by (unfold rs; rewrite map_length; unfold nproj; lia). rewrite <- Nt. f_equal. unfold rs. rewrite map_length. unfold nproj. lia.
Qed.

(** With weights that are not zero, the objective is zero exactly where the projected equations and the constraints
    hold. *)
Theorem C56_solutions : forall b (e : eqns K) p w w1 w2 E vs w4 v,
  let y := o_sys (e_obj e) in let w3 := with_energy e E w2 in
  assign_step (e_obj e) p w = (w1, Ok tt) -> o_normalize (e_obj e) (e_ref e) w1 = (w2, Ok tt) -> energy_of e w2 = Ok E ->
  (forall sd, In sd (e_pspace e) -> exists i o, y_int y w3 sd = Ok i /\ y_ov y w3 sd = Ok o) ->
  constraints_ran b e (fun c => k_obj c p) w3 vs w4 -> length (e_weights e) = num_eqns b e -> Forall (fun x => x <> 0) (e_weights e) ->
  eqn_objective b e true true p w = (w4, Ok v) ->
  (Forall (fun x => x = 0) v <->
   (forall sd i o, In sd (e_pspace e) -> y_int y w3 sd = Ok i -> y_ov y w3 sd = Ok o -> i = E * o) /\ Forall (Forall (fun x => x = 0)) vs).
Proof.
  intros b e p w w1 w2 E vs w4 v y w3 E1 E2 E3 HR HC LW NW EO.
  destruct (C56_values b e p w w1 w2 E vs w4 E1 E2 E3 HR HC LW) as (v' & EO' & Lv & V1 & V2). fold y w3 in V1. rewrite EO in EO'.
  assert (v' = v) by congruence. subst v'. clear EO'.
  assert (NZ : forall j, (j < num_eqns b e)%nat -> nth j (e_weights e) 0 <> 0) by (intros j Hj; rewrite Forall_forall in NW; apply NW, nth_In; lia).
  assert (Dz : forall a x : K, a <> 0 -> (a * x = 0 <-> x = 0)).
  { intros a x Na. split; [intros H; transitivity (finv a * a * x); [rewrite (f_inv K a Na); ring|]; transitivity (finv a * (a * x)); [ring|rewrite H; ring]|intros ->; ring]. }
  destruct HC as [F2 HC]. split.
  - intros Z. assert (Zn : forall j, nth j v 0 = 0).
    { intros j. destruct (Nat.lt_ge_cases j (length v)) as [H|H]; [rewrite Forall_forall in Z; apply Z, nth_In; auto|apply nth_overflow; auto]. }
    split.
    + intros sd i o I Ei Eo. apply In_nth_error in I. destruct I as [j Ej]. assert (Hj : (j < nproj e)%nat) by (apply nth_error_Some; congruence).
      assert (X := V1 j sd i o Ej Ei Eo). rewrite Zn in X. symmetry in X. apply Dz in X; [|apply NZ; unfold num_eqns; lia].
      transitivity (i - E * o + E * o); [ring|]. rewrite X. ring.
    + apply Forall_forall. intros u Iu. apply In_nth_error in Iu. destruct Iu as [j Ej].
      assert (Xc : exists c, nth_error (e_cons e) j = Some c /\ length u = k_num c b).
      { clear - F2 Ej. revert j Ej. induction F2; intros [|j] Ej; simpl in *; try discriminate; [injection Ej as ->; eauto|eauto]. }
      destruct Xc as (c & Ec & Lu). apply Forall_forall. intros x Ix. apply In_nth with (d := 0) in Ix. destruct Ix as (t & Ht & <-).
      assert (X := V2 j c t Ec ltac:(lia)). rewrite Zn in X. symmetry in X. rewrite (nth_error_nth vs j [] Ej) in X.
      apply Dz in X; auto.
      apply NZ. unfold cons_place, num_eqns, cons_eqns. rewrite <- (firstn_skipn j (e_cons e)) at 2. rewrite map_app, list_sum_app.
      assert (Y : exists l2, skipn j (e_cons e) = c :: l2).
      { clear - Ec. revert j Ec. induction (e_cons e) as [|a l IH]; intros [|j] E; simpl in *; try discriminate; [injection E as ->; eauto|auto]. }
      destruct Y as [l2 ->]. simpl. lia.
  - intros [H1 H2]. apply Forall_forall. intros x Ix. apply In_nth with (d := 0) in Ix. destruct Ix as (k & Hk & <-). rewrite Lv in Hk.
    destruct (Nat.lt_ge_cases k (nproj e)) as [Hp|Hp].
    + destruct (nth_error (e_pspace e) k) as [sd|] eqn:Ek; [|apply nth_error_None in Ek; unfold nproj in Hp; lia].
      destruct (HR sd (nth_error_In _ _ Ek)) as (i & o & Ei & Eo). rewrite (V1 k sd i o Ek Ei Eo). rewrite (H1 sd i o (nth_error_In _ _ Ek) Ei Eo). ring.
    + assert (Xs : exists j c t, nth_error (e_cons e) j = Some c /\ (t < k_num c b)%nat /\ k = cons_place b e j t).
      { unfold num_eqns, cons_eqns in Hk. unfold cons_place. clear - Hk Hp. remember (k - nproj e)%nat as m eqn:Em.
        assert (Hm : (m < list_sum (map (fun c => k_num c b) (e_cons e)))%nat) by lia. assert (Ek : k = (nproj e + m)%nat) by lia.
        assert (G : exists j c t, nth_error (e_cons e) j = Some c /\ (t < k_num c b)%nat /\ m = (list_sum (map (fun c => k_num c b) (firstn j (e_cons e))) + t)%nat).
        { clear - Hm. revert m Hm. induction (e_cons e) as [|c l IH]; intros m Hm; simpl in Hm; [lia|].
          destruct (Nat.lt_ge_cases m (k_num c b)) as [H|H]; [exists 0%nat, c, m; simpl; auto|].
          destruct (IH (m - k_num c b)%nat ltac:(lia)) as (j & c' & t & A1 & A2 & A3). exists (S j), c', t. simpl. repeat split; auto. lia. }
        destruct G as (j & c & t & A1 & A2 & A3). exists j, c, t. repeat split; auto. lia. }
      destruct Xs as (j & c & t & Ec & Ht & ->). rewrite (V2 j c t Ec Ht).
      assert (Z : nth t (nth j vs []) 0 = 0); [|rewrite Z; ring].
      destruct (cons_entry _ b e vs j c t 0 F2 Ec Ht) as [Lj _]. rewrite Forall_forall in H2.
      assert (Ij : In (nth j vs []) vs). { apply nth_In. rewrite <- (Forall2_len _ _ _ _ _ F2). apply nth_error_Some. congruence. }
      specialize (H2 _ Ij). rewrite Forall_forall in H2. apply H2, nth_In. lia.
Qed.

(** assign_eqn_weights: one for the determinants and the number of determinants for the constraints, or the given
    weights if there is one for each equation *)
Theorem C56_weights : forall np nc,
  (exists l, make_weights (K := K) np nc None = Ok l /\ length l = (np + nc)%nat
     /\ (forall j, (j < np)%nat -> nth j l 0 = 1) /\ (forall j, (np <= j < np + nc)%nat -> nth j l 0 = natr np))
  /\ forall ws : list K, make_weights np nc (Some ws) = if Nat.eq_dec (length ws) (np + nc) then Ok ws else Err ValueError.
Proof.
  intros np nc. split.
  - exists (default_weights np nc). unfold default_weights. split; auto. rewrite app_length, !repeat_length. split; auto. split.
    + intros j Hj. rewrite app_nth1 by (rewrite repeat_length; auto). apply nth_error_nth. rewrite nth_error_repeat; auto.
    + intros j Hj. rewrite app_nth2 by (rewrite repeat_length; lia). rewrite repeat_length. apply nth_error_nth. rewrite nth_error_repeat; auto. lia.
  - intros ws. unfold make_weights. destruct (Nat.eqb_spec (length ws) (np + nc)), (Nat.eq_dec (length ws) (np + nc)); auto; contradiction.
Qed.
End P.
