(** C70: solvers of systems of equations and of single equations. *)
From Coq Require Import List ZArith NArith Arith Bool Lia Ring.
From Verif Require Import Py Slater BitSpec Alg WfnCI ParamSel EqnBase EqnSpec EqnLemmas EqnObj EqnObjSpec P_Eqn EqnJac ProjSpec ProjAgree P_Projected P_LeastSquares Solver SolverSpec.
Import ListNotations.
Local Open Scope nat_scope.

Lemma mapM_firstn : forall {A B} (f : A -> res B) l r m, mapM f l = Ok r -> mapM f (firstn m l) = Ok (firstn m r).
Proof.
  intros A B f l. induction l as [|a l IH]; intros r m H; cbn [mapM] in H; [injection H as <-; destruct m; reflexivity|].
  destruct (f a) as [y|] eqn:E; [|discriminate H]. cbn [bind] in H. destruct (mapM f l) as [t|] eqn:E2; [|discriminate H]. cbn [bind] in H. injection H as <-.
  destruct m; [reflexivity|]. cbn [firstn mapM]. rewrite E. cbn [bind]. rewrite (IH t m eq_refl). reflexivity.
Qed.
Lemma combine_firstn' : forall {A B} m (a : list A) (b : list B), combine (firstn m a) (firstn m b) = firstn m (combine a b).
Proof. intros A B m. induction m; intros [|x a] [|y b]; simpl; auto; rewrite IHm; reflexivity. Qed.
Lemma combine_app' : forall {A B} (a a' : list A) (b b' : list B), length a = length b -> combine (a ++ a') (b ++ b') = combine a b ++ combine a' b'.
Proof. intros A B a. induction a as [|x a IH]; intros a' [|y b] b' L; simpl in *; try lia; auto. rewrite IH by lia. reflexivity. Qed.
Lemma combine_skipn' : forall {A B} m (a : list A) (b : list B), combine (skipn m a) (skipn m b) = skipn m (combine a b).
Proof. intros A B m. induction m; intros [|x a] [|y b]; simpl; auto. destruct (skipn m a); reflexivity. Qed.

Section Trunc.
Context {K : CField}.
Local Open Scope cr_scope.

Lemma sum_ones : forall b (e : eqns K), (forall c, In c (e_cons e) -> k_num c b = 1%nat) -> cons_eqns b e = length (e_cons e).
Proof. intros b e. unfold cons_eqns. induction (e_cons e) as [|c l IH]; intros H; [reflexivity|]. cbn [map length]. change (list_sum (k_num c b :: ?t)) with (k_num c b + list_sum t)%nat. rewrite (H c) by (simpl; auto). rewrite IH by (intros; apply H; simpl; auto). lia. Qed.

Lemma weigh_cut : forall A (times : K -> A -> A) ws (rs cs : list A) v m, length ws = (length rs + length cs)%nat -> (m <= length rs)%nat ->
  weigh times ws (rs ++ cs) = Ok v ->
  weigh times (firstn m ws ++ skipn (length rs) ws) (firstn m rs ++ cs) = Ok (firstn m v ++ skipn (length rs) v).
Proof.
  intros A times ws rs cs v m L H W. unfold weigh in *. rewrite !app_length in *. rewrite L, Nat.eqb_refl in W. injection W as <-.
  rewrite !firstn_length, skipn_length, L. replace (Nat.eqb _ _) with true by (symmetry; apply Nat.eqb_eq; lia).
  f_equal. rewrite combine_app' by (rewrite !firstn_length; lia). rewrite map_app. f_equal.
  - rewrite <- map_firstn. f_equal. rewrite <- combine_firstn'. f_equal. rewrite firstn_app. replace (m - length rs)%nat with 0%nat by lia. rewrite firstn_O, app_nil_r. reflexivity.
  - rewrite skipn_map. f_equal. rewrite <- combine_skipn'. f_equal. rewrite skipn_app, skipn_all, Nat.sub_diag. reflexivity.
Qed.

(** the truncated system, when every constraint has one equation *)
Lemma truncated : forall b (e : eqns K) size, (forall c, In c (e_cons e) -> k_num c b = 1%nat) -> length (e_weights e) = num_eqns b e ->
  (length (e_cons e) <= size < num_eqns b e)%nat ->
  root_truncate b e size = Ok (with_space e (firstn (size - length (e_cons e)) (e_pspace e)) (firstn (size - length (e_cons e)) (e_weights e) ++ skipn (nproj e) (e_weights e))).
Proof.
  intros b e size H L S. assert (C := sum_ones b e H). unfold num_eqns in *. unfold root_truncate, num_eqns. rewrite C in *.
  rewrite (proj2 (Nat.ltb_ge _ _)) by lia. rewrite (proj2 (Nat.ltb_lt _ _)) by lia.
  assert (U : forall A (l : list A), py_upto l (Z.of_nat size - Z.of_nat (length (e_cons e))) = firstn (size - length (e_cons e)) l).
  { intros A l. unfold py_upto. rewrite (proj2 (Z.ltb_ge _ _)) by lia. f_equal. lia. }
  rewrite !U. do 2 f_equal. destruct (Nat.eqb_spec (length (e_cons e)) 0) as [Z|Z].
  - rewrite Z, Nat.sub_0_r. rewrite skipn_all2 by lia. rewrite app_nil_r. reflexivity.
  - unfold py_last. do 2 f_equal. lia.
Qed.

(** If there are too few equations root raises; if their number is right the system is kept. *)
Theorem C70_root_few : forall refresh b (e : eqns K) solver w x0, active_params w (o_sel (e_obj e)) = Ok x0 -> (num_eqns b e < length x0)%nat ->
  root refresh b e solver w = (w, Err ValueError).
Proof.
  intros refresh b e solver w x0 A H. unfold root, sbind, reading. rewrite A. unfold root_truncate. rewrite (proj2 (Nat.ltb_lt _ _)) by auto. reflexivity.
Qed.
Theorem C70_root_same : forall b (e : eqns K) size, num_eqns b e = size -> root_truncate b e size = Ok e.
Proof. intros b e size H. unfold root_truncate. rewrite H, Nat.ltb_irrefl. reflexivity. Qed.

(** If there are too many, and every constraint has one equation, and there are at least as many parameters as constraints, as
    many equations as parameters are kept: the first determinants, and all constraints.  Their values, their derivatives and what
    the evaluation does to the parameters are those of the full system. *)
Theorem C70_root_square : forall b (e : eqns K) size, (forall c, In c (e_cons e) -> k_num c b = 1%nat) -> length (e_weights e) = num_eqns b e ->
  (length (e_cons e) <= size < num_eqns b e)%nat -> exists e', root_truncate b e size = Ok e' /\ num_eqns b e' = size /\ length (e_weights e') = size
  /\ (forall p w w' v, eqn_objective b e true true p w = (w', Ok v) ->
        eqn_objective b e' true true p w = (w', Ok (firstn (size - length (e_cons e)) v ++ skipn (nproj e) v)))
  /\ (forall p w w' m, eqn_jacobian b e false false p w = (w', Ok m) ->
        eqn_jacobian b e' false false p w = (w', Ok (firstn (size - length (e_cons e)) m ++ skipn (nproj e) m))).
Proof.
  intros b e size H L S. rewrite (truncated b e size H L S). eexists. split; [reflexivity|]. assert (C := sum_ones b e H).
  set (m := (size - length (e_cons e))%nat). set (e' := with_space _ _ _).
  assert (S' := S). unfold num_eqns in S', L. rewrite C in S', L.
  assert (Cs : cons_eqns b e' = cons_eqns b e) by reflexivity.
  assert (Np : nproj e' = m) by (unfold e', with_space, nproj; cbn; rewrite firstn_length; unfold nproj in *; lia).
  assert (Nm : num_eqns b e' = size) by (unfold num_eqns; rewrite Np, Cs, C; unfold m; lia).
  split; [exact Nm|]. split; [unfold e', with_space; cbn; rewrite app_length, firstn_length, skipn_length, L; lia|].
  assert (Part : forall A (f : cons K -> step K (list A)) w0, constraints_part b e' f w0 = constraints_part b e f w0).
  { intros A f w0. unfold constraints_part. rewrite Cs, Nm, Np. unfold num_eqns. rewrite C. unfold e', with_space; cbn [e_cons].
    destruct (Nat.ltb_spec m size) as [T|T]; [rewrite (proj2 (Nat.ltb_lt _ _)) by lia; reflexivity|rewrite (proj2 (Nat.ltb_ge _ _)) by (unfold m in T; lia); reflexivity]. }
  assert (Ms : (m <= nproj e)%nat) by lia.
  split.
  - intros p w w' v E. unfold eqn_objective in *.
    apply sbind_ok in E. destruct E as (w1 & u1 & E1 & E). apply sbind_ok in E. destruct E as (w2 & u2 & E2 & E).
    apply sbind_ok in E. destruct E as (w3 & en & E3 & E). apply sbind_ok in E. destruct E as (w4 & u4 & E4 & E).
    apply sbind_ok in E. destruct E as (w5 & rs & E5 & E). apply sbind_ok in E. destruct E as (w6 & cs & E6 & E).
    unfold sbind. change (e_obj e') with (e_obj e). change (e_ref e') with (e_ref e). rewrite E1, E2. change (energy_of e') with (energy_of e). rewrite E3.
    change (store_energy e') with (store_energy e). rewrite E4. unfold reading in E5. injection E5 as <- E5.
    assert (R : residuals (o_sys (e_obj e)) (e_pspace e') en w4 = Ok (firstn m rs) /\ length rs = nproj e).
    { unfold residuals in *. destruct (mapM (wrapped_int _ _) (e_pspace e)) as [is|] eqn:M1; [|discriminate E5]. cbn [bind] in E5.
      destruct (mapM (wrapped_ov _ _) (e_pspace e)) as [os|] eqn:M2; [|discriminate E5]. cbn [bind] in E5. injection E5 as <-.
      unfold e', with_space. cbn [e_pspace]. rewrite (mapM_firstn _ _ _ _ M1), (mapM_firstn _ _ _ _ M2). cbn [bind]. split.
      - f_equal. unfold vsub, vscale. rewrite (map_firstn _ _ (rmul en)), combine_firstn', map_firstn. reflexivity.
      - unfold vsub, vscale. rewrite map_length, combine_length, map_length, (CompGrad.mapM_length _ _ _ M1), (CompGrad.mapM_length _ _ _ M2). unfold nproj. lia. }
    destruct R as [R Lr]. unfold reading at 1. rewrite R. rewrite Part, E6. unfold reading in *. injection E as <- E. f_equal.
    assert (Lc := part_length _ _ _ _ _ _ _ E6). rewrite C in Lc. rewrite <- Lr. unfold e', with_space. cbn [e_weights]. rewrite <- Lr. apply weigh_cut; auto; lia.
  - intros p w w' v E. unfold eqn_jacobian in *.
    apply sbind_ok in E. destruct E as (w1 & u1 & E1 & E). apply sbind_ok in E. destruct E as (w2 & u2 & E2 & E).
    apply sbind_ok in E. destruct E as (w3 & u3 & E3 & E). apply sbind_ok in E. destruct E as (w4 & [en dn] & E4 & E).
    apply sbind_ok in E. destruct E as (w5 & u5 & E5 & E). apply sbind_ok in E. destruct E as (w6 & rs & E6 & E). apply sbind_ok in E. destruct E as (w7 & cs & E7 & E).
    unfold sbind. change (e_obj e') with (e_obj e). change (e_ref e') with (e_ref e). rewrite E1, E2, E3. change (jac_energy e') with (jac_energy e). rewrite E4.
    change (store_energy e') with (store_energy e). rewrite E5. unfold reading in E6. injection E6 as <- E6.
    assert (R : jac_rows (o_sys (e_obj e)) (o_sel (e_obj e)) (e_pspace e') en dn w5 = Ok (firstn m rs) /\ length rs = nproj e).
    { unfold jac_rows in *. destruct (mapM (wrapped_dint _ _ _) (e_pspace e)) as [a1|] eqn:M1; [|discriminate E6]. cbn [bind] in E6.
      destruct (mapM (wrapped_dov _ _ _) (e_pspace e)) as [a2|] eqn:M2; [|discriminate E6]. cbn [bind] in E6.
      destruct (mapM (wrapped_ov _ _) (e_pspace e)) as [a3|] eqn:M3; [|discriminate E6]. cbn [bind] in E6. injection E6 as <-.
      unfold e', with_space. cbn [e_pspace]. rewrite (mapM_firstn _ _ _ _ M1), (mapM_firstn _ _ _ _ M2), (mapM_firstn _ _ _ _ M3). cbn [bind]. split.
      - f_equal. rewrite !combine_firstn', map_firstn. reflexivity.
      - rewrite map_length, !combine_length, (CompGrad.mapM_length _ _ _ M1), (CompGrad.mapM_length _ _ _ M2), (CompGrad.mapM_length _ _ _ M3). unfold nproj. lia. }
    destruct R as [R Lr]. unfold reading at 1. rewrite R. rewrite Part, E7. unfold reading in *. destruct (forallb _ cs); [|discriminate E]. injection E as <- E. f_equal.
    assert (Lc := part_length _ _ _ _ _ _ _ E7). rewrite C in Lc. rewrite <- Lr. unfold e', with_space. cbn [e_weights]. rewrite <- Lr. apply weigh_cut; auto; lia.
Qed.

Lemma never : forall b (e : eqns K), length (e_weights e) <> num_eqns b e -> length (e_weights e) <> 1%nat -> never_evaluates b e.
Proof.
  intros b e H1 H2 p w. destruct (eqn_objective b e true true p w) as [w' [v|x]] eqn:E; [|eauto]. exfalso.
  destruct (objective_length _ _ _ _ _ _ _ _ E) as (_ & [X|X]); contradiction.
Qed.
(** Otherwise the system that is left is not square and its weights do not fit, so that it cannot be evaluated: when some
    constraint does not have exactly one equation ... *)
Theorem C70_root_multi_refuted : forall b (e : eqns K) size, length (e_weights e) = num_eqns b e -> cons_eqns b e <> length (e_cons e) ->
  (length (e_cons e) <= size < num_eqns b e)%nat -> (size <> 1)%nat -> (size - length (e_cons e) <= nproj e)%nat -> exists e', root_truncate b e size = Ok e' /\ num_eqns b e' <> size /\ never_evaluates b e'.
Proof.
  intros b e size L C S S1 S2. unfold root_truncate. rewrite (proj2 (Nat.ltb_ge _ _)) by lia. rewrite (proj2 (Nat.ltb_lt _ _)) by lia.
  eexists. split; [reflexivity|]. set (m := (Z.of_nat size - Z.of_nat (length (e_cons e)))%Z).
  assert (U : forall A (l : list A), py_upto l m = firstn (size - length (e_cons e)) l).
  { intros A l. unfold py_upto. rewrite (proj2 (Z.ltb_ge _ _)) by lia. f_equal. lia. }
  rewrite !U. unfold num_eqns in *. 
  assert (N : (nproj (with_space e (firstn (size - length (e_cons e)) (e_pspace e)) (if Nat.eqb (length (e_cons e)) 0 then firstn size (e_weights e) else firstn (size - length (e_cons e)) (e_weights e) ++ py_last (e_weights e) (length (e_cons e)))) = size - length (e_cons e))%nat).
  { unfold nproj, with_space. cbn. rewrite firstn_length. unfold nproj in *. lia. }
  split.
  - rewrite N. unfold with_space, cons_eqns in *. cbn [e_cons]. lia.
  - assert (W : length (if Nat.eqb (length (e_cons e)) 0 then firstn size (e_weights e) else firstn (size - length (e_cons e)) (e_weights e) ++ py_last (e_weights e) (length (e_cons e))) = size).
    { destruct (Nat.eqb_spec (length (e_cons e)) 0) as [Z|Z]; [rewrite firstn_length; lia|]. unfold py_last. rewrite app_length, firstn_length, skipn_length. unfold nproj in *.
      destruct (Nat.le_gt_cases (length (e_cons e)) (length (e_weights e))) as [G|G]; lia. }
    apply never; unfold num_eqns; try rewrite N; cbn [with_space e_weights]; rewrite W; [|exact S1]. unfold with_space, cons_eqns in *. cbn [e_cons]. lia.
Qed.
(** ... or when there are fewer active parameters than constraints: the end of the slice is negative. *)
Theorem C70_root_negative_refuted : forall b (e : eqns K) size, length (e_weights e) = num_eqns b e -> (forall c, In c (e_cons e) -> k_num c b = 1%nat) ->
  (size < length (e_cons e))%nat -> (length (e_cons e) - size <= nproj e)%nat -> (1 < num_eqns b e)%nat -> exists e', root_truncate b e size = Ok e'
  /\ num_eqns b e' = (nproj e + size)%nat /\ (nproj e' = nproj e - (length (e_cons e) - size))%nat /\ never_evaluates b e'.
Proof.
  intros b e size L H S S2 S3. assert (C := sum_ones b e H). unfold root_truncate. unfold num_eqns in *. rewrite C in *. rewrite (proj2 (Nat.ltb_ge _ _)) by lia. rewrite (proj2 (Nat.ltb_lt _ _)) by lia.
  eexists. split; [reflexivity|]. set (m := (Z.of_nat size - Z.of_nat (length (e_cons e)))%Z).
  assert (U : forall A (l : list A), py_upto l m = firstn (length l - (length (e_cons e) - size)) l).
  { intros A l. unfold py_upto. rewrite (proj2 (Z.ltb_lt _ _)) by lia. do 2 f_equal. lia. }
  rewrite !U. rewrite (proj2 (Nat.eqb_neq _ _)) by lia. set (ws := _ ++ _).
  assert (W : length ws = (num_eqns b e - (length (e_cons e) - size) + length (e_cons e))%nat).
  { unfold ws, py_last, num_eqns. rewrite app_length, firstn_length, skipn_length, C, L. lia. }
  assert (N : nproj (with_space e (firstn (length (e_pspace e) - (length (e_cons e) - size)) (e_pspace e)) ws) = (nproj e - (length (e_cons e) - size))%nat).
  { unfold nproj, with_space. cbn. rewrite firstn_length. lia. }
  rewrite N. unfold num_eqns in W. rewrite C in W.
  assert (C' : cons_eqns b (with_space e (firstn (length (e_pspace e) - (length (e_cons e) - size)) (e_pspace e)) ws) = length (e_cons e)) by exact C.
  rewrite C'. split; [lia|]. split; [reflexivity|]. apply never; unfold num_eqns; try rewrite N; try rewrite C'; cbn [with_space e_weights]; rewrite W; lia.
Qed.
End Trunc.
