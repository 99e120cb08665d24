(** C70: what the solvers report and what they leave behind. *)
From Coq Require Import List ZArith NArith Arith Bool Lia Ring.
From Verif Require Import Py Slater BitSpec Alg WfnCI ParamSel EqnBase EqnSpec EqnLemmas EqnObj EqnObjSpec P_Eqn EqnJac ProjSpec ProjAgree P_Projected P_LeastSquares Solver SolverSpec EqnEx EqnEx3 SolverEx P_SolverCI P_Solver.
Import ListNotations.
Local Open Scope nat_scope.

Section Runs.
Context {K : CField}.
Local Open Scope cr_scope.
Add Ring K_ring124 : (rth K).

Lemma run_truthful : forall V J (f : list K -> step K V) (g : list K -> step K J) back seen s, truthful seen s -> forall w w' r, run_strat f g back s w = (w', Ok r) ->
  seen (r_x r) (r_fun r) \/ exists w0 w1, f (r_x r) w0 = (w1, Ok (r_fun r)).
Proof.
  intros V J f g back seen s T. induction T as [seen r S|seen x|seen p k T IH|seen p k T IH|seen k T IH]; intros w w' r' R; cbn [run_strat] in R.
  - unfold reading in R. injection R as _ <-. auto.
  - discriminate R.
  - apply sbind_ok in R. destruct R as (w1 & v & E & R). destruct (IH v _ _ _ R) as [[S|[Ep Ev]]|X]; auto. right. exists w, w1. rewrite Ep, Ev. exact E.
  - apply sbind_ok in R. destruct R as (w1 & v & E & R). apply (IH v _ _ _ R).
  - apply sbind_ok in R. destruct R as (w1 & v & E & R). apply (IH _ _ _ R).
Qed.

(** If the optimizer returns a point that it has evaluated, with the value, the residuals that are returned are those of the
    equations at the parameters that are returned.  It is started at the active parameters, and least_squares may evaluate
    1000 times per parameter. *)
Theorem C70_residuals : forall refresh b (e : eqns K) solver w w' out,
  (forall x0, active_params w (o_sel (e_obj e)) = Ok x0 -> truthful (fun _ _ => False) (solver (1000 * length x0)%nat x0)) ->
  least_squares refresh b e solver w = (w', Ok out) -> exists w0 w1, eqn_objective b e true true (s_params out) w0 = (w1, Ok (s_residuals out)).
Proof.
  intros refresh b e solver w w' out T H. unfold least_squares in H.
  apply sbind_ok in H. destruct H as (w1 & x0 & E1 & H). unfold reading in E1. injection E1 as <- E1. apply sbind_ok in H. destruct H as (w2 & r & E2 & H).
  unfold wrap_scipy in E2. apply sbind_ok in E2. destruct E2 as (w3 & x1 & E3 & E2). unfold reading in E3. rewrite E1 in E3. injection E3 as <- <-.
  unfold reading in H. injection H as _ H. destruct (w2 (e_comp e)) as [|x t]; [discriminate H|]. injection H as <-. cbn [s_params s_residuals].
  destruct (run_truthful _ _ _ _ _ _ _ (T x0 E1) _ _ _ E2) as [[]|X]. exact X.
Qed.
Theorem C70_root_residuals : forall refresh b (e e' : eqns K) solver w w' out,
  (forall x0, active_params w (o_sel (e_obj e)) = Ok x0 -> truthful (fun _ _ => False) (solver x0)) ->
  root refresh b e solver w = (w', Ok (e', out)) -> (exists x0, active_params w (o_sel (e_obj e)) = Ok x0 /\ root_truncate b e (length x0) = Ok e')
  /\ exists w0 w1, eqn_objective b e' true true (s_params out) w0 = (w1, Ok (s_residuals out)).
Proof.
  intros refresh b e e' solver w w' out T H. unfold root in H.
  apply sbind_ok in H. destruct H as (w1 & x0 & E1 & H). unfold reading in E1. injection E1 as <- E1. apply sbind_ok in H. destruct H as (w2 & e2 & E4 & H). unfold reading in E4. injection E4 as <- E4.
  apply sbind_ok in H. destruct H as (w2 & r & E2 & H).
  unfold wrap_scipy in E2. apply sbind_ok in E2. destruct E2 as (w3 & x1 & E3 & E2). unfold reading in E3. rewrite E1 in E3. injection E3 as <- <-.
  unfold reading in H. injection H as _ <- <-. cbn [s_params s_residuals]. split; [eauto|].
  destruct (run_truthful _ _ _ _ _ _ _ (T x0 E1) _ _ _ E2) as [[]|X]. exact X.
Qed.

(** minimize and cma take objectives with one equation only, and cma more than one parameter. *)
Theorem C70_single : forall back (o : single K) solver w,
  (g_num o <> 1%nat -> minimize back o solver w = (w, Err ValueError) /\ cma o solver w = (w, Err ValueError)) /\
  (forall x, active_params w (g_sel o) = Ok [x] -> cma o solver w = (w, Err ValueError)).
Proof.
  intros back o solver w. split.
  - intros H. unfold minimize, cma. apply Nat.eqb_neq in H. rewrite H. auto.
  - intros x H. unfold cma. destruct (negb (Nat.eqb (g_num o) 1)); [reflexivity|]. unfold sbind, reading. rewrite H. reflexivity.
Qed.
(** What they return is a value of the objective at the parameters that are returned, also the energy if the objective is the energy;
    after cma these parameters are assigned. *)
Theorem C70_minimize : forall back (o : single K) solver w w' r en, (forall x0, truthful (fun _ _ => False) (solver x0)) -> minimize back o solver w = (w', Ok (r, en)) ->
  (exists w0 w1, g_obj o (r_x r) w0 = (w1, Ok (r_fun r))) /\ (g_energy o = FromValue -> en = Some [r_fun r]).
Proof.
  intros back o solver w w' r en T H. unfold minimize in H. destruct (negb (Nat.eqb (g_num o) 1)); [discriminate H|].
  apply sbind_ok in H. destruct H as (w1 & r1 & E & H). unfold reading in H. injection H as _ <- <-.
  unfold wrap_scipy in E. apply sbind_ok in E. destruct E as (w2 & x0 & _ & E). split.
  - destruct (run_truthful _ _ _ _ _ _ _ (T x0) _ _ _ E) as [[]|X]. exact X.
  - intros F. rewrite F. reflexivity.
Qed.
Theorem C70_cma : forall (o : single K) solver w w' r en, (forall x0, truthful (fun _ _ => False) (solver x0)) -> cma o solver w = (w', Ok (r, en)) ->
  (exists w0 w1, g_obj o (r_x r) w0 = (w1, Ok (r_fun r))) /\ (g_energy o = FromValue -> en = Some [r_fun r])
  /\ exists w2, g_assign o (r_x r) w2 = (w', Ok tt).
Proof.
  intros o solver w w' r en T H. unfold cma in H. destruct (negb (Nat.eqb (g_num o) 1)); [discriminate H|].
  apply sbind_ok in H. destruct H as (w1 & x0 & E0 & H). destruct (Nat.eqb (length x0) 1); [discriminate H|].
  apply sbind_ok in H. destruct H as (w2 & r1 & E & H). apply sbind_ok in H. destruct H as (w3 & out & E3 & H). unfold reading in E3. injection E3 as <- <-.
  apply sbind_ok in H. destruct H as (w4 & [] & E4 & H). unfold reading in H. injection H as <- <- <-. split; [|split].
  - destruct (run_truthful _ _ _ _ _ _ _ (T x0) _ _ _ E) as [[]|X]. exact X.
  - intros F. rewrite F. reflexivity.
  - eauto.
Qed.

(** ** the energy *)
Section Energy.
Variables (P : N -> Prop) (e : eqns K) (b : bool) (refresh : step K unit).
Hypothesis Ig : ignores (energy_store e) P (o_sys (e_obj e)).
Hypothesis Hp : forall sd, In sd (ref_sds (e_ref e)) -> P sd.
Hypothesis Ho : ref_out (energy_store e) (e_ref e).
Hypothesis Ca : Forall (calm e) (e_cons e).
Hypothesis Qu : ham_active e = true -> forall w d, fst (refresh w) d = w d.

Lemma settled_same : forall p E w w', settled e p E w -> (forall d, w' d = w d) -> settled e p E w'.
Proof. intros p E w w' (w0 & w1 & w2 & H1 & H2 & H3 & H4) H. exists w0, w1, w2. repeat split; auto. intros c. rewrite H. auto. Qed.
Lemma cons_same : forall A (f : cons K -> step K (list A)) p E w w' v, settled e p E w ->
  (forall c w0, In c (e_cons e) -> settled e p E w0 -> forall d, fst (f c w0) d = w0 d) ->
  constraints_part b e f w = (w', Ok v) -> settled e p E w'.
Proof.
  intros A f p E w w' v S F H. unfold constraints_part in H. destruct (Nat.ltb (nproj e) (num_eqns b e)).
  - apply sbind_ok in H. destruct H as (w1 & u & H & H2). unfold reading in H2. injection H2 as <- _.
    revert w w1 u S H. assert (G : forall c, In c (e_cons e) -> forall w0, settled e p E w0 -> forall d, fst (f c w0) d = w0 d) by auto. clear F. revert G. generalize (e_cons e) as l.
    induction l as [|c l IH]; intros G w w1 u S H; cbn [all_cons] in H; [injection H as <- _; exact S|].
    apply sbind_ok in H. destruct H as (w2 & x & E1 & H). apply sbind_ok in H. destruct H as (w3 & y & E2 & H). unfold reading in H. injection H as <- _.
    apply (IH ltac:(intros; apply G; simpl; auto) w2 w3 y); auto. apply (settled_same p E w); auto. intros d. rewrite <- (G c ltac:(simpl; auto) w S d), E1. reflexivity.
  - injection H as <- _. exact S.
Qed.
Lemma objective_settles : forall p w w' v, eqn_objective b e true true p w = (w', Ok v) -> exists E, settled e p E w'.
Proof.
  intros p w w' v H. unfold eqn_objective in H. cbn [when] in H.
  apply sbind_ok in H. destruct H as (w1 & [] & E1 & H). apply sbind_ok in H. destruct H as (w2 & [] & E2 & H).
  apply sbind_ok in H. destruct H as (w3 & en & E3 & H). unfold reading in E3. injection E3 as <- E3. apply sbind_ok in H. destruct H as (w4 & [] & E4 & H).
  apply sbind_ok in H. destruct H as (w5 & rs & E5 & H). unfold reading in E5. injection E5 as <- _. apply sbind_ok in H. destruct H as (w6 & cs & E6 & H).
  unfold reading in H. injection H as <- _. exists en. apply (cons_same _ _ p en w4 w6 cs) in E6; auto.
  - exists w, w1, w2. repeat split; auto. intros c. unfold store_energy in E4. unfold with_energy. destruct (e_type e); injection E4 as <-; reflexivity.
  - intros c w0 I S d. rewrite Forall_forall in Ca. apply (proj1 (Ca c I p en w0 S)).
Qed.
Lemma jac_energy_one : forall w en dn, e_type e = Compute -> jac_energy e w = Ok (en, dn) -> one_energy (o_sys (e_obj e)) w (e_ref e) = Ok en.
Proof.
  intros w en dn T H. unfold jac_energy in H. rewrite T in H. unfold one_energy.
  destruct (ref_coeffs _ w (e_ref e)) as [cs|]; [|discriminate H]. cbn [bind] in *. destruct (d_ref_coeffs _ _ w _) as [dcs|]; [|discriminate H]. cbn [bind] in *.
  destruct (mapM (wrapped_ov _ w) _) as [os|]; [|discriminate H]. cbn [bind] in *. destruct (mapM (wrapped_dov _ _ w) _) as [dos|]; [|discriminate H]. cbn [bind] in *.
  destruct (dot_rows _ os dcs) as [dn1|]; [|discriminate H]. cbn [bind] in *. destruct (dot_rows _ cs dos) as [dn2|]; [|discriminate H]. cbn [bind] in *. cbv zeta in H.
  destruct (dot cs os) as [nrm|]; [|discriminate H]. cbn [bind] in *. destruct (mapM (wrapped_int _ w) _) as [is|]; [|discriminate H]. cbn [bind] in *.
  destruct (mapM (wrapped_dint _ _ w) _) as [dis|]; [|discriminate H]. cbn [bind] in *. destruct (dot cs is) as [num|]; [|discriminate H]. cbn [bind] in *.
  destruct (dot_rows _ is dcs) as [a1|]; [|discriminate H]. cbn [bind] in *. destruct (dot_rows _ cs dis) as [a2|]; [|discriminate H]. cbn [bind] in *. injection H as <- _. reflexivity.
Qed.
Lemma jacobian_keeps : forall p E w w' m, settled e p E w -> hacked_jacobian refresh b e p w = (w', Ok m) -> settled e p E w'.
Proof.
  intros p E w w' m S H. unfold hacked_jacobian in H. apply sbind_ok in H. destruct H as (w0 & [] & E0 & H).
  assert (S0 : settled e p E w0).
  { apply (settled_same p E w); auto. destruct (ham_active e); cbn [when] in E0; [|injection E0 as <-; auto]. intros d. rewrite <- (Qu eq_refl w d), E0. reflexivity. }
  clear S E0 w. unfold eqn_jacobian in H. cbn [when] in H.
  apply sbind_ok in H. destruct H as (w1 & [] & E1 & H). injection E1 as <-. apply sbind_ok in H. destruct H as (w2 & [] & E2 & H). injection E2 as <-.
  apply sbind_ok in H. destruct H as (w3 & [] & E3 & H). unfold reading in E3. injection E3 as <- _. apply sbind_ok in H. destruct H as (w4 & [en dn] & E4 & H). unfold reading in E4. injection E4 as <- E4.
  apply sbind_ok in H. destruct H as (w5 & [] & E5 & H). apply sbind_ok in H. destruct H as (w6 & rs & E6 & H). unfold reading in E6. injection E6 as <- _.
  apply sbind_ok in H. destruct H as (w7 & cs & E7 & H). unfold reading in H. injection H as <- _.
  apply (cons_same _ _ p E w5 w7 cs) in E7; auto.
  - destruct S0 as (v0 & v1 & v2 & H1 & H2 & H3 & H4). exists v0, v1, v2. repeat split; auto. intros c. unfold store_energy in E5.
    destruct (e_type e) eqn:T; [injection E5 as <-; auto|injection E5 as <-; auto|].
    assert (A : agree (energy_store e) w0 v2). { intros d Hd. rewrite H4. symmetry. apply with_energy_agree. exact Hd. }
    assert (X := jac_energy_one w0 en dn T E4). rewrite (energy_agree _ P _ Ig _ w0 v2 A Hp Ho) in X. unfold energy_of in H3. rewrite T in H3. rewrite H3 in X. injection X as <-.
    injection E5 as <-. unfold set_world. specialize (H4 c). unfold with_energy in *. rewrite T in *. unfold set_world in *. destruct (Nat.eqb c (e_comp e)); auto.
  - intros c w I S d. rewrite Forall_forall in Ca. apply (proj2 (Ca c I p E w S)).
Qed.
Lemma run_settles : forall s o w w' r, ends_at o s -> (forall p, o = Some p -> exists E, settled e p E w) ->
  run_strat (eqn_objective b e true true) (hacked_jacobian refresh b e) done s w = (w', Ok r) -> exists E, settled e (r_x r) E w'.
Proof.
  intros s o w w' r T. revert w w' r. induction T as [r|o x|o p k T IH|p k T IH|o k T IH]; intros w w' r' I R; cbn [run_strat] in R.
  - unfold reading in R. injection R as <- <-. apply I. reflexivity.
  - discriminate R.
  - apply sbind_ok in R. destruct R as (w1 & v & E & R). apply (IH v w1 w' r'); auto. intros q Q. injection Q as <-. apply (objective_settles _ _ _ _ E).
  - apply sbind_ok in R. destruct R as (w1 & v & E & R). apply (IH v w1 w' r'); auto. intros q Q. injection Q as <-. destruct (I p eq_refl) as [en S]. exists en. apply (jacobian_keeps _ _ _ _ _ S E).
  - apply sbind_ok in R. destruct R as (w1 & [] & E & R). injection E as <-. apply (IH w w' r'); auto.
Qed.
Lemma settled_energy : forall p E w, settled e p E w -> w (e_comp e) = [E].
Proof.
  intros p E w (w0 & w1 & w2 & _ & _ & H & S). rewrite S. unfold energy_of in H. unfold with_energy. destruct (e_type e).
  - destruct (w2 (e_comp e)) as [|x [|y t]]; [discriminate H| |discriminate H]. injection H as <-. reflexivity.
  - destruct (w2 (e_comp e)) as [|x [|y t]]; [discriminate H| |discriminate H]. injection H as <-. reflexivity.
  - unfold set_world. rewrite Nat.eqb_refl. reflexivity.
Qed.
(** If the point that is returned is the one that was evaluated last, the energy that is returned is the one at this point, and the
    parameters of the objective are the ones of this point (after the normalization, if there is one). *)
Theorem C70_energy : forall solver w w' out, (forall n x0, ends_at None (solver n x0)) ->
  least_squares refresh b e solver w = (w', Ok out) -> settled e (s_params out) (s_energy out) w'.
Proof.
  intros solver w w' out T H. unfold least_squares in H.
  apply sbind_ok in H. destruct H as (w1 & x0 & E1 & H). unfold reading in E1. injection E1 as <- E1. apply sbind_ok in H. destruct H as (w2 & r & E2 & H).
  unfold wrap_scipy in E2. apply sbind_ok in E2. destruct E2 as (w3 & x1 & E3 & E2). unfold reading in E3. rewrite E1 in E3. injection E3 as <- <-.
  unfold reading in H. injection H as <- H. destruct (run_settles _ None _ _ _ (T _ x0) ltac:(discriminate) E2) as [E S].
  rewrite (settled_energy _ _ _ S) in H. injection H as <-. exact S.
Qed.
End Energy.
Theorem C70_root_energy : forall P refresh b (e : eqns K) solver w w' e' out, ignores (energy_store e) P (o_sys (e_obj e)) -> (forall sd, In sd (ref_sds (e_ref e)) -> P sd) ->
  ref_out (energy_store e) (e_ref e) -> Forall (calm e) (e_cons e) -> (ham_active e = true -> forall w d, fst (refresh w) d = w d) -> (forall x0, ends_at None (solver x0)) ->
  root refresh b e solver w = (w', Ok (e', out)) -> exists E, s_energy out = [E] /\ settled e (s_params out) E w'.
Proof.
  intros P refresh b e solver w w' e' out Ig Hp Ho Ca Qu T H. unfold root in H.
  apply sbind_ok in H. destruct H as (w1 & x0 & E1 & H). unfold reading in E1. injection E1 as <- E1. apply sbind_ok in H. destruct H as (w2 & e2 & E4 & H). unfold reading in E4. injection E4 as <- E4.
  apply sbind_ok in H. destruct H as (w2 & r & E2 & H).
  unfold wrap_scipy in E2. apply sbind_ok in E2. destruct E2 as (w3 & x1 & E3 & E2). unfold reading in E3. rewrite E1 in E3. injection E3 as <- <-.
  unfold reading in H. injection H as <- <- <-. cbn [s_params s_energy].
  assert (Y : e2 = with_space e (e_pspace e2) (e_weights e2)).
  { unfold root_truncate in E4. destruct (Nat.ltb (num_eqns b e) (length x0)); [discriminate E4|]. destruct (Nat.ltb (length x0) (num_eqns b e)); injection E4 as <-; [reflexivity|destruct e; reflexivity]. }
  assert (Sg : forall p E v, settled e2 p E v <-> settled e p E v) by (intros; rewrite Y; reflexivity).
  destruct (run_settles P e2 b refresh) with (s := solver x0) (o := @None (list K)) (w := w) (w' := w2) (r := r) as [E S]; auto.
  - rewrite Y. exact Ig.
  - rewrite Y. exact Hp.
  - rewrite Y. exact Ho.
  - rewrite Y. exact Ca.
  - rewrite Y. exact Qu.
  - discriminate.
  - exists E. rewrite (settled_energy e2 _ _ _ S). split; auto. apply Sg. exact S.
Qed.

(** In general the energy and the parameters of the objective are those of the last point, which the optimizer may have rejected. *)
Theorem C70_energy_refuted : exists (e : eqns K) solver w w' out E w1, (forall n x0, truthful (fun _ _ => False) (solver n x0)) /\ least_squares done false e solver w = (w', Ok out)
  /\ assign_step (e_obj e) (s_params out) w' = (w1, Ok tt) /\ energy_of e w1 = Ok E /\ E <> s_energy out /\ active_params w' (o_sel (e_obj e)) <> Ok (s_params out).
Proof.
  exists sol_eqns, (fun _ _ => rejecting [1; 0] [1; 1]), (ex_world 0 0 0 0). do 4 eexists. split; [|split; [|split; [|split; [|split]]]].
  - intros _ _. constructor. intros v. constructor. intros j. constructor. intros v'. constructor. cbn. auto.
  - cbv -[rmul radd rsub ropp rO rI finv rcar fring]. reflexivity.
  - cbv -[rmul radd rsub ropp rO rI finv rcar fring]. reflexivity.
  - cbv -[rmul radd rsub ropp rO rI finv rcar fring]. reflexivity.
  - intros H. cbn [s_energy] in H. repeat match type of H with context [finv ?x] => progress replace x with (1 : K) in H by ring end. rewrite finv_one in H.
    apply (f_one K). match type of H with ?a = ?b => transitivity (b - a); [ring|rewrite H; ring] end.
  - cbn. intros H. injection H as H. apply (f_one K). auto.
Qed.
End Runs.
