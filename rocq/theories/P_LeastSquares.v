(** C57: the least-squares objective, its gradient, and the replaced property. *)
From Coq Require Import List ZArith NArith Arith Bool Lia Ring Reals Lra.
From Verif Require Import Py Slater BitSpec BitLemmas Alg BicliqueLemmas ParamSel ParamSelSpec ParamSelLemmas P_ParamSel EqnBase EqnSpec EqnLemmas EqnMain EqnObj EqnObjSpec EqnEx EqnReal EqnEx2 EqnEx3 P_Eqn P_Eqn2 EqnJac ProjSpec ProjAgree P_Projected P_Projected2 P_Projected3 CompGrad LsSpec LsModel.
From Coq Require Import List.
Import ListNotations.
Local Open Scope nat_scope.

Section L.
Context {K : CField}.
Local Open Scope cr_scope.
Add Ring K_ring75 : (rth K).

Lemma square_nz : forall x : K, x <> 0 -> 0 + x * x <> 0.
Proof. intros x Nx Z. apply Nx. transitivity (finv x * (0 + x * x)); [|rewrite Z; ring]. transitivity ((finv x * x) * x); [rewrite (f_inv K x Nx); ring|ring]. Qed.
Lemma sbind_ok : forall A B (m : step K A) (f : A -> step K B) w w' x, sbind m f w = (w', Ok x) -> exists w1 a, m w = (w1, Ok a) /\ f a w1 = (w', Ok x).
Proof. intros A B m f w w' x H. unfold sbind in H. destruct (m w) as [w1 [a|y]]; [eauto|discriminate]. Qed.
Lemma fill_length : forall A n (vals l : list A), fill n vals = Ok l -> length l = n.
Proof.
  intros A n vals l H. unfold fill in H. destruct (Nat.eqb_spec (length vals) n) as [E|E]; [injection H as <-; auto|].
  destruct vals as [|x [|y t]]; try discriminate. injection H as <-. apply repeat_length.
Qed.
Lemma weigh_length : forall A (times : K -> A -> A) ws vals l, weigh times ws vals = Ok l -> length l = length vals.
Proof.
  intros A times ws vals l H. unfold weigh in H. destruct (Nat.eqb_spec (length ws) (length vals)) as [E|E].
  - injection H as <-. rewrite map_length, combine_length. lia.
  - destruct ws as [|x [|y t]]; try discriminate. injection H as <-. apply map_length.
Qed.
Lemma part_length : forall A b (e : eqns K) (f : EqnObj.cons K -> step K (list A)) w w' l, constraints_part b e f w = (w', Ok l) -> length l = cons_eqns b e.
Proof.
  intros A b e f w w' l H. unfold constraints_part in H. destruct (Nat.ltb_spec (nproj e) (num_eqns b e)) as [L|L].
  - apply sbind_ok in H. destruct H as (w1 & v & _ & H). unfold reading in H. injection H as _ H. eapply fill_length; eauto.
  - unfold reading in H. injection H as _ <-. unfold num_eqns in L. simpl. lia.
Qed.
Lemma objective_length : forall b (e : eqns K) a n p w w' v, eqn_objective b e a n p w = (w', Ok v) ->
  length v = num_eqns b e /\ (length (e_weights e) = num_eqns b e \/ length (e_weights e) = 1%nat).
Proof.
  intros b e a n p w w' v H. unfold eqn_objective in H.
  apply sbind_ok in H. destruct H as (w1 & _ & _ & H). apply sbind_ok in H. destruct H as (w2 & _ & _ & H).
  apply sbind_ok in H. destruct H as (w3 & E & _ & H). apply sbind_ok in H. destruct H as (w4 & _ & _ & H).
  apply sbind_ok in H. destruct H as (w5 & rs & Hr & H). apply sbind_ok in H. destruct H as (w6 & cs & Hc & H).
  unfold reading in H. injection H as _ H. unfold reading in Hr. injection Hr as _ Hr.
  assert (Lr : length rs = nproj e).
  { unfold residuals in Hr. destruct (mapM _ (e_pspace e)) as [is|] eqn:E1; [|discriminate]. cbn [bind] in Hr.
    destruct (mapM (wrapped_ov _ _) (e_pspace e)) as [os|] eqn:E2; [|discriminate]. cbn [bind] in Hr. injection Hr as <-.
    unfold vsub, vscale. rewrite map_length, combine_length, map_length, (CompGrad.mapM_length _ _ _ E1), (CompGrad.mapM_length _ _ _ E2). unfold nproj. lia. }
  assert (Lc := part_length _ _ _ _ _ _ _ Hc). assert (Lv := weigh_length _ _ _ _ _ H).
  rewrite app_length, Lr, Lc in Lv. split; [exact Lv|].
  unfold weigh in H. destruct (Nat.eqb_spec (length (e_weights e)) (length (rs ++ cs))) as [X|X].
  - left. rewrite X, app_length, Lr, Lc. reflexivity.
  - right. destruct (e_weights e) as [|x [|y t]]; try discriminate. reflexivity.
Qed.
Lemma jacobian_length : forall b (e : eqns K) a n p w w' m, eqn_jacobian b e a n p w = (w', Ok m) -> length m = num_eqns b e.
Proof.
  intros b e a n p w w' m H. unfold eqn_jacobian in H.
  apply sbind_ok in H. destruct H as (w1 & _ & _ & H). apply sbind_ok in H. destruct H as (w2 & _ & _ & H).
  apply sbind_ok in H. destruct H as (w3 & _ & _ & H). apply sbind_ok in H. destruct H as (w4 & [E dE] & _ & H).
  apply sbind_ok in H. destruct H as (w5 & _ & _ & H). apply sbind_ok in H. destruct H as (w6 & rows & Hr & H).
  apply sbind_ok in H. destruct H as (w7 & cs & Hc & H).
  unfold reading in H. injection H as _ H. unfold reading in Hr. injection Hr as _ Hr. destruct (forallb _ cs); [|discriminate].
  assert (Lr : length rows = nproj e).
  { unfold jac_rows in Hr. destruct (mapM (wrapped_dint _ _ _) (e_pspace e)) as [a1|] eqn:E1; [|discriminate]. cbn [bind] in Hr.
    destruct (mapM (wrapped_dov _ _ _) (e_pspace e)) as [a2|] eqn:E2; [|discriminate]. cbn [bind] in Hr.
    destruct (mapM (wrapped_ov _ _) (e_pspace e)) as [a3|] eqn:E3; [|discriminate]. cbn [bind] in Hr. injection Hr as <-.
    rewrite map_length, !combine_length, (CompGrad.mapM_length _ _ _ E1), (CompGrad.mapM_length _ _ _ E2), (CompGrad.mapM_length _ _ _ E3). unfold nproj. lia. }
  assert (Lc := part_length _ _ _ _ _ _ _ Hc). assert (Lv := weigh_length _ _ _ _ _ H). rewrite app_length, Lr, Lc in Lv. exact Lv.
Qed.

(** The objective is the sum of the squares of the projected equations (of ProjectedSchrodinger.objective), of which
    there are as many as determinants and equations of constraints together. *)
Theorem C57_objective : forall i (e : eqns K) p st,
  match eqn_objective true e true true p (ls_world st) with
  | (w, Ok v) => length v = num_eqns true e
      /\ ls_objective i e p st = (mkl w (ls_own st) (ls_print st), Ok (sumf (fun x => x * x) v))
  | (w, Err x) => snd (ls_objective i e p st) = Err x
  end.
Proof.
  intros i e p st. unfold ls_objective. destruct (eqn_objective true e true true p (ls_world st)) as [w [v|x]] eqn:E; [|reflexivity].
  split; [apply (objective_length _ _ _ _ _ _ _ _ E)|]. rewrite psum_sumf. reflexivity.
Qed.

Lemma call_own : forall (c : lscall K) st, ls_own (call_state c st) = true <-> ls_own st = true /\ returns c st.
Proof.
  intros [i e p|i e p] st; simpl; unfold ls_objective, ls_gradient.
  - destruct (eqn_objective true e true true p (ls_world st)) as [w [v|x]]; simpl; split; try tauto; try (intros H; split; [tauto|eauto]).
    + discriminate.
    + intros [_ [v Hv]]. discriminate.
  - destruct (sbind (eqn_objective true e true true p) _ (ls_world st)) as [w [[v m]|x]] eqn:E; simpl.
    + apply sbind_ok in E. destruct E as (w1 & v1 & E1 & E). apply sbind_ok in E. destruct E as (w2 & v2 & E2 & E).
      apply sbind_ok in E. destruct E as (w3 & m3 & E3 & E). unfold reading in E. injection E as <- <- <-.
      unfold dot_rows. rewrite (proj1 (objective_length _ _ _ _ _ _ _ _ E2)), (jacobian_length _ _ _ _ _ _ _ _ E3), Nat.eqb_refl. cbn [bind].
      split; [intros H; split; eauto|tauto].
    + split; [discriminate|]. intros [_ [v Hv]]. discriminate.
Qed.
(** The number of equations that the class reports: it is 1 as long as no call of any instance raised; from the first
    call that raises on it is that of ProjectedSchrodinger, for all instances and for ever. *)
Theorem C57_history : forall l (st : lstate K), ls_own (after st l) = true <-> ls_own st = true /\ all_return any_call st l.
Proof.
  induction l as [|c l IH]; intros st; simpl; [tauto|]. rewrite IH, call_own. unfold any_call at 2. tauto.
Qed.
Theorem C57_count : forall l (st : lstate K) e, ls_own st = true ->
  (all_return any_call st l -> ls_num_eqns (after st l) e = 1%nat)
  /\ (~ all_return any_call st l -> ls_num_eqns (after st l) e = num_eqns true e).
Proof.
  intros l st e H. assert (X := C57_history l st). unfold ls_num_eqns. destruct (ls_own (after st l)) eqn:E.
  - split; auto. intros N. exfalso. apply N. apply X. reflexivity.
  - split; auto. intros A. exfalso. assert (Y : false = true) by (apply X; auto). discriminate.
Qed.
(** step_print of an instance is lost when a call of its gradient raises, and only then. *)
Theorem C57_step_print : forall l (st : lstate K) i, ls_print (after st l) i = true <-> ls_print st i = true /\ all_return (gradient_of i) st l.
Proof.
  assert (One : forall (c : lscall K) st i, ls_print (call_state c st) i = true <-> ls_print st i = true /\ (gradient_of i c = true -> returns c st)).
  { intros [j e p|j e p] st i; simpl.
    - unfold ls_objective. destruct (eqn_objective true e true true p (ls_world st)) as [w [v|x]]; simpl; intuition discriminate.
    - assert (X := call_own (LsGradient j e p) (mkl (ls_world st) true (ls_print st))). simpl in X. unfold ls_gradient in *. cbn [ls_world ls_print ls_own] in X.
      destruct (sbind (eqn_objective true e true true p) _ (ls_world st)) as [w [[v m]|x]] eqn:E; simpl in *.
      + intuition.
      + unfold set_print. destruct (Nat.eqb_spec i j) as [->|D].
        * rewrite Nat.eqb_refl. split; [discriminate|]. intros [_ H]. destruct (H eq_refl) as [v Hv]. discriminate.
        * rewrite (proj2 (Nat.eqb_neq j i)) by congruence. intuition discriminate. }
  induction l as [|c l IH]; intros st i; simpl; [tauto|]. rewrite IH, One. tauto.
Qed.

(** A least-squares system as a constraint of another is asked for what it returns on its own: the sum of squares,
    one number, and its gradient, one row; its state changes in the same way. *)
Theorem C57_constraint : forall i (ei : eqns K) p own pr w,
  k_num (ls_cons ei) false = 1%nat /\
  k_obj (ls_cons ei) p w = (ls_world (fst (ls_objective i ei p (mkl w own pr))), do v <- snd (ls_objective i ei p (mkl w own pr)); Ok [v]) /\
  k_grad (ls_cons ei) p w = (ls_world (fst (ls_gradient i ei p (mkl w own pr))), do g <- snd (ls_gradient i ei p (mkl w own pr)); Ok [g]).
Proof.
  intros i ei p own pr w. split; [reflexivity|]. unfold ls_cons, ls_objective, ls_gradient. cbn [k_obj k_grad ls_world ls_own ls_print]. unfold sbind, reading. split.
  - destruct (eqn_objective true ei true true p w) as [w1 [v|x]]; reflexivity.
  - generalize (eqn_jacobian true ei false false p). intros J. destruct (eqn_objective true ei true true p w) as [w1 [v|x]]; [|reflexivity]. cbn. destruct (eqn_objective true ei true true p w1) as [w2 [v2|x]]; [|reflexivity]. cbn.
    destruct (J w2) as [w3 [m|x]]; [|reflexivity]. cbn. destruct (dot_rows (length p) v2 m); reflexivity.
Qed.
(** A least-squares system as a constraint of another: while the outer one is evaluated the inner one reports all its
    equations, so the weights (one for each constraint when they were made) do not fit: every call raises. *)
Theorem C57_nested_refuted : forall i (e : eqns K) ei p st, e_cons e = [ls_cons ei] -> length (e_weights e) = num_eqns false e ->
  (0 < nproj e)%nat -> num_eqns true ei <> 1%nat ->
  exists st' x, ls_objective i e p st = (st', Err x) /\ ls_own st' = false.
Proof.
  intros i e ei p st Ec Lw Np Ni. unfold ls_objective.
  destruct (eqn_objective true e true true p (ls_world st)) as [w [v|x]] eqn:E; [|eauto].
  exfalso. destruct (objective_length _ _ _ _ _ _ _ _ E) as [_ X]. rewrite Lw in X. unfold num_eqns at 1 2 3 in X. unfold cons_eqns in X. rewrite Ec in X. cbn [map list_sum fold_right ls_cons k_num] in X.
  revert Ni X Np. generalize (num_eqns true ei) (nproj e). clear. intros a b Ni X Np. lia.
Qed.

Variable Der : (K -> K) -> K -> K -> Prop.
Hypothesis C : calculus Der.
(** The gradient is the gradient of the objective. *)
Theorem C57_gradient : forall P i (e : eqns K) p st, let w := ls_world st in let o := e_obj e in let A := fun q => fst (assign_step o q w) in
  assignable o w p -> (forall r w, o_normalize o r w = (w, Ok tt)) -> sound Der P (o_sys o) (o_sel o) (A p) ->
  Forall P (e_pspace e) -> ref_in P (A p) (e_ref e) -> ref_out (energy_store e) (e_ref e) -> ignores (energy_store e) P (o_sys o) ->
  (forall c, energy_store e = Some c -> ~ In c (map fst (o_sel o))) ->
  energy_ok e (A p) -> Forall (good_cons Der (energy_store e) A true p) (e_cons e) -> length (e_weights e) = num_eqns true e ->
  exists g, snd (ls_gradient i e p st) = Ok g /\ vector_grad Der (fun q => snd (ls_objective i e q st)) p g.
Proof.
  intros P i e p st w o A As Nm So Hp Rf Ro Ig Ne Eo Gc Lw.
  destruct (Forall_exists _ _ (cons_fun Der (energy_store e) A true p) _ Gc) as [fcs Gf].
  destruct (obj_value Der C P true e p w As Nm So Hp Rf Ro Ig Eo fcs Gf Lw p eq_refl) as (E & w4 & v & HE & Ev & Ag & Lv & V1 & V2).
  destruct (assign_again o w p p (energy_store e) w4 As eq_refl Ne Ag) as (w4' & E4 & A4).
  destruct (obj_again Der C P true e p w As Nm So Hp Rf Ro Ig Eo fcs Gf Lw p w4 w4' eq_refl E4 A4) as (E' & w6 & v' & HE' & Ev' & Ag' & Lv' & V1' & V2').
  assert (Evv : v' = v).
  { change (fst (assign_step (e_obj e) p w)) with (A p) in HE, HE'. assert (E' = E) by congruence. subst E'.
    apply nth_ext with (d := 0) (d' := 0); [congruence|]. intros j Hj. rewrite Lv' in Hj.
    destruct (place_split_row true e j Hj) as [Hn|(jc & c & t & Ec & Ht & ->)].
    - destruct (nth_error (e_pspace e) j) as [sd|] eqn:Ej; [|apply nth_error_None in Ej; unfold nproj in Hn; clear - Ej Hn; lia].
      rewrite (V1 j sd Ej), (V1' j sd Ej). reflexivity.
    - destruct (Forall2_nth_r _ _ _ _ _ _ _ Gf Ec) as (fc & Ef & _). rewrite (V2 jc fc c t Ec Ef Ht), (V2' jc fc c t Ec Ef Ht). reflexivity. }
  subst v'.
  destruct (jac_value Der C P true e p w As Nm So Hp Rf Ro Ig Eo fcs Gf Lw w6 Ag') as (w7 & m & Em & _ & Lm & G).
  set (n := num_eqns true e) in *. set (J := seq 0 n).
  assert (Mv : v = map (fun j => nth j v 0) J) by (unfold J; rewrite <- Lv; apply map_seq_id).
  assert (Mm : m = map (fun j => nth j m []) J) by (unfold J; rewrite <- Lm; apply map_seq_id).
  assert (Gj : forall j, In j J -> vector_grad Der (entry true e w j) p (nth j m [])) by (intros j I; apply G; apply in_seq in I; lia).
  destruct (dot_rows_maps nat (length p) (fun j => nth j v 0) (fun j => nth j m []) J) as (g & Eg & Lg & Vg); [intros j I; apply (Gj j I)|].
  exists (vscale (1 + 1) g). split.
  - unfold ls_gradient. fold w. unfold sbind. rewrite Ev, Ev', Em. cbn [reading snd]. rewrite Mv, Mm at 1. rewrite Eg. reflexivity.
  - assert (Val : forall q, length q = length p -> snd (ls_objective i e q st) = Ok (sumf (fun j => okv (entry true e w j q) * okv (entry true e w j q)) J)).
    { intros q Lq. destruct (obj_value Der C P true e p w As Nm So Hp Rf Ro Ig Eo fcs Gf Lw q Lq) as (Eq & w4q & vq & _ & Evq & _ & Lvq & _).
      unfold ls_objective. fold w. rewrite Evq. cbn [snd]. f_equal. rewrite psum_sumf.
      fold n in Lvq. rewrite (map_seq_id _ vq 0) at 1. rewrite sumf_map, Lvq. apply sumf_ext. intros j _. unfold entry. rewrite Evq. reflexivity. }
    apply (vector_ext Der C (fun q => Ok (sumf (fun j => okv (entry true e w j q) * okv (entry true e w j q)) J))); [intros q Lq; symmetry; apply Val; auto|].
    split; [rewrite vscale_length; auto|]. intros k Hk. cbn [okv]. rewrite vscale_nth, Vg.
    eapply der_eq; [apply (der_sum Der C nat (fun x j => okv (entry true e w j (upd p k x)) * okv (entry true e w j (upd p k x)))
      (fun j => nth k (nth j m []) 0 * nth j v 0 + nth j v 0 * nth k (nth j m []) 0) J)|].
    + intros j I. destruct (Gj j I) as [_ D]. specialize (D k Hk).
      eapply der_eq; [apply (cal_mul Der C _ _ _ _ _ D D)|]. cbv beta.
      assert (X : okv (entry true e w j (upd p k (nth k p 0))) = nth j v 0); [|rewrite X; reflexivity].
      rewrite upd_same by auto. unfold entry. rewrite Ev. reflexivity.
    + rewrite <- sumf_mul_l. apply sumf_ext. intros j _. ring.
Qed.
End L.

(** The statement of C57 asks for 1 after calls that raise as well; this is false: a vector of the wrong length, given to
    one instance, changes what all instances report. *)
Theorem C57_count_refuted : forall K : CField, exists (st : lstate K) c e', ls_own st = true /\ ls_num_eqns st e' = 1
  /\ ~ returns c st /\ ls_num_eqns (after st [c]) e' = 3.
Proof.
  intros K. exists (mkl (ex_world rO rO rO rO) true (fun _ => true)), (LsObjective 0 (ex_eqns Compute ex_obj) []), (ex_eqns Compute ex_obj).
  split; [reflexivity|]. split; [reflexivity|]. split; [|reflexivity]. intros [v Hv]. discriminate.
Qed.

(** Over the reals the objective is zero exactly where the projected equations and the constraints hold, and it is
    never negative. *)
Lemma squares_zero : forall l : list R, (0 <= sumf (K := R_field) (fun x : R_field => rmul x x) l)%R
  /\ (sumf (K := R_field) (fun x : R_field => rmul x x) l = 0%R <-> Forall (fun x => x = 0%R) l).
Proof.
  induction l as [|x l [IH1 IH2]].
  - split; [apply Rle_refl|]. split; [constructor|reflexivity].
  - change (sumf (K := R_field) (fun x : R_field => rmul x x) (x :: l)) with (x * x + sumf (K := R_field) (fun x : R_field => rmul x x) l)%R.
    revert IH1 IH2. generalize (sumf (K := R_field) (fun x : R_field => rmul x x) l : R). intros s IH1 IH2.
    assert (Sq := Rle_0_sqr x). unfold Rsqr in Sq. split; [lra|]. split.
    + intros H. assert (x * x = 0)%R by lra. constructor; [|apply IH2; lra].
      destruct (Rmult_integral _ _ H0); auto.
    + intros H. inversion H as [|? ? Hx Hl]; subst. apply IH2 in Hl. change (0 * 0 + s = 0)%R. rewrite Hl. match goal with |- ?a = ?b => change (@eq R a b) end. ring.
Qed.
Theorem C57_zero : forall i (e : eqns R_field) p st w1 w2 E vs w4,
  let w := ls_world st in let y := o_sys (e_obj e) in let w3 := with_energy e E w2 in
  assign_step (e_obj e) p w = (w1, Ok tt) -> o_normalize (e_obj e) (e_ref e) w1 = (w2, Ok tt) -> energy_of e w2 = Ok E ->
  (forall sd, In sd (e_pspace e) -> exists i o, y_int y w3 sd = Ok i /\ y_ov y w3 sd = Ok o) ->
  constraints_ran true e (fun c => k_obj c p) w3 vs w4 -> length (e_weights e) = num_eqns true e -> Forall (fun x => x <> 0%R) (e_weights e) ->
  exists s : R, snd (ls_objective i e p st) = Ok s /\ (0 <= s)%R
  /\ (s = 0%R <-> (forall sd (i o : R), In sd (e_pspace e) -> y_int y w3 sd = Ok i -> y_ov y w3 sd = Ok o -> i = (E * o)%R)
       /\ Forall (Forall (fun x => x = 0%R)) vs).
Proof.
  intros i e p st w1 w2 E vs w4 w y w3 E1 E2 E3 HR HC LW NW.
  destruct (C56_values true e p w w1 w2 E vs w4 E1 E2 E3 HR HC LW) as (v & Ev & Lv & _).
  assert (X := C57_objective i e p st). fold w in X. rewrite Ev in X. destruct X as [_ X].
  exists (sumf (K := R_field) (fun x : R_field => rmul x x) v). rewrite X. split; [reflexivity|]. destruct (squares_zero v) as [S1 S2]. split; [exact S1|].
  rewrite S2. apply (C56_solutions true e p w w1 w2 E vs w4 v E1 E2 E3 HR HC LW NW Ev).
Qed.

(** The example system satisfies the hypotheses of C57_gradient. *)
Example C57_ex : forall (K : CField) (Der : (K -> K) -> K -> K -> Prop) (C : calculus Der) i (x y h e : K), x <> rO ->
  let st := mkl (ex_world x y h e) true (fun _ => true) in let eq := ex_eqns Compute ex_obj in
  exists g, snd (ls_gradient i eq [h; x; y] st) = Ok g /\ vector_grad Der (fun q => snd (ls_objective i eq q st)) [h; x; y] g.
Proof.
  intros K Der C i x y h e Nx st eq. set (w := ex_world x y h e).
  assert (As : assignable ex_obj w [h; x; y]) by (apply ex_assignable; reflexivity).
  assert (Hs : fst (assign_step ex_obj [h; x; y] w) 0%nat = [x; y] /\ fst (assign_step ex_obj [h; x; y] w) 1%nat = [h]) by (split; reflexivity).
  remember (fst (assign_step ex_obj [h; x; y] w)) as w1 eqn:Ew. destruct Hs as [H0 H1].
  assert (So : sound Der (fun _ => True) ex_sys ex_sel w1) by (apply (ex_sound Der C); [rewrite H0|rewrite H1]; reflexivity).
  assert (Ne : forall c, energy_store eq = Some c -> ~ In c (map fst ex_sel)) by (intros c Ec; injection Ec as <-; simpl; intros [X|[X|[]]]; discriminate).
  apply (C57_gradient Der C (fun _ => True) i eq [h; x; y] st); auto.
  - cbv zeta. cbn [st ls_world eq ex_eqns e_obj]. fold w. rewrite <- Ew. exact So.
  - apply Forall_forall. auto.
  - split; [auto|exact I].
  - exact I.
  - apply ex_ignores.
  - unfold energy_ok. cbn [st ls_world eq ex_eqns e_obj e_type e_ref]. fold w. rewrite <- Ew. exists (radd rO (rmul x x)). split.
    + unfold one_norm. cbn. unfold xs. rewrite H0. reflexivity.
    + apply square_nz. exact Nx.
  - constructor; [|constructor]. apply (C56_norm_constraint Der C (fun _ => True)); auto.
    + cbn [st ls_world eq ex_eqns e_obj]. fold w. rewrite <- Ew. exact So.
    + split; [auto|exact I].
    + exact I.
    + apply ex_ignores.
Qed.
(** Values at h = 5, x = 2, y = 1 (see C56_example): 9/4 + 64. *)
Example C57_example :
  let st := mkl qw true (fun _ => true) in
  ql (do s <- snd (ls_objective 0 (ex_eqns Compute (ex_obj (K := Qc_field))) [qf 5 1; qf 2 1; qf 1 1] st); Ok [s]) = [(265%Z, 4%positive)]
  /\ ql (snd (ls_gradient 0 (ex_eqns Compute (ex_obj (K := Qc_field))) [qf 5 1; qf 2 1; qf 1 1] st)) = [(0%Z, 1%positive); (527%Z, 4%positive); (61%Z, 1%positive)].
Proof. vm_compute. auto. Qed.
Example C57_nested_example : exists x,
  snd (ls_objective (K := Qc_field) 0 (mkeqns ex_obj (RefSds [sd1]) [sd1; sd2] Compute 2 [ls_cons (ex_eqns Compute ex_obj)] (default_weights 2 1)) [qf 5 1; qf 2 1; qf 1 1]
    (mkl qw true (fun _ => true))) = Err x.
Proof. eexists. vm_compute. reflexivity. Qed.

Print Assumptions C57_objective.
Print Assumptions C57_history.
Print Assumptions C57_count.
Print Assumptions C57_step_print.
Print Assumptions C57_nested_refuted.
Print Assumptions C57_constraint.
Print Assumptions C57_gradient.
Print Assumptions C57_count_refuted.
Print Assumptions C57_zero.
