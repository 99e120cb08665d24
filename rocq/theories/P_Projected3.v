(** C56: the default constraint, normalization, examples. *)
From Coq Require Import List ZArith NArith Arith Bool Lia Ring QArith Qcanon Reals Lra.
From Verif Require Import Py Slater BitSpec BitLemmas Alg BicliqueLemmas ParamSel ParamSelSpec ParamSelLemmas P_ParamSel EqnBase EqnSpec EqnLemmas EqnMain EqnObj EqnObjSpec EqnEx EqnReal EqnNorm EqnEx2 EqnEx3 P_Eqn P_Eqn2 EqnJac ProjSpec ProjAgree P_Projected P_Projected2.
From Coq Require Import List.
Import ListNotations.
Local Open Scope nat_scope.

Section N.
Context {K : CField}.
Local Open Scope cr_scope.
Add Ring K_ring74 : (rth K).
Variable Der : (K -> K) -> K -> K -> Prop.
Hypothesis C : calculus Der.

(** assigning the same vector again changes nothing but maybe the excepted component *)
Lemma assign_again : forall (o : obj K) w p q exc w', assignable o w p -> length q = length p ->
  (forall c, exc = Some c -> ~ In c (map fst (o_sel o))) ->
  agree exc (fst (assign_step o q w)) w' -> exists w'', assign_step o q w' = (w'', Ok tt) /\ agree exc (fst (assign_step o q w)) w''.
Proof.
  intros o w p q exc w' (F & L & St) Lq Ne Ag.
  destruct (C52_assign 0 (o_store o) (o_view o) w (o_sel o) q F ltac:(congruence) St) as (w1 & E1 & _ & S1 & N1 & V1).
  change (assign_step o q w = (w1, Ok tt)) in E1. rewrite E1 in Ag. simpl in Ag. rewrite E1. cbn [fst].
  assert (Lk : forall c, In c (map fst (o_sel o)) -> w1 c = w' c).
  { intros c I. apply Ag. intros X. apply (Ne c X I). }
  assert (F' : fits_sel (fun c => length (w' c)) (o_sel o)).
  { destruct F as [N F]. split; auto. intros c l I. destruct (F c l I) as [Inc Bd]. split; auto.
    apply (Forall_impl _ (P := fun i => (i < length (w c))%nat)); auto. intros i Hi.
    rewrite <- (Lk c) by (apply in_map_iff; exists (c, l); auto). rewrite S1. auto. }
  destruct (C52_assign 0 (o_store o) (o_view o) w' (o_sel o) q F' ltac:(congruence)) as (w2 & E2 & _ & S2 & N2 & V2).
  { intros c v I Lv. apply St; auto. rewrite Lv, <- (Lk c I). apply S1. }
  exists w2. split; [exact E2|]. intros c Hc. apply nth_ext with (d := 0) (d' := 0); [rewrite S2, <- (Ag c Hc); reflexivity|].
  intros i Hi. destruct (in_dec Nat.eq_dec c (map fst (o_sel o))) as [Ic|Ic].
  - assert (D : selected (o_sel o) c i \/ ~ selected (o_sel o) c i).
    { clear - K. unfold selected. destruct (find (fun cl => Nat.eqb (fst cl) c && if in_dec Nat.eq_dec i (snd cl) then true else false) (o_sel o)) as [[c' l]|] eqn:Ef.
      - left. apply find_some in Ef. destruct Ef as [I X]. apply andb_true_iff in X. destruct X as [X1 X2]. apply Nat.eqb_eq in X1. simpl in X1. subst c'.
        exists l. split; auto. simpl in X2. destruct (in_dec Nat.eq_dec i l); auto. discriminate.
      - right. intros (l & I & Il). assert (X := find_none _ _ Ef _ I). simpl in X. rewrite Nat.eqb_refl in X. destruct (in_dec Nat.eq_dec i l); [discriminate|contradiction]. }
    destruct D as [D|D].
    + destruct (selected_place _ _ _ D) as [k Pk]. rewrite (V1 k c i Pk), (V2 k c i Pk). reflexivity.
    + rewrite (N2 c i D), (Ag c Hc). reflexivity.
  - assert (D : ~ selected (o_sel o) c i). { intros (l & I & _). apply Ic. apply in_map_iff. exists (c, l). auto. }
    rewrite (N2 c i D), (Ag c Hc). reflexivity.
Qed.

(** The normalization, the default constraint, satisfies what C56_jacobian asks of constraints. *)
Theorem C56_norm_constraint : forall P b (o : obj K) r exc p w, let A := fun q => fst (assign_step o q w) in
  assignable o w p -> sound Der P (o_sys o) (o_sel o) (A p) -> ref_in P (A p) r -> ref_out exc r -> ignores exc P (o_sys o) ->
  (forall c, exc = Some c -> ~ In c (map fst (o_sel o))) -> good_cons Der exc A b p (norm_cons o r).
Proof.
  intros P b o r exc p w A As So Rf Ro Ig Ne. destruct (assign_any o w p p As eq_refl) as [w1 E1].
  assert (Ew : A p = w1) by (unfold A; rewrite E1; reflexivity). rewrite Ew in *.
  destruct (C59_norm Der C P o w p w1 r As E1 So Rf) as (v & Ev & G).
  assert (NV : forall q, length q = length p -> exists x, norm_value (o_sys o) (A q) r = Ok x /\ snd (norm_objective o r q w) = Ok x).
  { intros q Lq. destruct (assigned_fits o w p w1 As E1) as [F1 S1].
    destruct (ref_ok Der C P _ _ w1 So F1 r Rf) as (cf & dcf & R1 & _).
    destruct (assign_any o w p q As Lq) as [wq Eq].
    assert (Sq : same_shape w1 wq).
    { destruct As as (F & L & St). destruct (C52_assign 0 (o_store o) (o_view o) w (o_sel o) q F ltac:(congruence) St) as (w2 & E2 & _ & S2 & _).
      unfold assign_step in Eq. rewrite E2 in Eq. injection Eq as <-. intros c. rewrite S2. rewrite <- S1. reflexivity. }
    assert (X : exists x, norm_value (o_sys o) wq r = Ok x).
    { unfold norm_value, one_norm. rewrite R1 by auto. cbn [bind]. rewrite (ov_list Der P _ _ w1 So) by (auto; apply Rf). cbn [bind].
      unfold dot. rewrite !map_length, seq_length, Nat.eqb_refl. cbn [bind]. eauto. }
    destruct X as [x Ex]. exists x. unfold A, norm_objective, sbind. rewrite Eq. simpl. auto. }
  exists (fun q => [okv (norm_value (o_sys o) (A q) r)]). split.
  - intros q w' Lq Ag. split; [reflexivity|]. destruct (assign_again o w p q exc w' As Lq Ne Ag) as (w2 & E2 & A2). exists w2. split; [|exact A2].
    destruct (NV q Lq) as (x & Ex & _). cbn [norm_cons k_obj]. unfold norm_objective, sbind. rewrite E2. unfold reading.
    unfold norm_value. rewrite <- (norm_agree exc P _ Ig r (A q) w2 A2 (proj1 Rf) Ro). unfold norm_value in Ex. rewrite Ex. reflexivity.
  - intros w' Ag. destruct (assign_again o w p p exc w' As eq_refl Ne Ag) as (w2 & E2 & A2). exists w2, [v].
    unfold A in A2. rewrite E1 in A2. cbn [fst] in A2.
    split; [|split; [rewrite Ew; exact A2|split; [reflexivity|]]].
    + cbn [norm_cons k_grad]. unfold norm_gradient, sbind. rewrite E2. unfold reading.
      rewrite <- (norm_deriv_agree exc P _ Ig r w1 w2 A2 (proj1 Rf) Ro).
      unfold norm_gradient, sbind in Ev. rewrite E1 in Ev. unfold reading in Ev. cbn [snd] in Ev. rewrite Ev. reflexivity.
    + intros j Hj. cbn [norm_cons k_num] in Hj. assert (j = 0%nat) by lia. subst j. cbn [nth].
      eapply (vector_ext Der C); [|exact G]. intros q Lq. destruct (NV q Lq) as (x & Ex & Eo). rewrite Eo, Ex. reflexivity.
Qed.

(** The Jacobian called on its own assigns the parameters and gives the same matrix of derivatives. *)
Theorem C56_jacobian_alone : forall P b (e : eqns K) p w, let o := e_obj e in let A := fun q => fst (assign_step o q w) in
  assignable o w p -> (forall r w, o_normalize o r w = (w, Ok tt)) -> sound Der P (o_sys o) (o_sel o) (A p) ->
  Forall P (e_pspace e) -> ref_in P (A p) (e_ref e) -> ref_out (energy_store e) (e_ref e) -> ignores (energy_store e) P (o_sys o) ->
  energy_ok e (A p) -> Forall (good_cons Der (energy_store e) A b p) (e_cons e) -> length (e_weights e) = num_eqns b e ->
  exists w5 m, eqn_jacobian b e true true p w = (w5, Ok m) /\ length m = num_eqns b e
  /\ forall j, (j < num_eqns b e)%nat -> vector_grad Der (entry b e w j) p (nth j m []).
Proof.
  intros P b e p w o A As Nm So Hp Rf Ro Ig Eo Gc Lw. destruct (Forall_exists _ _ (cons_fun Der (energy_store e) A b p) _ Gc) as [fcs Gf].
  destruct (jac_value Der C P b e p w As Nm So Hp Rf Ro Ig Eo fcs Gf Lw (A p) (agree_refl _ _ _)) as (w5 & m & Em & _ & Lm & G).
  exists w5, m. split; auto. unfold eqn_jacobian, when in *. destruct (assign_any o w p p As eq_refl) as [w1 E1].
  unfold sbind at 1. unfold sbind at 1 in Em. unfold done at 1 in Em. fold o. rewrite E1. unfold A in Em. rewrite E1 in Em. cbn [fst] in Em.
  unfold sbind at 1. unfold sbind at 1 in Em. unfold done at 1 in Em. rewrite Nm. exact Em.
Qed.

(** With assign=False and no constraint, the parameters given are not used: the Jacobian is that at the parameters
    of the components. *)
Theorem C56_jacobian_ignores : forall b (e : eqns K) p q w, e_cons e = [] -> length p = length q ->
  eqn_jacobian b e false false p w = eqn_jacobian b e false false q w.
Proof.
  intros b e p q w Ec L. assert (Z : cons_eqns b e = 0%nat) by (unfold cons_eqns; rewrite Ec; reflexivity).
  unfold eqn_jacobian, constraints_part, num_eqns. rewrite Z, Nat.add_0_r, Nat.ltb_irrefl, L. reflexivity.
Qed.

(** the example system does not look at component 2 *)
Lemma ex_ignores : forall P, ignores (K := K) (Some 2%nat) P ex_sys.
Proof.
  intros P w1 w2 sd A _. assert (E0 := A 0%nat ltac:(discriminate)). assert (E1 := A 1%nat ltac:(discriminate)).
  simpl. unfold xs, hs. rewrite E0, E1. auto.
Qed.
Example C56_default : forall x y h e : K, x <> 0 -> let w := ex_world x y h e in let eq := ex_eqns Compute ex_obj in
  exists w4 v, eqn_objective false eq true true [h; x; y] w = (w4, Ok v) /\ length v = 3%nat
  /\ exists w5 m, eqn_jacobian false eq false false [h; x; y] w4 = (w5, Ok m) /\ length m = 3%nat
  /\ forall j, (j < 3)%nat -> vector_grad Der (entry false eq w j) [h; x; y] (nth j m []).
Proof.
  intros x y h e Nx w eq.
  assert (As : assignable ex_obj w [h; x; y]) by (apply ex_assignable; reflexivity).
  assert (Hs : fst (assign_step ex_obj [h; x; y] w) 0%nat = [x; y] /\ fst (assign_step ex_obj [h; x; y] w) 1%nat = [h]) by (split; reflexivity).
  remember (fst (assign_step ex_obj [h; x; y] w)) as w1 eqn:Ew. destruct Hs as [H0 H1].
  assert (So : sound Der (fun _ => True) ex_sys ex_sel w1) by (apply (ex_sound Der C); [rewrite H0|rewrite H1]; reflexivity).
  apply (C56_jacobian Der C (fun _ => True) false eq [h; x; y] w); auto.
  - cbv zeta. cbn [eq ex_eqns e_obj]. rewrite <- Ew. exact So.
  - apply Forall_forall. auto.
  - split; [auto|exact I].
  - exact I.
  - apply ex_ignores.
  - unfold energy_ok. cbn [eq ex_eqns e_obj e_type e_ref]. rewrite <- Ew. exists (0 + x * x). split.
    + unfold one_norm. cbn. unfold xs. rewrite H0. reflexivity.
    + intros Z. apply Nx. transitivity (finv x * (0 + x * x)); [|rewrite Z; ring]. transitivity ((finv x * x) * x); [rewrite (f_inv K x Nx); ring|ring].
  - constructor; [|constructor]. apply (C56_norm_constraint (fun _ => True)); auto.
    + cbn [eq ex_eqns e_obj]. rewrite <- Ew. exact So.
    + split; [auto|exact I].
    + exact I.
    + apply ex_ignores.
    + intros c Ec. injection Ec as <-. simpl. intros [X|[X|[]]]; discriminate.
Qed.
End N.

(** ProjectedSchrodinger.objective normalizes the wavefunction, and the Jacobian is that of the equations without the
    normalization at the normalized parameters.  For a geminal wavefunction this is not the Jacobian of the objective:
    the equation is 1 - (y / x)^2, its derivative by y at x = 2, y = 1 is -1/2, the Jacobian has -1. *)
Local Open Scope R_scope.
Theorem C56_normalize_refuted : exists (e : eqns R_field) p w w4 v w5 m, let o := e_obj e in
  o_normalize o = gem_normalize (o_sys o) 1 /\ assignable o w p /\ e_cons e = [] /\ length (e_weights e) = num_eqns false e
  /\ (forall w, length (w 0%nat) = 2%nat -> length (w 1%nat) = 1%nat -> sound real_der (fun _ => True) (o_sys o) (o_sel o) w)
  /\ eqn_objective false e true true p w = (w4, Ok v) /\ eqn_jacobian false e false false p w4 = (w5, Ok m)
  /\ ~ vector_grad real_der (entry false e w 0) p (nth 0 m []).
Proof.
  pose (w := rworld 0 0 0 0). pose (p := [5; 2; 1] : list R_field).
  assert (Ent : forall z : R, okv (entry false gem_eqns w 0 [5; 2; z]) = 1 + (- (1 / 4)) * (z * z)).
  { intros z. unfold entry, eqn_objective, when, sbind.
    assert (E : exists w1, assign_step (e_obj gem_eqns) [5; 2; z] w = (w1, Ok tt) /\ w1 0%nat = [2; z] /\ w1 1%nat = [5]) by (eexists; split; [reflexivity|split; reflexivity]).
    destruct E as (w1 & E & W0 & W1). rewrite E. cbn [gem_eqns e_obj e_ref gem_obj o_normalize].
    unfold gem_normalize. cbn [mapM ex_sys wrapped_ov y_ov bind]. cbn [psum fold_left y_wfn].
    unfold reading, energy_of, store_energy, constraints_part, residuals, one_energy.
    cbn -[Rmult Rplus Rinv Rminus Rpower INR]. unfold xs, hs, set_world. cbn -[Rmult Rplus Rinv Rminus Rpower INR]. rewrite ?W0, ?W1.
    cbn -[Rmult Rplus Rinv Rminus Rpower INR].
    match goal with |- context [Rpower ?a ?b] => replace a with 4 by ring; rewrite half_power end.
    match goal with |- ?a = ?b => change (@eq R a b) end. field. }
  destruct (eqn_objective false gem_eqns true true p w) as [w4 [v|x]] eqn:Eo; [|exfalso; cbn in Eo; discriminate].
  destruct (eqn_jacobian false gem_eqns false false p w4) as [w5 [m|x]] eqn:Ej.
  - exists gem_eqns, p, w, w4, v, w5, m. split; [reflexivity|]. split; [apply ex_assignable; reflexivity|]. split; [reflexivity|]. split; [reflexivity|].
    split; [intros w' L0 L1; apply ex_sound; auto; apply real_calculus|]. split; [exact Eo|]. split; [exact Ej|]. intros [L G].
    assert (G2 := G 2%nat ltac:(simpl; lia)).
    assert (D : real_der (fun z => okv (entry false gem_eqns w 0 (upd p 2 z))) (nth 2 p 0) (- (1 / 2))).
    { apply (cal_ext _ real_calculus (fun z : R_field => 1 + (- (1 / 4)) * (z * z))); [intros z; symmetry; apply Ent|].
      eapply (der_eq real_der); [apply (cal_add _ real_calculus (fun _ => 1) (fun z : R_field => (- (1 / 4)) * (z * z))); [apply (cal_const _ real_calculus)|];
        apply (cal_mul _ real_calculus (fun _ => - (1 / 4)) (fun z : R_field => z * z)); [apply (cal_const _ real_calculus)|];
        apply (cal_mul _ real_calculus (fun z : R_field => z) (fun z : R_field => z)); apply (cal_id _ real_calculus)|].
      match goal with |- ?a = ?b => change (@eq R a b) end. simpl. field. }
    assert (Eq := real_unique _ _ _ _ G2 D).
    assert (V : nth 2 (nth 0 m []) 0 = -1).
    { clear - Eo Ej. unfold eqn_objective, when, sbind in Eo.
      assert (E : exists w1, assign_step (e_obj gem_eqns) p w = (w1, Ok tt) /\ w1 0%nat = [2; 1] /\ w1 1%nat = [5]) by (eexists; split; [reflexivity|split; reflexivity]).
      destruct E as (w1 & E & W0 & W1). rewrite E in Eo. cbn [gem_eqns e_obj e_ref gem_obj o_normalize] in Eo.
      unfold gem_normalize in Eo. cbn [mapM ex_sys wrapped_ov y_ov bind] in Eo. cbn [psum fold_left y_wfn] in Eo.
      unfold reading, energy_of, store_energy, constraints_part, residuals, one_energy in Eo.
      cbn -[Rmult Rplus Rinv Rminus Rpower INR] in Eo.
      assert (Pw : Rpower (0 + xs w1 0 * xs w1 0) (- (1 / 2) / INR 1) = 1 / 2).
      { unfold xs. rewrite W0. simpl nth. match goal with |- Rpower ?a _ = _ => replace a with 4 by (match goal with |- ?a = ?b => change (@eq R a b) end; ring) end. apply half_power. }
      rewrite Pw in Eo.
      assert (H0 : w4 0%nat = [1; 1/2] /\ w4 1%nat = [5]).
      { injection Eo as <- _. unfold set_world. cbn -[Rmult Rplus Rinv Rminus]. rewrite W0, W1. cbn -[Rmult Rplus Rinv Rminus].
        split; [f_equal; [|f_equal]; match goal with |- ?a = ?b => change (@eq R a b) end; field|reflexivity]. }
      destruct H0 as [H0 H1]. clear Eo. unfold eqn_jacobian, when, sbind, reading, done, jac_energy, jac_rows, constraints_part, store_energy in Ej.
      cbn -[Rmult Rplus Rinv Rminus] in Ej. unfold xs, hs, set_world in Ej. cbn -[Rmult Rplus Rinv Rminus] in Ej. rewrite H0, H1 in Ej.
      cbn -[Rmult Rplus Rinv Rminus] in Ej. injection Ej as _ <-. simpl nth. match goal with |- ?a = ?b => change (@eq R a b) end. field. }
    assert (X : -1 = - (1 / 2)) by (etransitivity; [symmetry; exact V|exact Eq]). lra.
  - exfalso. clear - Ej. cbn in Ej. discriminate.
Qed.

(** Values at h = 5, x = 2, y = 1: the energy is 11/2, the residuals are 0 and 3/2, and the
    normalization is off by 4 (with weight 2). *)
Example C56_example :
  ql (snd (eqn_objective false (ex_eqns Compute (ex_obj (K := Qc_field))) true true [qf 5 1; qf 2 1; qf 1 1] qw))
    = [(0%Z, 1%positive); (3%Z, 2%positive); (8%Z, 1%positive)]
  /\ qm (snd (eqn_jacobian false (ex_eqns Compute (ex_obj (K := Qc_field))) true true [qf 5 1; qf 2 1; qf 1 1] qw))
    = [[(0%Z, 1%positive); (0%Z, 1%positive); (0%Z, 1%positive)]; [(0%Z, 1%positive); (5%Z, 4%positive); ((-1)%Z, 1%positive)];
       [(0%Z, 1%positive); (8%Z, 1%positive); (4%Z, 1%positive)]].
Proof. vm_compute. auto. Qed.

Print Assumptions C56_values.
Print Assumptions C56_solutions.
Print Assumptions C56_weights.
Print Assumptions C56_jacobian.
Print Assumptions C56_jacobian_alone.
Print Assumptions C56_jacobian_ignores.
Print Assumptions C56_norm_constraint.
Print Assumptions C56_normalize_refuted.
