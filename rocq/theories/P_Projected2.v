(** C56: the Jacobian of the projected equations. *)
From Coq Require Import List ZArith NArith Arith Bool Lia Ring.
From Verif Require Import Py Slater BitSpec BitLemmas Alg BicliqueLemmas ParamSel ParamSelSpec ParamSelLemmas P_ParamSel EqnBase EqnSpec EqnLemmas EqnMain EqnObj EqnObjSpec P_Eqn EqnJac ProjSpec ProjAgree P_Projected.
Import ListNotations.

Lemma Forall_exists : forall A B (R : A -> B -> Prop) l, Forall (fun a => exists b, R a b) l -> exists l', Forall2 R l l'.
Proof. induction 1 as [|a l [b Hb] _ [l' IH]]; [exists []; constructor|exists (b :: l'); constructor; auto]. Qed.
Lemma Forall2_nth_r : forall A B (R : A -> B -> Prop) l l' j a, Forall2 R l l' -> nth_error l j = Some a -> exists b, nth_error l' j = Some b /\ R a b.
Proof. intros A B R l l' j a F. revert j. induction F; intros [|j] E; simpl in *; try discriminate; [injection E as ->; eauto|auto]. Qed.

Section J.
Context {K : CField}.
Local Open Scope cr_scope.
Add Ring K_ring73 : (rth K).
Variable Der : (K -> K) -> K -> K -> Prop.
Hypothesis C : calculus Der.

Definition cons_fun (exc : option nat) (A : list K -> world K) (b : bool) (p : list K) (c : cons K) (fc : list K -> list K) : Prop :=
  (forall q w', length q = length p -> agree exc (A q) w' ->
     length (fc q) = k_num c b /\ exists w'', k_obj c q w' = (w'', Ok (fc q)) /\ agree exc (A q) w'')
  /\ (forall w', agree exc (A p) w' -> exists w'' rows, k_grad c p w' = (w'', Ok rows) /\ agree exc (A p) w''
        /\ length rows = k_num c b /\ forall j, (j < k_num c b)%nat -> vector_grad Der (fun q => Ok (nth j (fc q) 0)) p (nth j rows [])).
Lemma obj_runs : forall exc A b p l fcs q w', Forall2 (cons_fun exc A b p) l fcs -> length q = length p -> agree exc (A q) w' ->
  Forall2 (fun c v => length v = k_num c b) l (map (fun fc => fc q) fcs)
  /\ exists w'', cons_run (fun c => k_obj c q) l w' (map (fun fc => fc q) fcs) w'' /\ agree exc (A q) w''.
Proof.
  intros exc A b p l fcs q w' F Lq. revert w'. induction F as [|c fc l fcs H F IH]; intros w' Ag.
  - split; [constructor|]. exists w'. split; [constructor|auto].
  - destruct (proj1 H q w' Lq Ag) as (Lf & w1 & E1 & A1). destruct (IH w1 A1) as (G & w2 & R & A2). split; [constructor; auto|].
    exists w2. split; auto. econstructor; eauto.
Qed.
Lemma grad_runs : forall exc A b p l fcs w', Forall2 (cons_fun exc A b p) l fcs -> agree exc (A p) w' ->
  exists ms w'', cons_run (fun c => k_grad c p) l w' ms w'' /\ agree exc (A p) w''
  /\ Forall2 (fun c v => length v = k_num c b) l ms
  /\ (forall m, In m ms -> Forall (fun r => length r = length p) m)
  /\ forall j c t, nth_error l j = Some c -> (t < k_num c b)%nat -> exists fc, nth_error fcs j = Some fc
       /\ vector_grad Der (fun q => Ok (nth t (fc q) 0)) p (nth t (nth j ms []) []).
Proof.
  intros exc A b p l fcs w' F. revert w'. induction F as [|c fc l fcs H F IH]; intros w' Ag.
  - exists [], w'. split; [constructor|]. split; auto. split; [constructor|]. split; [contradiction|]. intros [|j] c t E; discriminate.
  - destruct (proj2 H w' Ag) as (w1 & rows & E1 & A1 & Lr & G). destruct (IH w1 A1) as (ms & w2 & R & A2 & F2 & Hl & G2).
    exists (rows :: ms), w2. split; [econstructor; eauto|]. split; auto. split; [constructor; auto|]. split.
    + intros m [<-|I]; auto. apply Forall_forall. intros r I. apply In_nth with (d := []) in I. destruct I as (j & Hj & <-). apply (G j). lia.
    + intros [|j] c' t E Ht; simpl in *; [injection E as <-; eauto|eauto].
Qed.

Section Main.
Variables (P : N -> Prop) (b : bool) (e : eqns K) (p : list K) (w : world K).
Let o := e_obj e.
Let y := o_sys o.
Let A := fun q => fst (assign_step o q w).
Let exc := energy_store e.
Hypothesis As : assignable o w p.
Hypothesis Nm : forall r w, o_normalize o r w = (w, Ok tt).
Hypothesis So : sound Der P y (o_sel o) (A p).
Hypothesis Hp : Forall P (e_pspace e).
Hypothesis Rf : ref_in P (A p) (e_ref e).
Hypothesis Ro : ref_out exc (e_ref e).
Hypothesis Ig : ignores exc P y.
Hypothesis Eo : energy_ok e (A p).
Variable fcs : list (list K -> list K).
Hypothesis Gc : Forall2 (cons_fun exc A b p) (e_cons e) fcs.
Hypothesis Lw : length (e_weights e) = num_eqns b e.

Lemma assign_A : forall q, length q = length p -> assign_step o q w = (A q, Ok tt) /\ same_shape (A p) (A q).
Proof.
  intros q Lq. destruct As as (F & L & St).
  destruct (C52_assign 0 (o_store o) (o_view o) w (o_sel o) q F ltac:(congruence) St) as (w1 & E1 & _ & S1 & _).
  destruct (C52_assign 0 (o_store o) (o_view o) w (o_sel o) p F ltac:(congruence) St) as (w2 & E2 & _ & S2 & _).
  change (assign_step o q w = (w1, Ok tt)) in E1. change (assign_step o p w = (w2, Ok tt)) in E2.
  unfold A. rewrite E1, E2. split; auto. intros c. simpl. rewrite S1, S2. reflexivity.
Qed.
Lemma fits_A : fits_sel (fun c => length (A p c)) (o_sel o).
Proof. apply (assigned_fits o w p (A p) As). apply assign_A. reflexivity. Qed.
Let JE := jac_energy_ok Der C P e (A p) So fits_A Rf Eo.

(** calling the objective when the components have the parameters [w'] *)
Lemma obj_again : forall q w' w1, length q = length p -> assign_step o q w' = (w1, Ok tt) -> agree exc (A q) w1 -> exists E w4 v, energy_of e (A q) = Ok E
  /\ eqn_objective b e true true q w' = (w4, Ok v) /\ agree exc (A q) w4 /\ length v = num_eqns b e
  /\ (forall j sd, nth_error (e_pspace e) j = Some sd -> nth j v 0 = nth j (e_weights e) 0 * (okv (y_int y (A q) sd) - E * okv (y_ov y (A q) sd)))
  /\ (forall j fc c t, nth_error (e_cons e) j = Some c -> nth_error fcs j = Some fc -> (t < k_num c b)%nat ->
        nth (cons_place b e j t) v 0 = nth (cons_place b e j t) (e_weights e) 0 * nth t (fc q) 0).
Proof.
  intros q w' w1 Lq E1' A1. destruct (assign_A q Lq) as [_ S1]. destruct JE as (Ep & vp & _ & _ & _ & Tot). destruct (Tot _ S1) as [E HE].
  assert (Hr : forall sd, In sd (ref_sds (e_ref e)) -> P sd) by apply Rf.
  assert (HE1 : energy_of e w1 = Ok E) by (rewrite <- (energy_of_agree P e Ig Hr Ro (A q) w1 A1); exact HE).
  assert (Aw : agree exc (A q) (with_energy e E w1)) by (eapply agree_trans; [exact A1|apply with_energy_agree]).
  assert (Vals : forall sd, In sd (e_pspace e) -> y_int y (with_energy e E w1) sd = Ok (okv (y_int y (A q) sd)) /\ y_ov y (with_energy e E w1) sd = Ok (okv (y_ov y (A q) sd))).
  { intros sd I. rewrite Forall_forall in Hp. specialize (Hp sd I). destruct (Ig _ _ sd Aw Hp) as (I1 & I2 & _). rewrite <- I1, <- I2.
    destruct (proj1 (so_ov _ _ _ _ _ So sd Hp) _ S1) as [a Ea]. destruct (proj1 (so_int _ _ _ _ _ So sd Hp) _ S1) as [i Ei]. rewrite Ea, Ei. auto. }
  destruct (obj_runs exc A b p (e_cons e) fcs q (with_energy e E w1) Gc Lq Aw) as (F2 & w5 & R5 & A5).
  assert (Rn : exists w4, constraints_ran b e (fun c => k_obj c q) (with_energy e E w1) (map (fun fc => fc q) fcs) w4 /\ agree exc (A q) w4).
  { destruct (Nat.eq_dec (cons_eqns b e) 0) as [Z|Z].
    - exists (with_energy e E w1). split; auto. split; auto.
    - exists w5. split; auto. split; auto. left. split; auto. lia. }
  destruct Rn as (w4 & Rn & A4).
  destruct (C56_values b e q w' w1 w1 E (map (fun fc => fc q) fcs) w4 E1' (Nm _ _) HE1) as (v & Ev & Lv & V1 & V2); auto.
  { intros sd I. destruct (Vals sd I). eauto. }
  exists E, w4, v. do 4 (split; auto). split.
  - intros j sd Ej. destruct (Vals sd (nth_error_In _ _ Ej)) as [X1 X2]. apply V1 with sd; auto.
  - intros j fc c t Ec Ef Ht. rewrite (V2 j c t Ec Ht). f_equal. f_equal. apply nth_error_nth. rewrite nth_error_map, Ef. reflexivity.
Qed.
Lemma obj_value : forall q, length q = length p -> exists E w4 v, energy_of e (A q) = Ok E
  /\ eqn_objective b e true true q w = (w4, Ok v) /\ agree exc (A q) w4 /\ length v = num_eqns b e
  /\ (forall j sd, nth_error (e_pspace e) j = Some sd -> nth j v 0 = nth j (e_weights e) 0 * (okv (y_int y (A q) sd) - E * okv (y_ov y (A q) sd)))
  /\ (forall j fc c t, nth_error (e_cons e) j = Some c -> nth_error fcs j = Some fc -> (t < k_num c b)%nat ->
        nth (cons_place b e j t) v 0 = nth (cons_place b e j t) (e_weights e) 0 * nth t (fc q) 0).
Proof. intros q Lq. apply (obj_again q w (A q) Lq (proj1 (assign_A q Lq)) (agree_refl _ _ _)). Qed.

Lemma place_split_row : forall k, (k < num_eqns b e)%nat -> (k < nproj e)%nat
  \/ exists j c t, nth_error (e_cons e) j = Some c /\ (t < k_num c b)%nat /\ k = cons_place b e j t.
Proof.
  intros k Hk. destruct (Nat.lt_ge_cases k (nproj e)) as [H|H]; auto. right. unfold num_eqns, cons_eqns in Hk. unfold cons_place.
  remember (k - nproj e)%nat as m eqn:Em. assert (Hm : (m < list_sum (map (fun c => k_num c b) (e_cons e)))%nat) by (clear - Hk H Em; lia).
  assert (Ek : k = (nproj e + m)%nat) by (clear - H Em; lia).
  assert (G : exists j c t, nth_error (e_cons e) j = Some c /\ (t < k_num c b)%nat /\ m = (list_sum (map (fun c => k_num c b) (firstn j (e_cons e))) + t)%nat).
  { clear - Hm. revert m Hm. induction (e_cons e) as [|c l IH]; intros m Hm; simpl in Hm; [lia|].
    destruct (Nat.lt_ge_cases m (k_num c b)) as [H|H]; [exists 0%nat, c, m; simpl; auto|].
    destruct (IH (m - k_num c b)%nat ltac:(lia)) as (j & c' & t & A1 & A2 & A3). exists (S j), c', t. simpl. repeat split; auto. lia. }
  destruct G as (j & c & t & A1 & A2 & A3). exists j, c, t. split; auto. split; auto. clear - Ek A3. lia.
Qed.

Lemma jac_value : forall w4, agree exc (A p) w4 ->
  exists w5 m, eqn_jacobian b e false false p w4 = (w5, Ok m) /\ agree exc (A p) w5 /\ length m = num_eqns b e
  /\ forall j, (j < num_eqns b e)%nat -> vector_grad Der (entry b e w j) p (nth j m []).
Proof.
  intros w4 Ag. destruct JE as (E & v & J1 & J2 & J3 & Tot).
  assert (Hr : forall sd, In sd (ref_sds (e_ref e)) -> P sd) by apply Rf.
  assert (Hps : forall sd, In sd (e_pspace e) -> P sd) by (apply Forall_forall; auto).
  assert (Aw : agree exc (A p) (with_energy e E w4)) by (eapply agree_trans; [exact Ag|apply with_energy_agree]).
  destruct (grad_runs exc A b p (e_cons e) fcs (with_energy e E w4) Gc Aw) as (ms & w5 & R5 & A5 & F2 & Hl & G).
  assert (Rn : exists w6 ms', constraints_ran b e (fun c => k_grad c p) (with_energy e E w4) ms' w6 /\ agree exc (A p) w6 /\ concat ms' = concat ms).
  { assert (X : constraints_ran b e (fun c => k_grad c p) (with_energy e E w4) ms (if Nat.eq_dec (cons_eqns b e) 0 then with_energy e E w4 else w5)).
    { split; auto. destruct (Nat.eq_dec (cons_eqns b e) 0) as [Z|Z]; auto. left. split; auto. lia. }
    eexists _, ms. split; [exact X|]. split; auto. destruct (Nat.eq_dec (cons_eqns b e) 0); auto. }
  destruct Rn as (w6 & ms' & Rn & A6 & Ems). destruct (part_ok _ b e _ _ _ _ Rn) as [Pc Lc]. rewrite Ems in Pc, Lc.
  set (rows := map (fun sd => vsub (vsub (dI y (o_sel o) (A p) sd) (vscale E (dO y (o_sel o) (A p) sd))) (vscale (EqnMain.O y (A p) sd) v)) (e_pspace e)).
  assert (Er : jac_rows y (o_sel o) (e_pspace e) E v (with_energy e E w4) = Ok rows).
  { rewrite (jac_rows_agree exc P y Ig _ _ E v (with_energy e E w4) (A p)); [|apply agree_sym; auto|auto].
    apply (jac_rows_ok Der C P e (A p) So fits_A). auto. }
  assert (Lr : length (rows ++ concat ms) = num_eqns b e) by (rewrite app_length, Lc; unfold rows; rewrite map_length; reflexivity).
  assert (Fb : forallb (fun r => Nat.eqb (length r) (length p)) (concat ms) = true).
  { apply forallb_forall. intros r I. apply in_concat in I. destruct I as (m & Im & Ir). apply Nat.eqb_eq.
    specialize (Hl m Im). rewrite Forall_forall in Hl. auto. }
  eexists w6, _. split.
  { unfold eqn_jacobian, when, done. unfold sbind at 1. unfold sbind at 1. unfold sbind at 1. unfold reading at 1.
    replace (Nat.eqb (length p) (active_nparams (o_sel (e_obj e)))) with true by (symmetry; apply Nat.eqb_eq; apply As).
    unfold sbind at 1. unfold reading at 1. rewrite (jac_energy_agree P e Ig Hr Ro w4 (A p) (agree_sym _ _ _ _ Ag)), J1.
    unfold sbind at 1. replace (store_energy e E w4) with (with_energy e E w4, Ok tt : res unit) by (unfold with_energy, store_energy; destruct (e_type e); reflexivity).
    unfold sbind at 1. unfold reading at 1. fold o y. rewrite Er. unfold sbind. rewrite Pc. unfold reading. rewrite Fb.
    rewrite weigh_ok by congruence. reflexivity. }
  split; auto. split; [rewrite map_length, combine_length; lia|].
  assert (Ent : forall q, length q = length p -> exists E' w4' v', energy_of e (A q) = Ok E' /\ eqn_objective b e true true q w = (w4', Ok v')
    /\ (forall j sd, nth_error (e_pspace e) j = Some sd -> nth j v' 0 = nth j (e_weights e) 0 * (okv (y_int y (A q) sd) - E' * okv (y_ov y (A q) sd)))
    /\ (forall j fc c t, nth_error (e_cons e) j = Some c -> nth_error fcs j = Some fc -> (t < k_num c b)%nat ->
        nth (cons_place b e j t) v' 0 = nth (cons_place b e j t) (e_weights e) 0 * nth t (fc q) 0)).
  { intros q Lq. destruct (obj_value q Lq) as (E' & w4' & v' & X1 & X2 & X3 & X4 & X5 & X6). exists E', w4', v'. auto. }
  intros j Hj. rewrite nth_weigh by congruence. destruct (place_split_row j Hj) as [Hn|(jc & c & t & Ec & Ht & ->)].
  - destruct (nth_error (e_pspace e) j) as [sd|] eqn:Ej; [|apply nth_error_None in Ej; unfold nproj in Hn; clear - Ej Hn; lia].
    assert (Hsd := Hps sd (nth_error_In _ _ Ej)).
    rewrite app_nth1 by (unfold rows; rewrite map_length; auto). unfold rows.
    erewrite (nth_error_nth (map _ (e_pspace e))) by (rewrite nth_error_map, Ej; reflexivity).
    eapply (vector_ext Der C); [|apply (C54_vector Der C o w p (A p) (residual_value e (nth j (e_weights e) 0) sd) _ As (proj1 (assign_A p eq_refl)))].
    + intros q Lq. cbv beta. destruct (Ent q Lq) as (E' & w4' & v' & X1 & X2 & X3 & _). unfold entry. rewrite X2. cbn [snd bind]. rewrite (X3 j sd Ej).
      unfold residual_value. fold A. change (fst (assign_step o q w)) with (A q). rewrite X1. cbn [bind].
      destruct (assign_A q Lq) as [_ Sq].
      destruct (proj1 (so_ov _ _ _ _ _ So sd Hsd) _ Sq) as [a Ea]. destruct (proj1 (so_int _ _ _ _ _ So sd Hsd) _ Sq) as [i Ei]. fold o y.
      rewrite Ei, Ea. reflexivity.
    + intros w1 w2 Ew. unfold residual_value. fold o y. assert (Aw' : agree exc w1 w2) by (intros c _; apply Ew).
      rewrite (energy_of_agree P e Ig Hr Ro w1 w2 Aw'). destruct (Ig w1 w2 sd Aw' Hsd) as (-> & -> & _). reflexivity.
    + apply (residual_grad Der C P e (A p) So fits_A Rf E v); auto.
  - destruct (G jc c t Ec Ht) as (fc & Ef & Gv).
    destruct (cons_entry _ b e ms jc c t [] F2 Ec Ht) as [Lj Nt].
    rewrite app_nth2 by (unfold rows, cons_place; rewrite map_length; unfold nproj; clear; lia).
    replace (cons_place b e jc t - length rows)%nat with (list_sum (map (fun c => k_num c b) (firstn jc (e_cons e))) + t)%nat
      by (unfold rows, cons_place; rewrite map_length; unfold nproj; clear; lia).
    rewrite Nt. set (wt := nth (cons_place b e jc t) (e_weights e) 0).
    apply (vector_ext Der C (fun q => Ok (wt * nth t (fc q) 0))).
    + intros q Lq. destruct (Ent q Lq) as (E' & w4' & v' & X1 & X2 & _ & X4). unfold entry. rewrite X2. cbn [snd bind]. rewrite (X4 jc fc c t Ec Ef Ht). reflexivity.
    + destruct Gv as [Lg Gv]. split; [rewrite vscale_length; auto|]. intros k Hk. cbn [okv]. rewrite vscale_nth.
      eapply der_eq; [eapply (cal_mul Der C (fun _ => wt)); [apply (cal_const Der C)|apply (Gv k Hk)]|]. cbv beta. ring.
Qed.
End Main.

(** The Jacobian, called the way the objective and the gradient of the least squares call it (after the objective, with
    assign=False), is the matrix of the derivatives of the objective with respect to the active parameters. *)
Theorem C56_jacobian : forall P b (e : eqns K) p w, let o := e_obj e in let A := fun q => fst (assign_step o q w) in
  assignable o w p -> (forall r w, o_normalize o r w = (w, Ok tt)) -> sound Der P (o_sys o) (o_sel o) (A p) ->
  Forall P (e_pspace e) -> ref_in P (A p) (e_ref e) -> ref_out (energy_store e) (e_ref e) -> ignores (energy_store e) P (o_sys o) ->
  energy_ok e (A p) -> Forall (good_cons Der (energy_store e) A b p) (e_cons e) -> length (e_weights e) = num_eqns b e ->
  exists w4 v, eqn_objective b e true true p w = (w4, Ok v) /\ length v = num_eqns b e
  /\ exists w5 m, eqn_jacobian b e false false p w4 = (w5, Ok m) /\ length m = num_eqns b e
  /\ forall j, (j < num_eqns b e)%nat -> vector_grad Der (entry b e w j) p (nth j m []).
Proof.
  intros P b e p w o A As Nm So Hp Rf Ro Ig Eo Gc Lw. destruct (Forall_exists _ _ (cons_fun (energy_store e) A b p) _ Gc) as [fcs Gf].
  destruct (obj_value P b e p w As Nm So Hp Rf Ro Ig Eo fcs Gf Lw p eq_refl) as (E & w4 & v & _ & Ev & Ag & Lv & _).
  exists w4, v. split; auto. split; auto.
  destruct (jac_value P b e p w As Nm So Hp Rf Ro Ig Eo fcs Gf Lw w4 Ag) as (w5 & m & Em & _ & Lm & G). eauto 10.
Qed.
End J.
