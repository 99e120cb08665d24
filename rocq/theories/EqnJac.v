(** Rows of the Jacobian of the projected equations. *)
From Coq Require Import List ZArith NArith Arith Bool Lia Ring.
From Verif Require Import Py Slater BitSpec BitLemmas Alg BicliqueLemmas ParamSel ParamSelSpec ParamSelLemmas P_ParamSel EqnBase EqnSpec EqnLemmas EqnMain EqnObj EqnObjSpec P_Eqn.
Import ListNotations.

Section J.
Context {K : CField}.
Local Open Scope cr_scope.
Add Ring K_ring71 : (rth K).
Variable Der : (K -> K) -> K -> K -> Prop.
Hypothesis C : calculus Der.
Variable P : N -> Prop.
Variable e : eqns K.
Let y := o_sys (e_obj e).
Let s := o_sel (e_obj e).
Let r := e_ref e.
Variable w : world K.
Hypothesis S : sound Der P y s w.
Hypothesis F : fits_sel (fun c => length (w c)) s.
Hypothesis Rf : ref_in P w r.

(** what the energy is, and that its derivative is right *)
Definition energy_cond : Prop :=
  match e_type e with
  | Compute => exists nrm, one_norm y w r = Ok nrm /\ nrm <> 0
  | Variable_ => length (w (e_comp e)) = 1%nat /\ In (e_comp e, [0%nat]) s
  | Fixed => length (w (e_comp e)) = 1%nat /\ get_item s (KComp (e_comp e)) = []
  end.
Hypothesis Ec : energy_cond.

Lemma jac_energy_ok : exists E v, jac_energy e w = Ok (E, v) /\ energy_of e w = Ok E /\ is_grad Der w s (energy_of e) v
  /\ (forall w', same_shape w w' -> exists E', energy_of e w' = Ok E').
Proof.
  destruct (ref_ok Der C P y s w S F r Rf) as (cf & dcf & R1 & R2 & R3 & R4).
  set (n := length (ref_sds r)) in *. set (J := seq 0 n). set (sdj := fun j => nth j (ref_sds r) 0%N).
  assert (Pj : forall j, In j J -> (j < n)%nat /\ P (sdj j)).
  { intros j I. apply in_seq in I. split; [lia|]. apply (proj1 Rf), nth_In. fold n. lia. }
  assert (Ov : forall w', same_shape w w' -> mapM (wrapped_ov y w') (ref_sds r) = Ok (map (fun j => EqnMain.O y w' (sdj j)) J)).
  { intros w' W. rewrite (ov_list Der P y s w S); auto; [|apply Rf]. f_equal. apply map_seq_nth. }
  assert (Iv : forall w', same_shape w w' -> mapM (wrapped_int y w') (ref_sds r) = Ok (map (fun j => I_ y w' (sdj j)) J)).
  { intros w' W. rewrite (int_list Der P y s w S); auto; [|apply Rf]. f_equal. apply map_seq_nth. }
  assert (Dov : mapM (wrapped_dov y s w) (ref_sds r) = Ok (map (fun j => dO y s w (sdj j)) J)).
  { rewrite (dov_list Der C P y s w S F) by apply Rf. f_equal. apply map_seq_nth. }
  assert (Div : mapM (wrapped_dint y s w) (ref_sds r) = Ok (map (fun j => dI y s w (sdj j)) J)).
  { rewrite (dint_list Der C P y s w S F) by apply Rf. f_equal. apply map_seq_nth. }
  set (m := active_nparams s).
  destruct (dot_rows_maps nat m (fun j => EqnMain.O y w (sdj j)) dcf J) as (dn1 & D1 & L1 & V1); [intros j I; apply R3, Pj; auto|].
  destruct (dot_rows_maps nat m (cf w) (fun j => dO y s w (sdj j)) J) as (dn2 & D2 & L2 & V2); [intros j I; apply (dO_length Der C P y s w S F), Pj; auto|].
  destruct (dot_rows_maps nat m (fun j => I_ y w (sdj j)) dcf J) as (de1 & D3 & L3 & V3); [intros j I; apply R3, Pj; auto|].
  destruct (dot_rows_maps nat m (cf w) (fun j => dI y s w (sdj j)) J) as (de2 & D4 & L4 & V4); [intros j I; apply (dI_length Der C P y s w S F), Pj; auto|].
  set (Nf := fun w' => sumf (fun j => cf w' j * EqnMain.O y w' (sdj j)) J).
  set (Ef := fun w' => sumf (fun j => cf w' j * I_ y w' (sdj j)) J).
  assert (Val : forall w', same_shape w w' -> one_energy y w' r = Ok (Ef w' * finv (Nf w'))).
  { intros w' W. unfold one_energy. rewrite R1, Ov, Iv by auto. cbn [bind]. fold J. rewrite !dot_maps. reflexivity. }
  assert (Base : jac_energy e w = match e_type e with
    | Compute => Ok (Ef w * finv (Nf w), vscale (finv (Nf w)) (vsub (vadd de1 de2) (vscale (Ef w * finv (Nf w)) (vadd dn1 dn2))))
    | _ => match w (e_comp e) with
           | [x] => match get_item s (KComp (e_comp e)) with
                    | [] => Ok (x, zeros m)
                    | _ => do v <- put_block (zeros m) (get_item (objective_inds s) (KComp (e_comp e))) [1]; Ok (x, v)
                    end
           | _ => Err ValueError end end).
  { unfold jac_energy. fold y s r m. rewrite R1 by apply same_refl. cbn [bind]. rewrite R2. cbn [bind]. rewrite Ov by apply same_refl. cbn [bind].
    rewrite Dov. cbn [bind]. fold J. rewrite D1. cbn [bind]. rewrite D2. cbn [bind]. destruct (e_type e); try reflexivity.
    rewrite !dot_maps. cbn [bind]. rewrite Iv by apply same_refl. cbn [bind]. rewrite Div. cbn [bind]. rewrite !dot_maps. cbn [bind].
    rewrite D3. cbn [bind]. rewrite D4. cbn [bind]. reflexivity. }
  unfold energy_cond in Ec. destruct (e_type e) eqn:Et.
  - (* fixed *)
    destruct Ec as [L G]. destruct (w (e_comp e)) as [|x [|x' t]] eqn:Ew; try discriminate. rewrite G in Base.
    exists x, (zeros m). split; auto. assert (Ee : forall w', energy_of e w' = match w' (e_comp e) with [x] => Ok x | _ => Err ValueError end) by (intros; unfold energy_of; rewrite Et; reflexivity).
    split; [rewrite Ee, Ew; reflexivity|]. split.
    + split; [unfold zeros; apply repeat_length|]. intros k c i Pl. rewrite nth_zeros.
      apply der_constant; auto. intros i' x'. rewrite !Ee. unfold moved, set_world. destruct (Nat.eqb_spec (e_comp e) c) as [<-|]; [|reflexivity].
      exfalso. destruct (place_In _ _ _ _ Pl) as (l & I & Il). cbn [get_item] in G. rewrite (find_In s _ l (proj1 F) I) in G. subst l. contradiction.
    + intros w' W. rewrite Ee. assert (X := W (e_comp e)). rewrite Ew in X. destruct (w' (e_comp e)) as [|z [|]]; try discriminate. eauto.
  - (* variable *)
    destruct Ec as [L G]. destruct (w (e_comp e)) as [|x [|x' t]] eqn:Ew; try discriminate.
    assert (Ee : forall w', energy_of e w' = match w' (e_comp e) with [x] => Ok x | _ => Err ValueError end) by (intros; unfold energy_of; rewrite Et; reflexivity).
    destruct (proj2 (proj2 (C52_slices s)) (proj1 F) _ _ G) as (k0 & Eo & Pk). assert (P0 := Pk 0%nat 0%nat eq_refl). rewrite Nat.add_0_r in P0.
    assert (B0 := place_bound _ _ _ _ P0). fold m in B0.
    cbn [get_item] in Base. rewrite (find_In s _ _ (proj1 F) G), Eo in Base. cbn [length seq] in Base. unfold put_block in Base. cbn [length Nat.eqb] in Base.
    unfold scatter in Base. cbn [forallb combine fold_left fst snd] in Base. unfold zeros in Base at 1. rewrite repeat_length, (proj2 (Nat.ltb_lt _ _) B0) in Base. cbn [andb bind] in Base.
    exists x, (upd (zeros m) k0 1). split; auto. split; [rewrite Ee, Ew; reflexivity|]. split.
    + split; [rewrite upd_length; unfold zeros; apply repeat_length|]. intros k c i Pl.
      destruct (Nat.eq_dec k k0) as [->|Dk].
      * destruct (place_unique _ _ _ _ P0 _ _ Pl) as [<- <-]. rewrite nth_upd_eq by (unfold zeros; rewrite repeat_length; auto).
        apply (cal_ext Der C (fun x => x)); [|apply (cal_id Der C)]. intros z. rewrite Ee. unfold moved, set_world. rewrite Nat.eqb_refl, Ew. reflexivity.
      * rewrite nth_upd_neq by auto. rewrite nth_zeros. apply der_constant; auto. intros i' x'. rewrite !Ee. unfold moved, set_world.
        destruct (Nat.eqb_spec (e_comp e) c) as [<-|]; [|reflexivity]. exfalso. apply Dk.
        destruct (place_In _ _ _ _ Pl) as (l & I & Il). assert (l = [0%nat]).
        { assert (E1 := find_In s _ l (proj1 F) I). assert (E2 := find_In s _ _ (proj1 F) G). congruence. }
        subst l. destruct Il as [<-|[]]. apply (place_inj _ _ _ _ _ _ F Pl P0).
    + intros w' W. rewrite Ee. assert (X := W (e_comp e)). rewrite Ew in X. destruct (w' (e_comp e)) as [|z [|]]; try discriminate. eauto.
  - (* compute *)
    destruct Ec as (nrm & En & Nz).
    assert (Ee : forall w', energy_of e w' = one_energy y w' r) by (intros; unfold energy_of; rewrite Et; reflexivity).
    destruct (C55_one Der C P y s w r nrm S F Rf En Nz) as (v & Ev & G).
    exists (Ef w * finv (Nf w)), v. split.
    + rewrite Base. do 2 f_equal.
      assert (X : Ok v = Ok (vsub (vadd (vscale (finv (Nf w)) de1) (vscale (finv (Nf w)) de2)) (vscale (finv (Nf w)) (vscale (Ef w * finv (Nf w)) (vadd dn1 dn2))))).
      { rewrite <- Ev. unfold one_energy_deriv. rewrite R1 by apply same_refl. cbn [bind]. rewrite R2. cbn [bind]. rewrite Ov by apply same_refl. cbn [bind].
        rewrite Iv by apply same_refl. cbn [bind]. fold J m. rewrite !dot_maps. cbn [bind]. rewrite D1. cbn [bind]. rewrite Dov. cbn [bind].
        rewrite D2. cbn [bind]. rewrite D3. cbn [bind]. rewrite Div. cbn [bind]. rewrite D4. cbn [bind]. fold (Nf w) (Ef w). reflexivity. }
      apply Ok_inj in X. rewrite X.
      assert (LA : length (vadd dn1 dn2) = m) by (apply vadd_length; auto).
      assert (LB : length (vadd de1 de2) = m) by (apply vadd_length; auto).
      assert (LC : length (vadd (vscale (finv (Nf w)) de1) (vscale (finv (Nf w)) de2)) = m) by (apply vadd_length; rewrite vscale_length; auto).
      apply nth_ext with (d := 0) (d' := 0).
      * rewrite vscale_length, (vsub_length _ _ m), (vsub_length _ _ m); auto; rewrite ?vscale_length; auto.
      * intros k _. rewrite vscale_nth. rewrite !vsub_nth by (rewrite ?LB, ?LC, ?vscale_length; auto). rewrite !vadd_nth by (rewrite ?vscale_length; lia).
        rewrite !vscale_nth. rewrite vadd_nth by lia. ring.
    + split; [rewrite Ee; apply Val, same_refl|]. split.
      * destruct G as [Lg G]. split; auto. intros k c i Pl. apply (cal_ext Der C (fun x => okv (one_energy y (moved w c i x) r))); [|apply G; auto].
        intros x. rewrite Ee. reflexivity.
      * intros w' W. rewrite Ee, Val by auto. eauto.
Qed.

Definition residual_value (wt : K) (sd : N) (w' : world K) : res K :=
  do E <- energy_of e w'; do i <- y_int y w' sd; do o <- y_ov y w' sd; Ok (wt * (i - E * o)).

Lemma energy_at : forall k c i E, place s k c i -> energy_of e w = Ok E -> energy_of e (moved w c i (nth i (w c) 0)) = Ok E.
Proof.
  intros k c i E Pl H. assert (M : forall d, moved w c i (nth i (w c) 0) d = w d) by (apply moved_same; eapply place_range; eauto).
  unfold energy_of in *. destruct (e_type e); try (rewrite M; exact H). rewrite <- H.
  apply (one_energy_ext P); auto; [|apply Rf]. apply (sound_values Der P _ _ _ S).
Qed.

Lemma residual_grad : forall E v wt sd, P sd -> energy_of e w = Ok E -> is_grad Der w s (energy_of e) v ->
  (forall w', same_shape w w' -> exists E', energy_of e w' = Ok E') ->
  is_grad Der w s (residual_value wt sd)
    (vscale wt (vsub (vsub (dI y s w sd) (vscale E (dO y s w sd))) (vscale (EqnMain.O y w sd) v))).
Proof.
  intros E v wt sd Hp HE [Lv G] Tot.
  assert (LI := dI_length Der C P y s w S F sd Hp). assert (LO := dO_length Der C P y s w S F sd Hp).
  assert (L1 : length (vsub (dI y s w sd) (vscale E (dO y s w sd))) = active_nparams s) by (apply vsub_length; rewrite ?vscale_length; auto).
  split; [rewrite vscale_length; apply vsub_length; rewrite ?vscale_length; auto|].
  intros k c i Pl. rewrite vscale_nth. rewrite vsub_nth by (rewrite L1, vscale_length; auto). rewrite vsub_nth by (rewrite vscale_length; congruence). rewrite !vscale_nth.
  apply (cal_ext Der C (fun x => wt * (I_ y (moved w c i x) sd + - (1) * (okv (energy_of e (moved w c i x)) * EqnMain.O y (moved w c i x) sd)))).
  { intros x. unfold residual_value. destruct (Tot _ (moved_shape w c i x)) as [E' EE]. rewrite EE. cbn [bind].
    destruct (proj1 (so_int _ _ _ _ _ S sd Hp) _ (moved_shape w c i x)) as [a Ea]. destruct (proj1 (so_ov _ _ _ _ _ S sd Hp) _ (moved_shape w c i x)) as [b Eb].
    unfold I_, EqnMain.O. rewrite Ea, Eb. cbn [bind okv]. ring. }
  eapply der_eq.
  - eapply (cal_mul Der C (fun _ => wt)); [apply (cal_const Der C)|].
    apply (cal_add Der C (fun x => I_ y (moved w c i x) sd) (fun x => - (1) * (okv (energy_of e (moved w c i x)) * EqnMain.O y (moved w c i x) sd))).
    + apply (dI_der Der C P y s w S F sd k c i Hp Pl).
    + eapply (cal_mul Der C (fun _ => - (1)) (fun x => okv (energy_of e (moved w c i x)) * EqnMain.O y (moved w c i x) sd)); [apply (cal_const Der C)|].
      apply (cal_mul Der C (fun x => okv (energy_of e (moved w c i x))) (fun x => EqnMain.O y (moved w c i x) sd)); [apply (G k c i Pl)|apply (dO_der Der C P y s w S F sd k c i Hp Pl)].
  - cbv beta. rewrite (energy_at k c i E Pl HE), (O_at Der P y s w S F sd k c i), (I_at Der P y s w S F sd k c i); auto. cbn [okv]. ring.
Qed.

Lemma jac_rows_ok : forall E v ps, (forall sd, In sd ps -> P sd) ->
  jac_rows y s ps E v w = Ok (map (fun sd => vsub (vsub (dI y s w sd) (vscale E (dO y s w sd))) (vscale (EqnMain.O y w sd) v)) ps).
Proof.
  intros E v ps Hp. unfold jac_rows. rewrite (dint_list Der C P y s w S F), (dov_list Der C P y s w S F), (ov_list Der P y s w S) by (auto using same_refl).
  cbn [bind]. rewrite !combine_maps, map_map. reflexivity.
Qed.
Lemma residuals_ok : forall E ps w', (forall sd, In sd ps -> P sd) -> same_shape w w' ->
  residuals y ps E w' = Ok (map (fun sd => I_ y w' sd - E * EqnMain.O y w' sd) ps).
Proof.
  intros E ps w' Hp W. unfold residuals. rewrite (int_list Der P y s w S), (ov_list Der P y s w S) by auto. cbn [bind].
  f_equal. unfold vsub, vscale. rewrite map_map, combine_maps, map_map. reflexivity.
Qed.
End J.
