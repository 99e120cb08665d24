(** Lemmas for C69: the computation for several determinants at once. *)
From Coq Require Import List ZArith NArith Arith Bool Lia Permutation.
From Verif Require Import Py BitSpec BitLemmas Slater SlaterBits Alg CILemmas JacobiSpec WfnCI Rbm RbmSpec RbmLemmas RbmMain.
Import ListNotations.
Local Open Scope nat_scope.

Section V.
Context {K : CField}.
Local Open Scope cr_scope.
Add Ring K_ring119 : (rth K).
Variable ex : K -> K.
Variable s : nat.

Definition ent_eq (e2 : entries K) (e : entry K) : Prop :=
  fst (fst (fst e2)) = fst (fst (fst e)) /\ (forall t, snd (fst (fst e2)) t s = snd (fst (fst e)) t) /\ (forall j, snd (fst e2) j s = snd (fst e) j) /\ snd e2 = snd e.
Lemma deep_col : forall B Ws es2 out2 es out, Forall2 ent_eq es2 es -> (forall j, out2 j s = out j) ->
  Forall2 ent_eq (fst (fold_left (rb_deep_step2 ex B) Ws (es2, out2))) (fst (fold_left (rb_deep_step ex B) Ws (es, out))) /\
  forall j, snd (fold_left (rb_deep_step2 ex B) Ws (es2, out2)) j s = snd (fold_left (rb_deep_step ex B) Ws (es, out)) j.
Proof.
  intros B. induction Ws as [|W Ws IH]; intros es2 out2 es out H1 H2; [split; assumption|]. cbn [fold_left].
  assert (L : forall j, sumf (fun k => nth (j * B + k) W 0 * out2 k s) (seq 0 B) = rb_contract W B out j) by (intros j; unfold rb_contract; apply sumf_ext; intros k _; now rewrite H2).
  apply IH.
  - apply Forall2_app; auto. constructor; [|constructor]. repeat split; auto.
  - intros j. cbn. now rewrite L.
Qed.
Definition grad_eq (g2 : grad4 K) (g : grad3 K) : Prop := fst g2 = fst g /\ forall y z t, snd g2 y z t s = snd g y z t.
Lemma back_col : forall B m sc es2 es a dy2 dy gs2 gs, Forall2 ent_eq es2 es -> (forall y k, dy2 y k s = dy y k) -> Forall2 grad_eq gs2 gs ->
  (forall y k, fst (fold_right (fun x st => rb_back_step2 ex B m sc st x) (dy2, gs2) (combine (seq a (length es2)) es2)) y k s = fst (fold_right (fun x st => rb_back_step ex B m sc st x) (dy, gs) (combine (seq a (length es)) es)) y k) /\
  Forall2 grad_eq (snd (fold_right (fun x st => rb_back_step2 ex B m sc st x) (dy2, gs2) (combine (seq a (length es2)) es2))) (snd (fold_right (fun x st => rb_back_step ex B m sc st x) (dy, gs) (combine (seq a (length es)) es))).
Proof.
  intros B m sc es2 es a dy2 dy gs2 gs H Hd Hg. revert a. induction H as [|e2 e es2 es He H IH]; intros a; [split; assumption|]. cbn [length seq combine fold_right]. destruct (IH (S a)) as (I1 & I2). clear IH.
  set (r2 := fold_right _ (dy2, gs2) _) in *. set (r := fold_right _ (dy, gs) _) in *. destruct e2 as [[[wd2 a2] lin2] W2], e as [[[wd a1] lin] W]. destruct He as (E1 & E2 & E3 & E4). cbn in E1, E2, E3, E4. subst wd2 W2.
  unfold rb_back_step2, rb_back_step. destruct r2 as [d2 g2], r as [d g]. cbn [fst snd] in *. split.
  - intros y k. destruct (Nat.leb m a); [|apply I1]. apply sumf_ext. intros z _. now rewrite I1, E3.
  - apply Forall2_app; [exact I2|]. constructor; [|constructor]. split; [reflexivity|]. intros y z t. cbn. now rewrite I1, E2, E3.
Qed.
Lemma collect_col : forall B (other2 : nat -> nat -> K) (other : nat -> K) g2 g, grad_eq g2 g -> (forall y, other2 y s = other y) -> rb_collect2 B other2 g2 s = rb_collect B g (fun y _ => other y).
Proof.
  intros B other2 other g2 g (E1 & E2) Ho. unfold rb_collect2, rb_collect. rewrite E1. apply flat_map_ext. intros z. apply map_ext. intros t. apply sumf_ext. intros y _. now rewrite Ho, E2.
Qed.
Lemma collect_cols : forall B (other2 : nat -> nat -> K) (other : nat -> K) gs2 gs, Forall2 grad_eq gs2 gs -> (forall y, other2 y s = other y) ->
  flat_map (fun g => rb_collect2 B other2 g s) gs2 = flat_map (fun g => rb_collect B g (fun y _ => other y)) gs.
Proof. intros B other2 other gs2 gs H Ho. induction H as [|g2 g gs2 gs Hg H IH]; [reflexivity|]. cbn. rewrite IH. f_equal. now apply collect_col. Qed.
Lemma Forall2_rev : forall {A C} (R : A -> C -> Prop) a b, Forall2 R a b -> Forall2 R (rev a) (rev b).
Proof. intros A C R a b H. induction H; [constructor|]. cbn. apply Forall2_app; auto. Qed.
End V.

(** the loop over the orders *)
Section F.
Context {K : CField}.
Local Open Scope cr_scope.
Definition first2 (n : nat) (occ : list (list bool)) (zs : list (nat * list K)) : list ((nat * (nat -> nat -> K)) * list K) :=
  map (fun ol => (((n ^ fst ol)%nat, fun p s => rb_input (nth s (map (fun o => Nat.iter (fst ol - 1) (rb_outer2 o) o) occ) []) p), snd ol)) zs.
Lemma first_ok : forall n occ (zs : list (nat * list K)), (forall a x b, zs = a ++ x :: b -> (0 < fst x)%nat /\ (b <> [] -> fst x = 1%nat)) -> rb_first_loop n occ 0 zs = Ok (first2 n occ zs).
Proof.
  intros n occ. induction zs as [|[o lay] zs IH]; intros H; [reflexivity|]. cbn [rb_first_loop]. destruct (H [] (o, lay) zs eq_refl) as (H1 & H2). cbn [fst] in H1, H2.
  destruct (Nat.ltb_spec (o + 1) (2 + 0 + (o - 1))); [lia|]. destruct zs as [|x zs]; [reflexivity|]. rewrite (H2 ltac:(discriminate)) at 1. cbn [plus minus]. change (1 - 1)%nat with 0%nat. rewrite IH; [reflexivity|].
  intros a y b E. apply (H ((o, lay) :: a) y b). cbn. now rewrite E.
Qed.
Lemma first_extra : forall n occ e (zs : list (nat * list K)), zs <> [] -> (0 < e)%nat -> rb_first_loop n occ e zs = Err IndexError.
Proof. intros n occ e [|[o lay] zs] H He; [congruence|]. cbn [rb_first_loop]. destruct (Nat.ltb_spec (o + 1) (2 + e + (o - 1))); [reflexivity|lia]. Qed.
Lemma first_err : forall n occ a x b (zs : list (nat * list K)), zs = a ++ x :: b -> b <> [] -> (1 < fst x)%nat -> rb_first_loop n occ 0 zs = Err IndexError.
Proof.
  intros n occ. induction a as [|[o lay] a IH]; intros x b zs -> Hb Hx.
  - destruct x as [o lay]. cbn [fst] in Hx. cbn [app rb_first_loop]. destruct (Nat.ltb_spec (o + 1) (2 + 0 + (o - 1))); [reflexivity|]. rewrite first_extra by (auto; lia). reflexivity.
  - cbn [app rb_first_loop]. destruct (Nat.ltb_spec (o + 1) (2 + 0 + (o - 1))); [reflexivity|]. destruct (Nat.eq_dec (0 + (o - 1)) 0) as [->|N]; [rewrite (IH x b _ eq_refl Hb Hx); reflexivity|]. rewrite first_extra; [reflexivity|now destruct a|lia].
Qed.
End F.

Section W.
Context {K : CField}.
Local Open Scope cr_scope.
Add Ring K_ring120 : (rth K).
Variable ex : K -> K.
Lemma mapM_masks : forall n sds, (forall sd, In sd sds -> sd <> 0%N /\ within n sd) -> mapM (rb_mask n) (map (fun sd => occ_indices (Some sd)) sds) = Ok (map (fun sd => map (bit sd) (seq 0 n)) sds).
Proof.
  intros n. induction sds as [|sd sds IH]; intros H; [reflexivity|]. cbn [map mapM]. destruct (H sd (or_introl eq_refl)). rewrite mask_ok by auto. cbn [bind]. rewrite IH by (intros; apply H; now right). reflexivity.
Qed.
(** the columns of the arrays are those computed for the single determinants *)
Lemma helper2_ok : forall (w : rbm K) sds, shaped w -> (forall sd, In sd sds -> sd <> 0%N /\ within (rb_n w) sd) ->
  (forall a b, In a sds -> In b sds -> length (occ_indices (Some a)) = length (occ_indices (Some b))) ->
  (forall a o b, rb_orders w = a ++ o :: b -> b <> [] -> o = 1%nat) ->
  exists r2, rb_helper2 ex w sds = Ok r2 /\ forall s sd, nth_error sds s = Some sd -> exists r, rb_helper ex w sd = Ok r /\ Forall2 (ent_eq s) (fst r2) (fst r) /\ forall j, snd r2 j s = snd r j.
Proof.
  intros w sds H Hv He Ho. unfold rb_helper2, rb_rows.
  assert (Ef : forallb (fun r : list nat => Nat.eqb (length r) (length (hd [] (map (fun sd => occ_indices (Some sd)) sds)))) (map (fun sd => occ_indices (Some sd)) sds) = true).
  { apply forallb_forall. intros r Hr. apply in_map_iff in Hr as (sd & <- & Hr). apply Nat.eqb_eq. destruct sds as [|a sds]; [destruct Hr|]. cbn [map hd]. apply He; auto. now left. }
  rewrite Ef. cbn [bind]. rewrite mapM_masks by auto. cbn [bind]. fold (zipped w).
  rewrite first_ok.
  2:{ intros a [o lay] b E. assert (X : rb_orders w = map fst a ++ o :: map fst b). { assert (Z : rb_orders w = map fst (zipped w)); [|rewrite Z, E, map_app; reflexivity]. unfold zipped. rewrite combine_firstn_r. assert (L : length (firstn (length (rb_orders w)) (rb_params w)) = length (rb_orders w)) by (rewrite firstn_length, (shaped_length w H); lia).
        generalize (rb_orders w) (firstn (length (rb_orders w)) (rb_params w)) L. clear. induction l as [|o l IH]; intros [|y r] L; cbn in L; try discriminate; [reflexivity|]. cbn. f_equal. apply IH. lia. }
      cbn [fst]. split.
      - apply (proj1 (proj2 H)). rewrite X. apply in_or_app. right. now left.
      - intros Hb. apply (Ho (map fst a) o (map fst b) X). destruct b; [congruence|discriminate]. }
  cbn [bind]. eexists. split; [reflexivity|]. intros s sd Hs. assert (I : In sd sds) by (eapply nth_error_In; eauto). destruct (Hv sd I) as (V1 & V2). eexists. split; [apply helper_ok; auto|].
  rewrite <- deep_fold. fold (deeper w).
  assert (Ein : forall o p, (0 < o)%nat -> rb_input (K := K) (nth s (map (fun m => Nat.iter (o - 1) (rb_outer2 m) m) (map (fun sd => map (bit sd) (seq 0 (rb_n w))) sds)) []) p = xin w sd o p).
  { intros o p Hp. unfold xin, rb_power. f_equal. rewrite map_map. erewrite (nth_error_nth _ _ []); [|apply map_nth_error; exact Hs]. generalize (o - 1)%nat as k. induction k as [|k IH]; [reflexivity|]. cbn [Nat.iter]. cbn. rewrite outer2_same. f_equal. exact IH. }
  assert (Pz : forall ol, In ol (zipped w) -> (0 < fst ol)%nat) by (intros [o lay] Hol; apply in_combine_l in Hol; now apply (proj1 (proj2 H))).
  assert (El : forall j, psum (fun xl : (nat * (nat -> nat -> K)) * list K => sumf (fun p => nth (j * fst (fst xl) + p) (snd xl) 0 * snd (fst xl) p s) (seq 0 (fst (fst xl)))) (first2 (rb_n w) (map (fun sd => map (bit sd) (seq 0 (rb_n w))) sds) (zipped w)) = flin w sd (zipped w) j).
  { intros j. rewrite flin_sum, psum_sumf. unfold first2. rewrite sumf_map. apply sumf_ext. intros ol Hol. cbn [fst snd]. unfold rb_contract. apply sumf_ext. intros p _. now rewrite Ein by auto. }
  apply deep_col.
  - match goal with |- Forall2 _ (map (fun xl => (fst xl, ?L, snd xl)) _) _ => set (L2 := L) end.
    assert (El2 : forall j, L2 j s = flin w sd (zipped w) j) by exact El. clearbody L2. unfold first2, fents, pairs_of. rewrite !map_map.
    assert (G : forall zs, incl zs (zipped w) -> Forall2 (ent_eq s)
       (map (fun ol : nat * list K => (((rb_n w ^ fst ol)%nat, fun p s0 => rb_input (K := K) (nth s0 (map (fun o => Nat.iter (fst ol - 1) (rb_outer2 o) o) (map (fun sd0 => map (bit sd0) (seq 0 (rb_n w))) sds)) []) p), L2, snd ol)) zs)
       (map (fun ol : nat * list K => (((rb_n w ^ fst ol)%nat, xin w sd (fst ol)), flin w sd (zipped w), snd ol)) zs)); [|apply G; apply incl_refl].
    induction zs as [|ol zs IH]; intros Hi; [constructor|]. constructor; [|apply IH; intros x Hx; apply Hi; now right]. repeat split; cbn [fst snd]; auto. intros t. apply Ein. apply Pz. apply Hi. now left.
  - intros j. unfold v0. f_equal. apply El.
Qed.
End W.
