(** Gradients of overlaps, integrals and energies with respect to the active parameters. *)
From Coq Require Import List ZArith NArith Arith Bool Lia Ring.
From Verif Require Import Py Slater BitSpec BitLemmas Alg BicliqueLemmas ParamSel ParamSelSpec ParamSelLemmas P_ParamSel EqnBase EqnSpec EqnLemmas.
Import ListNotations.

Lemma map_seq_nth : forall A B (f : A -> B) l d, map f l = map (fun j => f (nth j l d)) (seq 0 (length l)).
Proof.
  intros A B f l d. induction l as [|a l IH]; [reflexivity|]. cbn [length seq map]. f_equal.
  rewrite <- seq_shift, map_map. simpl. rewrite <- IH. reflexivity.
Qed.
Lemma map_seq_id : forall A (l : list A) d, l = map (fun j => nth j l d) (seq 0 (length l)).
Proof. intros A l d. rewrite <- (map_seq_nth A A (fun x => x) l d). symmetry. apply map_id. Qed.

Section M.
Context {K : CField}.
Local Open Scope cr_scope.
Add Ring K_ring68 : (rth K).
Variable Der : (K -> K) -> K -> K -> Prop.
Hypothesis C : calculus Der.

Lemma grad_blocks : forall (w : world K) s f b, fit s b ->
  (forall c l j i, In (c, l) s -> nth_error l j = Some i -> Der (fun x => okv (f (moved w c i x))) (nth i (w c) 0) (nth j (b c l) 0)) ->
  is_grad Der w s f (blocks s b).
Proof.
  intros w s f b F H. split; [apply blocks_length; auto|]. intros k c i P.
  destruct (place_blocks (K := K) s k c i P) as (l & j & I & E & B). rewrite B by auto. eauto.
Qed.

Lemma der_constant : forall (w : world K) (f : world K -> res K) c i x0, constant_in w f c -> Der (fun x => okv (f (moved w c i x))) x0 0.
Proof.
  intros w f c i x0 H. apply (cal_ext Der C (fun _ => okv (f w))); [intros x; rewrite H; reflexivity|apply (cal_const Der C)].
Qed.

Lemma grad_at : forall (w : world K) s f v, is_grad Der w s f v -> length v = active_nparams s.
Proof. intros w s f v [H _]. auto. Qed.

Section Sys.
Variable P : N -> Prop.
Variable y : sys K.
Variable s : sel.
Variable w : world K.
Hypothesis S : sound Der P y s w.
Hypothesis F : fits_sel (fun c => length (w c)) s.

Definition dov_blocks (sd : N) := given (y_dov y w sd) (targets y) (zero_blocks (K := K)).
Definition dint_blocks (sd : N) := given (fun _ => y_hint y w sd) [y_ham y] (given (y_dint y w sd) (targets y) (zero_blocks (K := K))).
Definition dss_blocks (a b : N) := given (fun _ => y_dss y w a b) [y_ham y] (zero_blocks (K := K)).

Lemma dov_ok : forall sd, P sd -> wrapped_dov y s w sd = Ok (blocks s (dov_blocks sd))
  /\ is_grad Der w s (fun w => wrapped_ov y w sd) (blocks s (dov_blocks sd)).
Proof.
  intros sd Hs. unfold wrapped_dov. rewrite <- zeros_blocks.
  destruct (put_wfn_given y s (y_dov y w sd) zero_blocks (proj1 F) (fit_zero s)) as [E Ft].
  - intros c l I J N. destruct (so_dov _ _ _ _ _ S sd Hs c I l J N) as (g & E & L & _). eauto.
  - split; auto. apply grad_blocks; auto. intros c l j i J E'. unfold dov_blocks, given.
    destruct (in_dec Nat.eq_dec c (targets y)) as [I|I].
    + destruct l as [|i0 l']; [destruct j; discriminate|].
      destruct (so_dov _ _ _ _ _ S sd Hs c I (i0 :: l') J ltac:(discriminate)) as (g & Eg & L & D). rewrite Eg. apply (D j i E').
    + unfold zero_blocks. rewrite nth_zeros. apply (der_constant w (fun w => wrapped_ov y w sd)). apply (so_ov_other _ _ _ _ _ S sd Hs); auto.
Qed.

Lemma dint_ok : forall sd, P sd -> wrapped_dint y s w sd = Ok (blocks s (dint_blocks sd))
  /\ is_grad Der w s (fun w => wrapped_int y w sd) (blocks s (dint_blocks sd)).
Proof.
  intros sd Hs. unfold wrapped_dint. rewrite <- zeros_blocks.
  destruct (put_wfn_given y s (y_dint y w sd) zero_blocks (proj1 F) (fit_zero s)) as [E Ft].
  - intros c l I J N. destruct (so_dint _ _ _ _ _ S sd Hs c I l J N) as (g & E & L & _). eauto.
  - rewrite E. cbn [bind].
    destruct (put_one_given s (y_ham y) (fun _ => y_hint y w sd) (given (y_dint y w sd) (targets y) zero_blocks) (proj1 F) Ft) as [E2 F2].
    + intros l J N. destruct (so_hint _ _ _ _ _ S sd Hs l J N) as (g & Eg & L & _). eauto.
    + split; auto. apply grad_blocks; auto. intros c l j i J E'. unfold dint_blocks, given at 1.
      destruct (in_dec Nat.eq_dec c [y_ham y]) as [I|I].
      * destruct I as [<-|[]]. destruct l as [|i0 l']; [destruct j; discriminate|].
        destruct (so_hint _ _ _ _ _ S sd Hs (i0 :: l') J ltac:(discriminate)) as (g & Eg & L & D). rewrite Eg. apply (D j i E').
      * unfold given. destruct (in_dec Nat.eq_dec c (targets y)) as [I'|I'].
        -- destruct l as [|i0 l']; [destruct j; discriminate|].
           destruct (so_dint _ _ _ _ _ S sd Hs c I' (i0 :: l') J ltac:(discriminate)) as (g & Eg & L & D). rewrite Eg. apply (D j i E').
        -- unfold zero_blocks. rewrite nth_zeros. apply (der_constant w (fun w => wrapped_int y w sd)). apply (so_int_other _ _ _ _ _ S sd Hs); auto.
           intros ->. apply I. left; auto.
Qed.

Lemma dss_ok : forall a b, P a -> P b -> wrapped_dss y s w a b = Ok (blocks s (dss_blocks a b))
  /\ is_grad Der w s (fun w => wrapped_ss y w a b) (blocks s (dss_blocks a b)).
Proof.
  intros a b Ha Hb. unfold wrapped_dss. rewrite <- zeros_blocks.
  destruct (put_one_given s (y_ham y) (fun _ => y_dss y w a b) zero_blocks (proj1 F) (fit_zero s)) as [E2 F2].
  - intros l J N. destruct (so_dss _ _ _ _ _ S a b Ha Hb l J N) as (g & Eg & L & _). eauto.
  - split; auto. apply grad_blocks; auto. intros c l j i J E'. unfold dss_blocks, given.
    destruct (in_dec Nat.eq_dec c [y_ham y]) as [I|I].
    + destruct I as [<-|[]]. destruct l as [|i0 l']; [destruct j; discriminate|].
      destruct (so_dss _ _ _ _ _ S a b Ha Hb (i0 :: l') J ltac:(discriminate)) as (g & Eg & L & D). rewrite Eg. apply (D j i E').
    + unfold zero_blocks. rewrite nth_zeros. apply (der_constant w (fun w => wrapped_ss y w a b)). apply (so_ss_other _ _ _ _ _ S a b Ha Hb); auto.
      intros ->. apply I. left; auto.
Qed.

(** values at other parameters *)
Definition O (w' : world K) (sd : N) : K := okv (y_ov y w' sd).
Definition I_ (w' : world K) (sd : N) : K := okv (y_int y w' sd).
Definition H_ (w' : world K) (a b : N) : K := okv (y_ss y w' a b).
Definition dO (sd : N) : list K := blocks s (dov_blocks sd).
Definition dI (sd : N) : list K := blocks s (dint_blocks sd).
Definition dH (a b : N) : list K := blocks s (dss_blocks a b).

Lemma ov_list : forall l w', (forall sd, In sd l -> P sd) -> same_shape w w' -> mapM (wrapped_ov y w') l = Ok (map (O w') l).
Proof. intros l w' Hl W. apply mapM_values. intros sd I. apply (so_ov _ _ _ _ _ S sd (Hl sd I)); auto. Qed.
Lemma int_list : forall l w', (forall sd, In sd l -> P sd) -> same_shape w w' -> mapM (wrapped_int y w') l = Ok (map (I_ w') l).
Proof. intros l w' Hl W. apply mapM_values. intros sd I. apply (so_int _ _ _ _ _ S sd (Hl sd I)); auto. Qed.
Lemma dov_list : forall l, (forall sd, In sd l -> P sd) -> mapM (wrapped_dov y s w) l = Ok (map dO l).
Proof. intros l Hl. apply mapM_vectors. intros sd I. apply dov_ok; auto. Qed.
Lemma dint_list : forall l, (forall sd, In sd l -> P sd) -> mapM (wrapped_dint y s w) l = Ok (map dI l).
Proof. intros l Hl. apply mapM_vectors. intros sd I. apply dint_ok; auto. Qed.
Lemma ss_list : forall L R w', (forall sd, In sd L -> P sd) -> (forall sd, In sd R -> P sd) -> same_shape w w' ->
  mapM (fun i => mapM (fun j => wrapped_ss y w' i j) R) L = Ok (map (fun i => map (H_ w' i) R) L).
Proof.
  intros L R w' HL HR W. apply mapM_vectors. intros i Hi. apply mapM_values. intros j Hj. apply (so_ss _ _ _ _ _ S i j); auto.
Qed.
Lemma mapM_any : forall A B (f : A -> res B) (g : A -> B) l, (forall x, In x l -> f x = Ok (g x)) -> mapM f l = Ok (map g l).
Proof.
  clear. intros A B f g l. induction l as [|a l IH]; intros H; simpl; [reflexivity|].
  rewrite (H a (or_introl eq_refl)). cbn [bind]. rewrite IH by (intros; apply H; right; auto). reflexivity.
Qed.
Lemma dss_list : forall L R, (forall sd, In sd L -> P sd) -> (forall sd, In sd R -> P sd) ->
  mapM (fun i => mapM (fun j => wrapped_dss y s w i j) R) L = Ok (map (fun i => map (dH i) R) L).
Proof.
  intros L R HL HR. apply mapM_any. intros i Hi. apply mapM_any. intros j Hj. apply dss_ok; auto.
Qed.
Lemma dO_length : forall sd, P sd -> length (dO sd) = active_nparams s.
Proof. intros sd H. apply (dov_ok sd H). Qed.
Lemma dI_length : forall sd, P sd -> length (dI sd) = active_nparams s.
Proof. intros sd H. apply (dint_ok sd H). Qed.
Lemma dH_length : forall a b, P a -> P b -> length (dH a b) = active_nparams s.
Proof. intros a b Ha Hb. apply (dss_ok a b Ha Hb). Qed.
Lemma dO_der : forall sd k c i, P sd -> place s k c i -> Der (fun x => O (moved w c i x) sd) (nth i (w c) 0) (nth k (dO sd) 0).
Proof. intros sd k c i H Pl. destruct (dov_ok sd H) as [_ [_ G]]. apply (G k c i Pl). Qed.
Lemma dI_der : forall sd k c i, P sd -> place s k c i -> Der (fun x => I_ (moved w c i x) sd) (nth i (w c) 0) (nth k (dI sd) 0).
Proof. intros sd k c i H Pl. destruct (dint_ok sd H) as [_ [_ G]]. apply (G k c i Pl). Qed.
Lemma dH_der : forall a b k c i, P a -> P b -> place s k c i -> Der (fun x => H_ (moved w c i x) a b) (nth i (w c) 0) (nth k (dH a b) 0).
Proof. intros a b k c i Ha Hb Pl. destruct (dss_ok a b Ha Hb) as [_ [_ G]]. apply (G k c i Pl). Qed.
Lemma place_range : forall k c i, place s k c i -> (i < length (w c))%nat.
Proof.
  intros k c i Pl. destruct (place_In _ _ _ _ Pl) as (l & I & J). destruct F as [_ B]. destruct (B c l I) as [_ Fa].
  rewrite Forall_forall in Fa. auto.
Qed.
Lemma O_at : forall sd k c i, P sd -> place s k c i -> O (moved w c i (nth i (w c) 0)) sd = O w sd.
Proof.
  intros sd k c i H Pl. unfold O. f_equal. apply (so_ov _ _ _ _ _ S sd H). intros d. apply moved_same. eapply place_range; eauto.
Qed.
Lemma I_at : forall sd k c i, P sd -> place s k c i -> I_ (moved w c i (nth i (w c) 0)) sd = I_ w sd.
Proof.
  intros sd k c i H Pl. unfold I_. f_equal. apply (so_int _ _ _ _ _ S sd H). intros d. apply moved_same. eapply place_range; eauto.
Qed.
Lemma H_at : forall a b k c i, P a -> P b -> place s k c i -> H_ (moved w c i (nth i (w c) 0)) a b = H_ w a b.
Proof.
  intros a b k c i Ha Hb Pl. unfold H_. f_equal. apply (so_ss _ _ _ _ _ S a b Ha Hb). intros d. apply moved_same. eapply place_range; eauto.
Qed.

(** * the coefficients of the reference *)
Lemma ones_entries : forall n L (m : list (list K)), (forall a b, In (a, b) L -> (a < length m)%nat /\ (b < n)%nat) -> Forall (fun r => length r = n) m ->
  let M := fold_left (fun m io => upd m (fst io) (upd (nth (fst io) m []) (snd io) 1)) L m in
  length M = length m /\ Forall (fun r => length r = n) M /\
  forall j k, (j < length m)%nat -> nth k (nth j M []) 0 = if existsb (fun ab => Nat.eqb (fst ab) j && Nat.eqb (snd ab) k)%bool L then 1 else nth k (nth j m []) 0.
Proof.
  clear. intros n L. induction L as [|[a b] L IH]; intros m B Fm; [repeat split; auto|].
  cbn [fold_left fst snd]. set (m1 := upd m a (upd (nth a m []) b 1)).
  destruct (B a b (or_introl eq_refl)) as [Ba Bb].
  assert (L1 : length m1 = length m) by (unfold m1; apply upd_length).
  assert (F1 : Forall (fun r => length r = n) m1).
  { apply Forall_forall. intros r I. apply In_nth with (d := []) in I. destruct I as (j & Hj & <-). rewrite L1 in Hj. unfold m1.
    rewrite Forall_forall in Fm. destruct (Nat.eq_dec a j) as [->|D].
    - rewrite nth_upd_eq by auto. rewrite upd_length. apply Fm, nth_In. auto.
    - rewrite nth_upd_neq by auto. apply Fm, nth_In. auto. }
  destruct (IH m1) as (A1 & A2 & A3); auto.
  { intros a' b' I. rewrite L1. apply B. right; auto. }
  split; [rewrite A1; auto|]. split; auto. intros j k Hj. rewrite A3 by (rewrite L1; auto). cbn [existsb fst snd].
  destruct (existsb (fun ab => Nat.eqb (fst ab) j && Nat.eqb (snd ab) k)%bool L); [destruct (Nat.eqb a j && Nat.eqb b k)%bool; reflexivity|].
  rewrite orb_false_r. unfold m1. destruct (Nat.eqb_spec a j) as [->|D].
  - rewrite nth_upd_eq by auto. cbn [andb]. rewrite Forall_forall in Fm. assert (Lr : length (nth j m []) = n) by (apply Fm, nth_In; auto).
    destruct (Nat.eqb_spec b k) as [->|D']; [rewrite nth_upd_eq by lia; reflexivity|rewrite nth_upd_neq by auto; reflexivity].
  - rewrite nth_upd_neq by auto. reflexivity.
Qed.

Definition ref_fits (r : refwfn) : Prop :=
  (forall sd, In sd (ref_sds r) -> P sd) /\ match r with RefSds _ => True | RefCI c l => length (w c) = length l end.

Lemma ref_ok : forall r, ref_fits r -> exists (cf : world K -> nat -> K) (dcf : nat -> list K),
  (forall w', same_shape w w' -> ref_coeffs y w' r = Ok (map (cf w') (seq 0 (length (ref_sds r)))))
  /\ d_ref_coeffs y s w r = Ok (map dcf (seq 0 (length (ref_sds r))))
  /\ (forall j, (j < length (ref_sds r))%nat -> length (dcf j) = active_nparams s)
  /\ (forall j k c i, (j < length (ref_sds r))%nat -> place s k c i ->
        Der (fun x => cf (moved w c i x) j) (nth i (w c) 0) (nth k (dcf j) 0) /\ cf (moved w c i (nth i (w c) 0)) j = cf w j).
Proof.
  intros r [Hp Hr]. destruct r as [l|c0 l]; cbn [ref_sds] in *.
  - exists (fun w' j => O w' (nth j l 0%N)), (fun j => dO (nth j l 0%N)). repeat split.
    + intros w' W. cbn [ref_coeffs]. rewrite ov_list by auto. f_equal. apply map_seq_nth.
    + cbn [d_ref_coeffs]. rewrite dov_list by auto. f_equal. apply map_seq_nth.
    + intros j Hj. apply dO_length, Hp, nth_In. auto.
    + apply dO_der; auto. apply Hp, nth_In. auto.
    + eapply O_at; eauto. apply Hp, nth_In. auto.
  - assert (Moved : forall j c i x, nth j (moved w c i x c0) 0 = if (Nat.eqb c c0 && Nat.eqb i j && Nat.ltb i (length (w c)))%bool then x else nth j (w c0) 0).
    { clear - w. intros j c i x. unfold moved, set_world. destruct (Nat.eqb_spec c0 c) as [->|D].
      - rewrite Nat.eqb_refl. cbn [andb]. destruct (Nat.eqb_spec i j) as [->|D']; cbn [andb].
        + destruct (Nat.ltb_spec j (length (w c))); [apply nth_upd_eq; auto|]. rewrite !nth_overflow; auto. rewrite upd_length. auto.
        + apply nth_upd_neq; auto.
      - rewrite (proj2 (Nat.eqb_neq c c0)) by auto. reflexivity. }
    assert (Base : exists dcf, d_ref_coeffs y s w (RefCI c0 l) = Ok (map dcf (seq 0 (length l)))
      /\ (forall j, (j < length l)%nat -> length (dcf j) = active_nparams s)
      /\ (forall j k c i, (j < length l)%nat -> place s k c i -> nth k (dcf j) 0 = if (Nat.eqb c c0 && Nat.eqb i j)%bool then 1 else 0)).
    { cbn [d_ref_coeffs]. destruct (get_item s (KComp c0)) as [|i0 il] eqn:G.
      - exists (fun _ => zeros (active_nparams s)). repeat split.
        + f_equal. rewrite Hr. clear. generalize 0%nat. induction (length l) as [|n IH]; intros k; simpl; [reflexivity|]. rewrite <- IH. reflexivity.
        + intros. unfold zeros. apply repeat_length.
        + intros j k c i Hj Pl. rewrite nth_zeros. destruct (Nat.eqb_spec c c0) as [->|D]; [|reflexivity].
          exfalso. destruct (place_In _ _ _ _ Pl) as (m & I & J). cbn [get_item] in G. rewrite (find_In s c0 m (proj1 F) I) in G. subst m. contradiction.
      - assert (Fi : In (c0, i0 :: il) s).
        { cbn [get_item] in G. destruct (find_sel s c0) as [m|] eqn:E; [|discriminate]. subst m. apply find_Some; auto. }
        rewrite <- G in *. remember (get_item s (KComp c0)) as il0 eqn:Ei. clear G i0 il.
        destruct (proj2 (proj2 (C52_slices s)) (proj1 F) c0 il0 Fi) as (k0 & Eo & Pk).
        assert (Go : get_item (objective_inds s) (KComp c0) = seq k0 (length il0)) by (cbn [get_item]; rewrite Eo; reflexivity).
        assert (Bd : Forall (fun i => (i < length (w c0))%nat) il0) by (apply (proj2 F c0 il0 Fi)).
        assert (Fb : forallb (fun i => Nat.ltb i (length (w c0))) il0 = true).
        { apply forallb_forall. intros i I. rewrite Forall_forall in Bd. apply Nat.ltb_lt; auto. }
        assert (Cb : forall a b, In (a, b) (combine il0 (seq k0 (length il0))) <-> exists t, nth_error il0 t = Some a /\ b = (k0 + t)%nat).
        { clear. intros a b. revert k0. induction il0 as [|i0 l0 IH]; intros k0; cbn [combine length seq].
          - split; [intros []|intros (t & E & _); destruct t; discriminate].
          - cbn [In]. rewrite IH. split.
            + intros [E|(t & E & ->)]; [injection E as -> ->; exists 0%nat; split; auto; lia|exists (Datatypes.S t); split; auto; lia].
            + intros ([|t] & E & ->); simpl in E; [left; injection E as ->; f_equal; lia|right; exists t; split; auto; lia]. }
        destruct (ones_entries (active_nparams s) (combine il0 (seq k0 (length il0))) (repeat (zeros (active_nparams s)) (length (w c0)))) as (A1 & A2 & A3).
        { intros a b I. apply Cb in I. destruct I as (t & E & ->). rewrite repeat_length. split.
          - rewrite Forall_forall in Bd. apply Bd. eapply nth_error_In; eauto.
          - eapply place_bound. apply (Pk t a E). }
        { apply Forall_forall. intros r I. apply repeat_spec in I. subst r. unfold zeros. apply repeat_length. }
        rewrite repeat_length in A1, A3.
        remember (fold_left (fun m io => upd m (fst io) (upd (nth (fst io) m []) (snd io) 1)) (combine il0 (seq k0 (length il0))) (repeat (zeros (active_nparams s)) (length (w c0)))) as M eqn:EM.
        exists (fun j => nth j M []).
        assert (Res : set_ones (length (w c0)) (active_nparams s) il0 (get_item (objective_inds s) (KComp c0)) = Ok M).
        { rewrite Go. unfold set_ones. rewrite Fb, <- EM. reflexivity. }
        split; [|split].
        + rewrite Res. f_equal. rewrite <- Hr, <- A1. apply map_seq_id.
        + intros j Hj. rewrite Forall_forall in A2. apply A2, nth_In. rewrite A1, Hr. auto.
        + intros j k c i Hj Pl. rewrite A3 by (rewrite Hr; auto).
          assert (Z0 : nth k (nth j (repeat (zeros (active_nparams s)) (length (w c0))) []) (0 : K) = 0).
          { rewrite (nth_indep _ [] (zeros (active_nparams s))) by (rewrite repeat_length, Hr; auto).
            assert (R : forall n m, nth m (repeat (zeros (active_nparams s)) n) (zeros (active_nparams s)) = (zeros (active_nparams s) : list K)).
            { clear. induction n; intros [|m]; simpl; auto. }
            rewrite R. apply nth_zeros. }
          rewrite Z0.
          destruct (Nat.eqb_spec c c0) as [Ec|D]; cbn [andb].
          * subst c. destruct (Nat.eqb_spec i j) as [Ej|D'].
            -- subst j. assert (X : existsb (fun ab => Nat.eqb (fst ab) i && Nat.eqb (snd ab) k)%bool (combine il0 (seq k0 (length il0))) = true).
               { apply existsb_exists. exists (i, k). cbn [fst snd]. rewrite !Nat.eqb_refl. split; auto. apply Cb.
                 destruct (place_In _ _ _ _ Pl) as (m & I & J). assert (Em : m = il0).
                 { assert (E1 := find_In s c0 m (proj1 F) I). assert (E2 := find_In s c0 il0 (proj1 F) Fi). congruence. }
                 subst m. apply In_nth_error in J. destruct J as [t Et]. exists t. split; auto.
                 apply (place_inj _ s k (k0 + t) c0 i F Pl). apply Pk; auto. }
               rewrite X. reflexivity.
            -- destruct (existsb _ _) eqn:X; auto. exfalso. apply existsb_exists in X. destruct X as ([a b] & I & Eab). cbn [fst snd] in Eab.
               apply andb_true_iff in Eab. destruct Eab as [Ea Eb]. apply Nat.eqb_eq in Ea, Eb. subst a b.
               apply Cb in I. destruct I as (t & Et & Ek). subst k. destruct (place_unique _ _ _ _ (Pk t j Et) _ _ Pl) as [_ X]. congruence.
          * destruct (existsb _ _) eqn:X; auto. exfalso. apply existsb_exists in X. destruct X as ([a b] & I & Eab). cbn [fst snd] in Eab.
            apply andb_true_iff in Eab. destruct Eab as [Ea Eb]. apply Nat.eqb_eq in Ea, Eb. subst a b.
            apply Cb in I. destruct I as (t & Et & Ek). subst k. destruct (place_unique _ _ _ _ (Pk t j Et) _ _ Pl) as [X _]. congruence. }
    destruct Base as (dcf & B1 & B2 & B3). exists (fun w' j => nth j (w' c0) 0), dcf. split; [|split; [|split]]; auto.
    + intros w' W. cbn [ref_coeffs]. f_equal. rewrite <- Hr, <- (W c0). apply map_seq_id.
    + intros j k c i Hj Pl. rewrite (B3 j k c i Hj Pl). assert (Ri := place_range k c i Pl). split.
      * apply (cal_ext Der C (fun x => if (Nat.eqb c c0 && Nat.eqb i j)%bool then x else nth j (w c0) 0)).
        -- intros x. rewrite Moved. rewrite (proj2 (Nat.ltb_lt i (length (w c)))) by auto. rewrite andb_true_r. reflexivity.
        -- destruct (Nat.eqb c c0 && Nat.eqb i j)%bool; [apply (cal_id Der C)|apply (cal_const Der C)].
      * f_equal. apply (moved_same w c i Ri c0).
Qed.

(** * energies *)
Lemma one_energy_grad : forall r nrm, ref_fits r -> one_norm y w r = Ok nrm -> nrm <> 0 ->
  exists v, one_energy_deriv y s w r = Ok v /\ is_grad Der w s (fun w => one_energy y w r) v.
Proof.
  intros r nrm Fr En Nz. destruct (ref_ok r Fr) as (cf & dcf & R1 & R2 & R3 & R4).
  set (n := length (ref_sds r)) in *. set (J := seq 0 n).
  set (sdj := fun j => nth j (ref_sds r) 0%N).
  assert (Pj : forall j, In j J -> (j < n)%nat /\ P (sdj j)).
  { intros j I. apply in_seq in I. split; [lia|]. apply (proj1 Fr), nth_In. fold n. lia. }
  assert (Ov : forall w', same_shape w w' -> mapM (wrapped_ov y w') (ref_sds r) = Ok (map (fun j => O w' (sdj j)) J)).
  { intros w' W. rewrite ov_list; auto; [|apply Fr]. f_equal. apply map_seq_nth. }
  assert (Iv : forall w', same_shape w w' -> mapM (wrapped_int y w') (ref_sds r) = Ok (map (fun j => I_ w' (sdj j)) J)).
  { intros w' W. rewrite int_list; auto; [|apply Fr]. f_equal. apply map_seq_nth. }
  assert (Dov : mapM (wrapped_dov y s w) (ref_sds r) = Ok (map (fun j => dO (sdj j)) J)).
  { rewrite dov_list by apply Fr. f_equal. apply map_seq_nth. }
  assert (Div : mapM (wrapped_dint y s w) (ref_sds r) = Ok (map (fun j => dI (sdj j)) J)).
  { rewrite dint_list by apply Fr. f_equal. apply map_seq_nth. }
  set (Nf := fun w' => sumf (fun j => cf w' j * O w' (sdj j)) J).
  set (Ef := fun w' => sumf (fun j => cf w' j * I_ w' (sdj j)) J).
  assert (Val : forall w', same_shape w w' -> one_energy y w' r = Ok (Ef w' * finv (Nf w'))).
  { intros w' W. unfold one_energy. rewrite R1, Ov, Iv by auto. cbn [bind]. fold J. rewrite !dot_maps. reflexivity. }
  assert (Nv : nrm = Nf w).
  { unfold one_norm in En. rewrite R1, Ov in En by apply same_refl. cbn [bind] in En. fold J in En. rewrite dot_maps in En. apply Ok_inj in En. auto. }
  set (m := active_nparams s).
  destruct (dot_rows_maps nat m (fun j => O w (sdj j)) dcf J) as (dn1 & D1 & L1 & V1); [intros j I; apply R3, Pj; auto|].
  destruct (dot_rows_maps nat m (cf w) (fun j => dO (sdj j)) J) as (dn2 & D2 & L2 & V2); [intros j I; apply dO_length, Pj; auto|].
  destruct (dot_rows_maps nat m (fun j => I_ w (sdj j)) dcf J) as (de1 & D3 & L3 & V3); [intros j I; apply R3, Pj; auto|].
  destruct (dot_rows_maps nat m (cf w) (fun j => dI (sdj j)) J) as (de2 & D4 & L4 & V4); [intros j I; apply dI_length, Pj; auto|].
  eexists. split.
  { unfold one_energy_deriv. rewrite R1 by apply same_refl. cbn [bind]. rewrite R2. cbn [bind]. rewrite Ov by apply same_refl. cbn [bind].
    rewrite Iv by apply same_refl. cbn [bind]. fold J. rewrite !dot_maps. cbn [bind]. fold m. rewrite D1. cbn [bind]. rewrite Dov. cbn [bind].
    rewrite D2. cbn [bind]. rewrite D3. cbn [bind]. rewrite Div. cbn [bind]. rewrite D4. cbn [bind]. fold (Nf w) (Ef w). reflexivity. }
  assert (LA : length (vadd dn1 dn2) = m) by (apply vadd_length; auto).
  assert (LB : length (vadd (vscale (finv (Nf w)) de1) (vscale (finv (Nf w)) de2)) = m) by (apply vadd_length; rewrite vscale_length; auto).
  split.
  { apply vsub_length; auto. rewrite !vscale_length. auto. }
  intros k c i Pl.
  apply (cal_ext Der C (fun x => Ef (moved w c i x) * finv (Nf (moved w c i x)))).
  { intros x. rewrite Val by apply moved_shape. reflexivity. }
  assert (E0 : forall g : world K -> nat -> K, (forall j, In j J -> g (moved w c i (nth i (w c) 0)) j = g w j) ->
     sumf (g (moved w c i (nth i (w c) 0))) J = sumf (g w) J) by (intros g Hg; apply sumf_ext; auto).
  assert (N0 : Nf (moved w c i (nth i (w c) 0)) = Nf w).
  { unfold Nf. apply sumf_ext. intros j Hj. destruct (Pj j Hj) as [Hn Hp]. destruct (R4 j k c i Hn Pl) as [_ ->]. rewrite (O_at (sdj j) k c i); auto. }
  assert (Ee : Ef (moved w c i (nth i (w c) 0)) = Ef w).
  { unfold Ef. apply sumf_ext. intros j Hj. destruct (Pj j Hj) as [Hn Hp]. destruct (R4 j k c i Hn Pl) as [_ ->]. rewrite (I_at (sdj j) k c i); auto. }
  eapply der_eq.
  - apply (der_div Der C (fun x => Ef (moved w c i x)) (fun x => Nf (moved w c i x)) (nth i (w c) 0)
      (sumf (fun j => nth k (dcf j) 0 * I_ w (sdj j) + cf w j * nth k (dI (sdj j)) 0) J)
      (sumf (fun j => nth k (dcf j) 0 * O w (sdj j) + cf w j * nth k (dO (sdj j)) 0) J)).
    + rewrite N0, <- Nv. auto.
    + unfold Ef. apply (der_sum Der C nat (fun x j => cf (moved w c i x) j * I_ (moved w c i x) (sdj j))). intros j Hj.
      destruct (Pj j Hj) as [Hn Hp]. destruct (R4 j k c i Hn Pl) as [Dj Ej].
      eapply der_eq; [apply (cal_mul Der C _ _ _ _ _ Dj (dI_der (sdj j) k c i Hp Pl))|]. rewrite Ej, (I_at (sdj j) k c i); auto.
    + unfold Nf. apply (der_sum Der C nat (fun x j => cf (moved w c i x) j * O (moved w c i x) (sdj j))). intros j Hj.
      destruct (Pj j Hj) as [Hn Hp]. destruct (R4 j k c i Hn Pl) as [Dj Ej].
      eapply der_eq; [apply (cal_mul Der C _ _ _ _ _ Dj (dO_der (sdj j) k c i Hp Pl))|]. rewrite Ej, (O_at (sdj j) k c i); auto.
  - rewrite N0, Ee. rewrite vsub_nth by (rewrite LB, !vscale_length; auto). rewrite vadd_nth by (rewrite !vscale_length; lia).
    rewrite !vscale_nth. rewrite vadd_nth by lia. rewrite V1, V2, V3, V4. rewrite !sumf_add.
    replace (sumf (fun x => nth k (dcf x) 0 * I_ w (sdj x)) J) with (sumf (fun x => I_ w (sdj x) * nth k (dcf x) 0) J) by (apply sumf_ext; intros; ring).
    replace (sumf (fun x => nth k (dcf x) 0 * O w (sdj x)) J) with (sumf (fun x => O w (sdj x) * nth k (dcf x) 0) J) by (apply sumf_ext; intros; ring).
    ring.
Qed.

Lemma two_energy_grad : forall pl pr pn on, let R := or_else pr pl in let Q := or_else pn pl in
  (forall sd, In sd pl -> P sd) -> (forall sd, In sd R -> P sd) -> (forall sd, In sd Q -> P sd) ->
  mapM (wrapped_ov y w) Q = Ok on -> sumf (fun o => o * o) on <> 0 ->
  exists v, two_energy_deriv y s w pl pr pn = Ok v /\ is_grad Der w s (fun w => two_energy y w pl pr pn) v.
Proof.
  intros pl pr pn on R Q HL HR HQ En Nz.
  set (Nf := fun w' => sumf (fun q => O w' q * O w' q) Q).
  set (Tf := fun w' => sumf (fun ij => O w' (fst ij) * H_ w' (fst ij) (snd ij) * O w' (snd ij)) (list_prod pl R)).
  assert (Nv : sumf (fun o => o * o) on = Nf w).
  { rewrite ov_list in En by (auto using same_refl). apply Ok_inj in En. subst on. rewrite sumf_map. reflexivity. }
  rewrite Nv in Nz. clear Nv En on.
  assert (Val : forall w', same_shape w w' -> two_energy y w' pl pr pn = Ok (Tf w' * finv (Nf w'))).
  { intros w' W. unfold two_energy. fold R Q. rewrite !ov_list, ss_list by auto. cbn [bind]. rewrite grid_maps, !psum_sumf, !sumf_map. reflexivity. }
  set (m := active_nparams s).
  assert (HP : forall ij, In ij (list_prod pl R) -> P (fst ij) /\ P (snd ij)).
  { intros [i j] I. apply in_prod_iff in I. split; [apply HL|apply HR]; apply I. }
  destruct (dot_rows_maps N m (O w) dO Q) as (dn & D1 & L1 & V1); [intros j I; apply dO_length; auto|].
  set (T1 := vsum m (map (fun ij => vscale (H_ w (fst ij) (snd ij) * O w (snd ij)) (dO (fst ij))) (list_prod pl R))).
  set (T2 := vsum m (map (fun ij => vscale (O w (fst ij) * O w (snd ij)) (dH (fst ij) (snd ij))) (list_prod pl R))).
  set (T3 := vsum m (map (fun ij => vscale (O w (fst ij) * H_ w (fst ij) (snd ij)) (dO (snd ij))) (list_prod pl R))).
  assert (G : forall (a : N * N -> K) (b : N * N -> list K), (forall ij, In ij (list_prod pl R) -> length (b ij) = m) ->
     length (vsum m (map (fun ij => vscale (a ij) (b ij)) (list_prod pl R))) = m
     /\ forall k, nth k (vsum m (map (fun ij => vscale (a ij) (b ij)) (list_prod pl R))) 0 = sumf (fun ij => a ij * nth k (b ij) 0) (list_prod pl R)).
  { intros a b Hb. destruct (vsum_ok (map (fun ij => vscale (a ij) (b ij)) (list_prod pl R)) m) as [A1 A2].
    - apply Forall_map, Forall_forall. intros ij I. rewrite vscale_length. auto.
    - split; auto. intros k. rewrite A2, sumf_map. apply sumf_ext. intros ij _. apply vscale_nth. }
  destruct (G (fun ij => H_ w (fst ij) (snd ij) * O w (snd ij)) (fun ij => dO (fst ij))) as [LT1 VT1]; [intros ij I; apply dO_length, HP; auto|].
  destruct (G (fun ij => O w (fst ij) * O w (snd ij)) (fun ij => dH (fst ij) (snd ij))) as [LT2 VT2]; [intros ij I; apply dH_length; apply HP; auto|].
  destruct (G (fun ij => O w (fst ij) * H_ w (fst ij) (snd ij)) (fun ij => dO (snd ij))) as [LT3 VT3]; [intros ij I; apply dO_length, HP; auto|].
  exists (vsub (vadd (vadd (vscale (finv (Nf w)) T1) (vscale (finv (Nf w)) T2)) (vscale (finv (Nf w)) T3))
           (vscale (finv (Nf w * Nf w)) (vscale (Tf w) (vscale (1 + 1) dn)))). split.
  { unfold two_energy_deriv. fold R Q m. rewrite !ov_list, ss_list by (auto using same_refl). cbn [bind].
    rewrite (dov_list Q) by auto. cbn [bind]. rewrite D1. cbn [bind]. rewrite (dov_list pl) by auto. cbn [bind].
    rewrite dss_list by auto. cbn [bind]. rewrite (dov_list R) by auto. cbn [bind].
    rewrite !grid_maps, !map_map, !psum_sumf, !sumf_map. reflexivity. }
  assert (LA : length (vadd (vscale (finv (Nf w)) T1) (vscale (finv (Nf w)) T2)) = m) by (apply vadd_length; rewrite vscale_length; auto).
  assert (LB : length (vadd (vadd (vscale (finv (Nf w)) T1) (vscale (finv (Nf w)) T2)) (vscale (finv (Nf w)) T3)) = m) by (apply vadd_length; [|rewrite vscale_length]; auto).
  split.
  { apply vsub_length; auto. rewrite !vscale_length. auto. }
  intros k c i Pl.
  apply (cal_ext Der C (fun x => Tf (moved w c i x) * finv (Nf (moved w c i x)))).
  { intros x. rewrite Val by apply moved_shape. reflexivity. }
  assert (N0 : Nf (moved w c i (nth i (w c) 0)) = Nf w).
  { unfold Nf. apply sumf_ext. intros q Hq. rewrite (O_at q k c i); auto. }
  assert (E0 : Tf (moved w c i (nth i (w c) 0)) = Tf w).
  { unfold Tf. apply sumf_ext. intros ij Hij. destruct (HP ij Hij). rewrite (O_at (fst ij) k c i), (O_at (snd ij) k c i), (H_at (fst ij) (snd ij) k c i); auto. }
  eapply der_eq.
  - apply (der_div Der C (fun x => Tf (moved w c i x)) (fun x => Nf (moved w c i x)) (nth i (w c) 0)
      (sumf (fun ij => (nth k (dO (fst ij)) 0 * H_ w (fst ij) (snd ij) + O w (fst ij) * nth k (dH (fst ij) (snd ij)) 0) * O w (snd ij)
                        + O w (fst ij) * H_ w (fst ij) (snd ij) * nth k (dO (snd ij)) 0) (list_prod pl R))
      (sumf (fun q => nth k (dO q) 0 * O w q + O w q * nth k (dO q) 0) Q)).
    + rewrite N0. auto.
    + unfold Tf. apply (der_sum Der C (N * N) (fun x ij => O (moved w c i x) (fst ij) * H_ (moved w c i x) (fst ij) (snd ij) * O (moved w c i x) (snd ij))).
      intros ij Hij. destruct (HP ij Hij) as [P1 P2].
      eapply der_eq; [apply (cal_mul Der C _ _ _ _ _ (cal_mul Der C _ _ _ _ _ (dO_der (fst ij) k c i P1 Pl) (dH_der (fst ij) (snd ij) k c i P1 P2 Pl)) (dO_der (snd ij) k c i P2 Pl))|].
      cbv beta. rewrite (O_at (fst ij) k c i), (O_at (snd ij) k c i), (H_at (fst ij) (snd ij) k c i); auto.
    + unfold Nf. apply (der_sum Der C N (fun x q => O (moved w c i x) q * O (moved w c i x) q)). intros q Hq.
      eapply der_eq; [apply (cal_mul Der C _ _ _ _ _ (dO_der q k c i (HQ q Hq) Pl) (dO_der q k c i (HQ q Hq) Pl))|]. rewrite (O_at q k c i); auto.
  - rewrite N0, E0. rewrite vsub_nth by (rewrite LB, !vscale_length; auto). rewrite !vadd_nth by (rewrite ?LA, !vscale_length; unfold T1, T2, T3; lia).
    rewrite !vscale_nth. unfold T1, T2, T3. rewrite VT1, VT2, VT3, V1.
    assert (Fi : finv (Nf w * Nf w) = finv (Nf w) * finv (Nf w)).
    { symmetry. apply f_inv_unique.
      - intros E. apply Nz. assert (X := f_inv K (Nf w) Nz). transitivity (finv (Nf w) * Nf w * Nf w); [rewrite X; ring|].
        transitivity (finv (Nf w) * (Nf w * Nf w)); [ring|]. rewrite E. ring.
      - transitivity ((finv (Nf w) * Nf w) * (finv (Nf w) * Nf w)); [ring|]. rewrite (f_inv K (Nf w) Nz). ring. }
    rewrite Fi.
    transitivity (sumf (fun ij => H_ w (fst ij) (snd ij) * O w (snd ij) * nth k (dO (fst ij)) 0) (list_prod pl R) * finv (Nf w)
      + sumf (fun ij => O w (fst ij) * O w (snd ij) * nth k (dH (fst ij) (snd ij)) 0) (list_prod pl R) * finv (Nf w)
      + sumf (fun ij => O w (fst ij) * H_ w (fst ij) (snd ij) * nth k (dO (snd ij)) 0) (list_prod pl R) * finv (Nf w)
      - finv (Nf w) * (Tf w * finv (Nf w) * ((1 + 1) * sumf (fun q => O w q * nth k (dO q) 0) Q))); [|ring].
    f_equal; [|f_equal].
    + transitivity ((sumf (fun ij => H_ w (fst ij) (snd ij) * O w (snd ij) * nth k (dO (fst ij)) 0) (list_prod pl R)
        + sumf (fun ij => O w (fst ij) * O w (snd ij) * nth k (dH (fst ij) (snd ij)) 0) (list_prod pl R)
        + sumf (fun ij => O w (fst ij) * H_ w (fst ij) (snd ij) * nth k (dO (snd ij)) 0) (list_prod pl R)) * finv (Nf w)); [|ring].
      f_equal. rewrite <- !sumf_add. apply sumf_ext. intros. ring.
    + f_equal. rewrite <- sumf_mul_l. apply sumf_ext. intros. ring.
Qed.
End Sys.
End M.
