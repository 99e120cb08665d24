(** C54, C55: derivatives with respect to the active parameters, and gradients of the energies. *)
From Coq Require Import List ZArith NArith Arith Bool Lia Ring QArith Qcanon Reals Lra.
From Verif Require Import Py Slater BitSpec BitLemmas Alg BicliqueLemmas HamRotEx ParamSel ParamSelSpec ParamSelLemmas P_ParamSel EqnBase EqnSpec EqnLemmas EqnMain EqnObj EqnObjSpec EqnEx EqnReal.
From Coq Require Import List.
Import ListNotations.
Local Open Scope nat_scope.

Section P.
Context {K : CField}.
Local Open Scope cr_scope.
Add Ring K_ring69 : (rth K).

(** * C54 *)
Lemma slot_blocks : forall np s (b : nat -> list nat -> list K) c l j i k, fits_sel np s -> fit s b ->
  In (c, l) s -> nth_error l j = Some i -> place s k c i -> nth k (blocks s b) 0 = nth j (b c l) 0.
Proof.
  intros np s b c l j i k F Ft I E P. destruct (place_blocks (K := K) s k c i P) as (l' & j' & I' & E' & B). rewrite B by auto.
  assert (l' = l). { assert (E1 := find_In s c l' (proj1 F) I'). assert (E2 := find_In s c l (proj1 F) I). congruence. }
  subst l'. assert (j' = j).
  { assert (Nd : NoDup l) by (apply increasing_NoDup, (proj2 F c l I)). rewrite NoDup_nth_error in Nd. apply Nd; [apply nth_error_Some; congruence|congruence]. }
  subst. auto.
Qed.
Lemma block_given : forall np s gets cs (b : nat -> list nat -> list K) c, fits_sel np s -> fit s (given gets cs b) -> In c cs ->
  slot_value s (blocks s (given gets cs b)) c (gets c).
Proof.
  intros np s gets cs b c F Ft I l g j i k J G E P. rewrite (slot_blocks np s _ c l j i k); auto. unfold given.
  destruct (in_dec Nat.eq_dec c cs); [|contradiction]. destruct l; [destruct j; discriminate|]. rewrite G. reflexivity.
Qed.
Lemma place_split : forall s k c i, place s k c i -> exists l j, In (c, l) s /\ nth_error l j = Some i.
Proof. intros s k c i P. destruct (place_blocks (K := K) s k c i P) as (l & j & I & E & _). eauto. Qed.

(** wrapped_get_overlap(sd, True) is a vector of active_nparams numbers: the slots of the parameters of the
    wavefunctions hold what get_overlap returns for them, the others zero. *)
Theorem C54_overlap_slots : forall np (y : sys K) s w sd, fits_sel np s ->
  (forall c, In c (targets y) -> sized s c (y_dov y w sd c)) ->
  exists v, wrapped_dov y s w sd = Ok v /\ length v = active_nparams s
  /\ forall c, (In c (targets y) -> slot_value s v c (y_dov y w sd c)) /\ (~ In c (targets y) -> slot_zero s v c).
Proof.
  intros np y s w sd F Sz.
  destruct (put_wfn_given y s (y_dov y w sd) zero_blocks (proj1 F) (fit_zero s)) as [E Ft].
  { intros c l I J N. apply (Sz c I l J N). }
  exists (blocks s (given (y_dov y w sd) (targets y) zero_blocks)). split; [unfold wrapped_dov; rewrite <- zeros_blocks; auto|].
  split; [apply blocks_length; auto|]. intros c. split.
  - intros I. apply block_given with (np := np); auto.
  - intros I i k P. destruct (place_split s k c i P) as (l & j & J & E'). rewrite (slot_blocks np s _ c l j i k); auto.
    unfold given. destruct (in_dec Nat.eq_dec c (targets y)); [contradiction|]. apply nth_zeros.
Qed.

(** wrapped_integrate_sd_wfn(sd, True): in addition the slots of the Hamiltonian hold what integrate_sd_wfn returns
    with ham_deriv. *)
Theorem C54_integral_slots : forall np (y : sys K) s w sd, fits_sel np s -> ~ In (y_ham y) (targets y) ->
  (forall c, In c (targets y) -> sized s c (y_dint y w sd c)) -> sized s (y_ham y) (y_hint y w sd) ->
  exists v, wrapped_dint y s w sd = Ok v /\ length v = active_nparams s
  /\ slot_value s v (y_ham y) (y_hint y w sd)
  /\ forall c, (In c (targets y) -> slot_value s v c (y_dint y w sd c)) /\ (~ In c (targets y) -> c <> y_ham y -> slot_zero s v c).
Proof.
  intros np y s w sd F NH Sz Sh.
  destruct (put_wfn_given y s (y_dint y w sd) zero_blocks (proj1 F) (fit_zero s)) as [E Ft].
  { intros c l I J N. apply (Sz c I l J N). }
  destruct (put_one_given s (y_ham y) (fun _ => y_hint y w sd) (given (y_dint y w sd) (targets y) zero_blocks) (proj1 F) Ft) as [E2 F2].
  { intros l J N. apply (Sh l J N). }
  eexists. split; [unfold wrapped_dint; rewrite <- zeros_blocks, E; cbn [bind]; exact E2|].
  split; [apply blocks_length; auto|]. split; [|intros c; split].
  - apply (block_given np s (fun _ => y_hint y w sd) [y_ham y]); auto. left; auto.
  - intros I l g j i k J G E' P. rewrite (slot_blocks np s _ c l j i k); auto. unfold given at 1.
    destruct (in_dec Nat.eq_dec c [y_ham y]) as [D|D]; [destruct D as [<-|[]]; contradiction|].
    unfold given. destruct (in_dec Nat.eq_dec c (targets y)); [|contradiction]. destruct l; [destruct j; discriminate|]. rewrite G. reflexivity.
  - intros I D i k P. destruct (place_split s k c i P) as (l & j & J & E'). rewrite (slot_blocks np s _ c l j i k); auto.
    unfold given at 1. destruct (in_dec Nat.eq_dec c [y_ham y]) as [X|X]; [destruct X as [X|[]]; congruence|].
    unfold given. destruct (in_dec Nat.eq_dec c (targets y)); [contradiction|]. apply nth_zeros.
Qed.

(** wrapped_integrate_sd_sd(sd1, sd2, True): the slots of the Hamiltonian. *)
Theorem C54_sd_sd_slots : forall np (y : sys K) s w a b, fits_sel np s -> sized s (y_ham y) (y_dss y w a b) ->
  exists v, wrapped_dss y s w a b = Ok v /\ length v = active_nparams s
  /\ slot_value s v (y_ham y) (y_dss y w a b) /\ forall c, c <> y_ham y -> slot_zero s v c.
Proof.
  intros np y s w a b F Sh.
  destruct (put_one_given s (y_ham y) (fun _ => y_dss y w a b) zero_blocks (proj1 F) (fit_zero s)) as [E2 F2].
  { intros l J N. apply (Sh l J N). }
  eexists. split; [unfold wrapped_dss; rewrite <- zeros_blocks; exact E2|].
  split; [apply blocks_length; auto|]. split.
  - apply (block_given np s (fun _ => y_dss y w a b) [y_ham y]); auto. left; auto.
  - intros c D i k P. destruct (place_split s k c i P) as (l & j & J & E'). rewrite (slot_blocks np s _ c l j i k); auto.
    unfold given. destruct (in_dec Nat.eq_dec c [y_ham y]) as [X|X]; [destruct X as [X|[]]; congruence|]. apply nth_zeros.
Qed.

(** A method that returns another number of values raises ValueError, unless it returns a single value. *)
Theorem C54_mismatch : forall (y : sys K) s w sd l g, NoDup (map fst s) -> y_parts y = None -> In (y_wfn y, l) s -> l <> [] ->
  y_dov y w sd (y_wfn y) l = Ok g -> length g <> length l -> length g <> 1%nat -> wrapped_dov y s w sd = Err ValueError.
Proof.
  intros y s w sd l g N Yn I Nl G L1 L2. unfold wrapped_dov, put_wfn. rewrite Yn. unfold put_one.
  destruct (proj2 (proj2 (C52_slices s)) N (y_wfn y) l I) as (k0 & Eo & _).
  cbn [get_item]. rewrite (find_In s (y_wfn y) l N I), Eo. destruct l as [|i0 l']; [contradiction|]. rewrite G. cbn [bind].
  unfold put_block. rewrite seq_length. rewrite (proj2 (Nat.eqb_neq _ _) L1). destruct g as [|x [|x' g']]; auto. contradiction L2. reflexivity.
Qed.

Section Der.
Variable Der : (K -> K) -> K -> K -> Prop.
Hypothesis C : calculus Der.

(** If the methods return derivatives, so do the wrapped methods. *)
Theorem C54_gradients : forall P (y : sys K) s w, sound Der P y s w -> fits_sel (fun c => length (w c)) s ->
  (forall sd, P sd -> exists v, wrapped_dov y s w sd = Ok v /\ is_grad Der w s (fun w => wrapped_ov y w sd) v)
  /\ (forall sd, P sd -> exists v, wrapped_dint y s w sd = Ok v /\ is_grad Der w s (fun w => wrapped_int y w sd) v)
  /\ (forall a b, P a -> P b -> exists v, wrapped_dss y s w a b = Ok v /\ is_grad Der w s (fun w => wrapped_ss y w a b) v).
Proof.
  intros P y s w So F. split; [|split].
  - intros sd H. eexists. apply (dov_ok Der C P y s w So F sd H).
  - intros sd H. eexists. apply (dint_ok Der C P y s w So F sd H).
  - intros a b Ha Hb. eexists. apply (dss_ok Der C P y s w So F a b Ha Hb).
Qed.

(** Changing one number of the vector of active parameters changes exactly the parameter in that place. *)
Theorem C54_coordinates : forall (o : obj K) w p k c i x, assignable o w p -> place (o_sel o) k c i ->
  exists w1 w2, assign_step o p w = (w1, Ok tt) /\ assign_step o (upd p k x) w = (w2, Ok tt)
  /\ (forall d, w2 d = moved w1 c i x d) /\ nth i (w1 c) 0 = nth k p 0 /\ same_shape w w1.
Proof.
  intros o w p k c i x (F & L & St) Pl. assert (Bk := place_bound _ _ _ _ Pl).
  destruct (C52_assign 0 (o_store o) (o_view o) w (o_sel o) p F L St) as (w1 & E1 & _ & S1 & N1 & V1).
  destruct (C52_assign 0 (o_store o) (o_view o) w (o_sel o) (upd p k x) F ltac:(rewrite upd_length; auto) St) as (w2 & E2 & _ & S2 & N2 & V2).
  exists w1, w2. split; auto. split; auto. split; [|split; [apply V1; auto|intros d; apply S1]].
  intros d. apply nth_ext with (d := 0) (d' := 0).
  { unfold moved, set_world. destruct (Nat.eqb_spec d c) as [->|]; rewrite ?upd_length, S2, S1; reflexivity. }
  intros j Hj. rewrite S2 in Hj.
  assert (M : nth j (moved w1 c i x d) 0 = if (Nat.eqb d c && Nat.eqb j i)%bool then x else nth j (w1 d) 0).
  { unfold moved, set_world. destruct (Nat.eqb_spec d c) as [->|D]; cbn [andb]; auto.
    destruct (Nat.eqb_spec j i) as [->|D']; [apply nth_upd_eq; rewrite S1; auto|apply nth_upd_neq; auto]. }
  rewrite M.
  assert (D : selected (o_sel o) d j \/ ~ selected (o_sel o) d j).
  { clear. induction (o_sel o) as [|[e m] t IH].
    - right. intros (l & [] & _).
    - destruct IH as [(l & I & J)|NI]; [left; exists l; split; auto; right; auto|].
      destruct (Nat.eq_dec e d) as [->|De]; [destruct (in_dec Nat.eq_dec j m)|].
      + left. exists m. split; auto. left; auto.
      + right. intros (l & [E|I] & J); [injection E as ->; contradiction|]. apply NI. exists l; auto.
      + right. intros (l & [E|I] & J); [injection E as -> ->; contradiction|]. apply NI. exists l; auto. }
  destruct D as [Sel|NS].
  - apply selected_place in Sel. destruct Sel as [k' P']. rewrite (V2 k' d j P'), (V1 k' d j P').
    destruct (Nat.eq_dec k k') as [<-|Dk].
    + destruct (place_unique _ _ _ _ Pl _ _ P') as [-> ->]. rewrite !Nat.eqb_refl. cbn [andb]. apply nth_upd_eq. lia.
    + rewrite nth_upd_neq by auto. destruct (Nat.eqb_spec d c) as [->|]; cbn [andb]; auto. destruct (Nat.eqb_spec j i) as [->|]; auto.
      exfalso. apply Dk. apply (place_inj _ _ _ _ _ _ F Pl P').
  - rewrite N2, N1 by auto. destruct (Nat.eqb_spec d c) as [->|]; cbn [andb]; auto. destruct (Nat.eqb_spec j i) as [->|]; auto.
    exfalso. apply NS. destruct (place_In _ _ _ _ Pl) as (l & I & J). exists l. auto.
Qed.

(** A gradient with respect to the active parameters is a gradient with respect to the vector of active parameters. *)
Theorem C54_vector : forall (o : obj K) w p w1 f v, assignable o w p -> assign_step o p w = (w1, Ok tt) ->
  (forall w1 w2, (forall c, w1 c = w2 c) -> f w1 = f w2) -> is_grad Der w1 (o_sel o) f v ->
  vector_grad Der (fun q => f (fst (assign_step o q w))) p v.
Proof.
  intros o w p w1 f v A E Ex [L G]. destruct (A) as (F & Lp & St). split; [lia|]. intros k Hk. rewrite Lp in Hk.
  destruct (place_total _ _ Hk) as (c & i & Pl).
  destruct (C54_coordinates o w p k c i 0 A Pl) as (w1' & _ & E1 & _ & _ & V & _). rewrite E in E1. injection E1 as <-.
  rewrite <- V. apply (cal_ext Der C (fun x => okv (f (moved w1 c i x)))); [|apply G; auto].
  intros x. destruct (C54_coordinates o w p k c i x A Pl) as (w1' & w2 & E1 & E2 & M & _). rewrite E in E1. injection E1 as <-.
  rewrite E2. cbn [fst]. rewrite (Ex w2 (moved w1 c i x) M). reflexivity.
Qed.

(** * C55 *)
Theorem C55_one : forall P (y : sys K) s w r nrm, sound Der P y s w -> fits_sel (fun c => length (w c)) s ->
  ref_in P w r -> one_norm y w r = Ok nrm -> nrm <> 0 ->
  exists v, one_energy_deriv y s w r = Ok v /\ is_grad Der w s (fun w => one_energy y w r) v.
Proof. intros P y s w r nrm So F R. apply (one_energy_grad Der C P y s w So F r nrm R). Qed.

Theorem C55_two : forall P (y : sys K) s w pl pr pn on, sound Der P y s w -> fits_sel (fun c => length (w c)) s ->
  Forall P pl -> Forall P (or_else pr pl) -> Forall P (or_else pn pl) ->
  mapM (wrapped_ov y w) (or_else pn pl) = Ok on -> sumf (fun o => o * o) on <> 0 ->
  exists v, two_energy_deriv y s w pl pr pn = Ok v /\ is_grad Der w s (fun w => two_energy y w pl pr pn) v.
Proof.
  intros P y s w pl pr pn on So F H1 H2 H3. rewrite Forall_forall in H1, H2, H3.
  apply (two_energy_grad Der C P y s w So F pl pr pn on H1 H2 H3).
Qed.

Lemma mapM_fun : forall A B (f g : A -> res B) l, (forall x, In x l -> f x = g x) -> mapM f l = mapM g l.
Proof.
  intros A B f g l. induction l as [|a l IH]; intros H; simpl; [reflexivity|]. rewrite (H a (or_introl eq_refl)).
  rewrite IH by (intros; apply H; right; auto). reflexivity.
Qed.
(** the wavefunction depends on the values of the parameters only *)
Definition values_only (P : N -> Prop) (y : sys K) : Prop := forall w1 w2, (forall c, w1 c = w2 c) ->
  (forall sd, P sd -> y_ov y w1 sd = y_ov y w2 sd) /\ (forall sd, P sd -> y_int y w1 sd = y_int y w2 sd)
  /\ (forall a b, P a -> P b -> y_ss y w1 a b = y_ss y w2 a b).
Lemma sound_values : forall P y s w, sound Der P y s w -> values_only P y.
Proof.
  intros P y s w So w1 w2 E. split; [|split].
  - intros sd H. apply (so_ov _ _ _ _ _ So sd H); auto.
  - intros sd H. apply (so_int _ _ _ _ _ So sd H); auto.
  - intros a b Ha Hb. apply (so_ss _ _ _ _ _ So a b Ha Hb); auto.
Qed.
Lemma one_energy_ext : forall P y r w1 w2, values_only P y -> (forall sd, In sd (ref_sds r) -> P sd) -> (forall c, w1 c = w2 c) ->
  one_energy y w1 r = one_energy y w2 r /\ one_norm y w1 r = one_norm y w2 r.
Proof.
  intros P y r w1 w2 V Hp E. destruct (V w1 w2 E) as (V1 & V2 & _).
  assert (X : ref_coeffs y w1 r = ref_coeffs y w2 r).
  { destruct r as [l|c l]; cbn [ref_coeffs]; [apply mapM_fun; intros sd I; apply V1; apply Hp; auto|rewrite E; reflexivity]. }
  assert (O1 : mapM (wrapped_ov y w1) (ref_sds r) = mapM (wrapped_ov y w2) (ref_sds r)) by (apply mapM_fun; intros; apply V1; auto).
  assert (O2 : mapM (wrapped_int y w1) (ref_sds r) = mapM (wrapped_int y w2) (ref_sds r)) by (apply mapM_fun; intros; apply V2; auto).
  unfold one_energy, one_norm. rewrite X, O1, O2. auto.
Qed.
Lemma vector_ext : forall (f g : list K -> res K) p v, (forall q, length q = length p -> f q = g q) -> vector_grad Der f p v -> vector_grad Der g p v.
Proof.
  intros f g p v E [L G]. split; auto. intros k Hk. apply (cal_ext Der C (fun x => okv (f (upd p k x)))); [|auto].
  intros x. rewrite E by apply upd_length. reflexivity.
Qed.
Lemma assign_any : forall (o : obj K) w p q, assignable o w p -> length q = length p -> exists w', assign_step o q w = (w', Ok tt).
Proof.
  intros o w p q (F & L & St) Lq. destruct (C52_assign 0 (o_store o) (o_view o) w (o_sel o) q F ltac:(congruence) St) as (w' & E & _). eauto.
Qed.
(** objectives that assign the parameters and then compute a function of them *)
Lemma reading_grad : forall (o : obj K) w p w1 f v, assignable o w p -> assign_step o p w = (w1, Ok tt) ->
  (forall w1 w2, (forall c, w1 c = w2 c) -> f w1 = f w2) -> is_grad Der w1 (o_sel o) f v ->
  vector_grad Der (fun q => snd (sbind (assign_step o q) (fun _ => reading f) w)) p v.
Proof.
  intros o w p w1 f v A E Ex G. eapply vector_ext; [|apply (C54_vector o w p w1 f v A E Ex G)].
  intros q Lq. cbv beta. destruct (assign_any o w p q A Lq) as [w' E']. unfold sbind. rewrite E'. reflexivity.
Qed.
Lemma assigned_fits : forall (o : obj K) w p w1, assignable o w p -> assign_step o p w = (w1, Ok tt) -> fits_sel (fun c => length (w1 c)) (o_sel o) /\ same_shape w w1.
Proof.
  intros o w p w1 (F & L & St) E. destruct (C52_assign 0 (o_store o) (o_view o) w (o_sel o) p F L St) as (w' & E' & _ & S1 & _).
  unfold assign_step in E. rewrite E in E'. injection E' as <-. split; [|intros c; apply S1]. apply (fits_ext (fun c => length (w c))); auto.
Qed.

(** EnergyOneSideProjection.gradient without normalization is the gradient of its objective; with the normalization
    that does nothing (BaseWavefunction.normalize) as well. *)
Theorem C55_oneside : forall P (o : obj K) w p w1 r nrm normalize, assignable o w p -> assign_step o p w = (w1, Ok tt) ->
  (normalize = false \/ forall r w, o_normalize o r w = (w, Ok tt)) ->
  sound Der P (o_sys o) (o_sel o) w1 -> ref_in P w1 r -> one_norm (o_sys o) w1 r = Ok nrm -> nrm <> 0 ->
  exists v, snd (one_gradient o r true normalize p w) = Ok v /\ vector_grad Der (fun q => snd (one_objective o r true false q w)) p v.
Proof.
  intros P o w p w1 r nrm nm A E Nm So R En Nz. destruct (assigned_fits o w p w1 A E) as [F1 _].
  destruct (C55_one P (o_sys o) (o_sel o) w1 r nrm So F1 R En Nz) as (v & Ev & G). exists v. split.
  - unfold one_gradient, when, sbind. rewrite E. destruct nm.
    + destruct Nm as [D|D]; [discriminate|]. rewrite D. cbn [reading snd]. auto.
    + cbn [done reading snd]. auto.
  - apply (reading_grad o w p w1 (fun w => one_energy (o_sys o) w r) v A E); auto.
    intros wa wb Eab. apply (one_energy_ext P); auto; [|apply R]. apply (sound_values P _ _ _ So).
Qed.

Lemma two_energy_ext : forall P y pl pr pn w1 w2, values_only P y -> Forall P pl -> Forall P (or_else pr pl) -> Forall P (or_else pn pl) ->
  (forall c, w1 c = w2 c) -> two_energy y w1 pl pr pn = two_energy y w2 pl pr pn.
Proof.
  intros P y pl pr pn w1 w2 V H1 H2 H3 E. destruct (V w1 w2 E) as (V1 & _ & V3). rewrite Forall_forall in H1, H2, H3. unfold two_energy.
  rewrite (mapM_fun _ _ (wrapped_ov y w1) (wrapped_ov y w2) pl) by (intros; apply V1; auto).
  rewrite (mapM_fun _ _ (wrapped_ov y w1) (wrapped_ov y w2) (or_else pr pl)) by (intros; apply V1; auto).
  rewrite (mapM_fun _ _ (wrapped_ov y w1) (wrapped_ov y w2) (or_else pn pl)) by (intros; apply V1; auto).
  rewrite (mapM_fun _ _ (fun i => mapM (fun j => wrapped_ss y w1 i j) (or_else pr pl)) (fun i => mapM (fun j => wrapped_ss y w2 i j) (or_else pr pl)) pl).
  - reflexivity.
  - intros i Hi. apply mapM_fun. intros j Hj. apply V3; auto.
Qed.

(** EnergyTwoSideProjection.gradient (and EnergyVariational, which only chooses the projection spaces) *)
Theorem C55_twoside : forall P (o : obj K) w p w1 pl pr pn on, assignable o w p -> assign_step o p w = (w1, Ok tt) ->
  sound Der P (o_sys o) (o_sel o) w1 -> Forall P pl -> Forall P (or_else pr pl) -> Forall P (or_else pn pl) ->
  mapM (wrapped_ov (o_sys o) w1) (or_else pn pl) = Ok on -> sumf (fun o => o * o) on <> 0 ->
  exists v, snd (two_gradient o pl pr pn p w) = Ok v /\ vector_grad Der (fun q => snd (two_objective o pl pr pn q w)) p v.
Proof.
  intros P o w p w1 pl pr pn on A E So H1 H2 H3 En Nz. destruct (assigned_fits o w p w1 A E) as [F1 _].
  destruct (C55_two P (o_sys o) (o_sel o) w1 pl pr pn on So F1 H1 H2 H3 En Nz) as (v & Ev & G). exists v. split.
  - unfold two_gradient, sbind. rewrite E. cbn [reading snd]. auto.
  - apply (reading_grad o w p w1 (fun w => two_energy (o_sys o) w pl pr pn) v A E); auto.
    intros wa wb Eab. apply (two_energy_ext P); auto. apply (sound_values P _ _ _ So).
Qed.

(** * C59 *)
Theorem C59_norm : forall P (o : obj K) w p w1 r, assignable o w p -> assign_step o p w = (w1, Ok tt) ->
  sound Der P (o_sys o) (o_sel o) w1 -> ref_in P w1 r ->
  exists v, snd (norm_gradient o r p w) = Ok v /\ vector_grad Der (fun q => snd (norm_objective o r q w)) p v.
Proof.
  intros P o w p w1 r A E So Rf. destruct (assigned_fits o w p w1 A E) as [F1 _].
  set (y := o_sys o) in *. set (s := o_sel o) in *.
  destruct (ref_ok Der C P y s w1 So F1 r Rf) as (cf & dcf & R1 & R2 & R3 & R4).
  set (n := length (ref_sds r)) in *. set (J := seq 0 n). set (sdj := fun j => nth j (ref_sds r) 0%N).
  assert (Pj : forall j, In j J -> (j < n)%nat /\ P (sdj j)).
  { intros j I. apply in_seq in I. split; [lia|]. apply (proj1 Rf), nth_In. fold n. lia. }
  assert (Ov : forall w', same_shape w1 w' -> mapM (wrapped_ov y w') (ref_sds r) = Ok (map (fun j => EqnMain.O y w' (sdj j)) J)).
  { intros w' W. rewrite (ov_list Der P y s w1 So); auto; [|apply Rf]. f_equal. apply map_seq_nth. }
  assert (Dov : mapM (wrapped_dov y s w1) (ref_sds r) = Ok (map (fun j => dO y s w1 (sdj j)) J)).
  { rewrite (dov_list Der C P y s w1 So F1) by apply Rf. f_equal. apply map_seq_nth. }
  set (Nf := fun w' => sumf (fun j => cf w' j * EqnMain.O y w' (sdj j)) J).
  assert (Val : forall w', same_shape w1 w' -> norm_value y w' r = Ok (Nf w' - 1)).
  { intros w' W. unfold norm_value, one_norm. rewrite R1, Ov by auto. cbn [bind]. fold J. rewrite dot_maps. reflexivity. }
  set (m := active_nparams s).
  destruct (dot_rows_maps nat m (fun j => EqnMain.O y w1 (sdj j)) dcf J) as (dn1 & D1 & L1 & V1); [intros j I; apply R3, Pj; auto|].
  destruct (dot_rows_maps nat m (cf w1) (fun j => dO y s w1 (sdj j)) J) as (dn2 & D2 & L2 & V2).
  { intros j I. apply (dO_length Der C P y s w1 So F1), Pj; auto. }
  exists (vadd dn1 dn2). split.
  - unfold norm_gradient, sbind. rewrite E. cbn [reading snd]. fold y s. unfold norm_deriv. rewrite R1 by apply same_refl. cbn [bind].
    rewrite Ov by apply same_refl. cbn [bind]. rewrite R2. cbn [bind]. fold m J. rewrite D1. cbn [bind]. rewrite Dov. cbn [bind]. rewrite D2. reflexivity.
  - apply (reading_grad o w p w1 (fun w => norm_value (o_sys o) w r) (vadd dn1 dn2) A E).
    + intros wa wb Eab. unfold norm_value. destruct (one_energy_ext P (o_sys o) r wa wb (sound_values P _ _ _ So) (proj1 Rf) Eab) as [_ ->]. reflexivity.
    + split; [apply vadd_length; auto|]. intros k c i Pl. fold s in Pl. fold y.
      apply (cal_ext Der C (fun x => Nf (moved w1 c i x) + - (1))).
      { intros x. rewrite Val by apply moved_shape. unfold okv. ring. }
      eapply der_eq; [eapply (cal_add Der C (fun x => Nf (moved w1 c i x)) (fun _ => - (1)))|]; [|apply (cal_const Der C)|].
      * unfold Nf. apply (der_sum Der C nat (fun x j => cf (moved w1 c i x) j * EqnMain.O y (moved w1 c i x) (sdj j))
          (fun j => nth k (dcf j) 0 * EqnMain.O y w1 (sdj j) + cf w1 j * nth k (dO y s w1 (sdj j)) 0) J (nth i (w1 c) 0)). intros j Hj.
        destruct (Pj j Hj) as [Hn Hp]. destruct (R4 j k c i Hn Pl) as [Dj Ej].
        eapply der_eq; [apply (cal_mul Der C _ _ _ _ _ Dj (dO_der Der C P y s w1 So F1 (sdj j) k c i Hp Pl))|].
        rewrite Ej, (O_at Der P y s w1 So F1 (sdj j) k c i); auto.
      * rewrite vadd_nth by lia. rewrite V1, V2, sumf_add.
        replace (sumf (fun x => nth k (dcf x) 0 * EqnMain.O y w1 (sdj x)) J) with (sumf (fun x => EqnMain.O y w1 (sdj x) * nth k (dcf x) 0) J) by (apply sumf_ext; intros; ring).
        ring.
Qed.

Theorem C59_local : forall P (o : obj K) w p w1 pspace, assignable o w p -> assign_step o p w = (w1, Ok tt) ->
  sound Der P (o_sys o) (o_sel o) w1 -> Forall P pspace -> (forall sd, In sd pspace -> okv (wrapped_ov (o_sys o) w1 sd) <> 0) ->
  exists v, snd (local_gradient o pspace p w) = Ok v /\ vector_grad Der (fun q => snd (local_objective o pspace q w)) p v.
Proof.
  intros P o w p w1 ps A E So Hp Nz. destruct (assigned_fits o w p w1 A E) as [F1 _]. rewrite Forall_forall in Hp.
  set (y := o_sys o) in *. set (s := o_sel o) in *. set (m := active_nparams s).
  set (f := fun w' => sumf (fun sd => I_ y w' sd * finv (EqnMain.O y w' sd)) ps).
  assert (Val : forall w', same_shape w1 w' -> local_value y w' ps = Ok (f w')).
  { intros w' W. unfold local_value. rewrite (ov_list Der P y s w1 So), (int_list Der P y s w1 So) by auto. cbn [bind].
    rewrite combine_maps, psum_sumf, sumf_map. reflexivity. }
  set (row := fun sd => vsub (vscale (finv (EqnMain.O y w1 sd)) (dI y s w1 sd))
     (vscale (I_ y w1 sd * finv (EqnMain.O y w1 sd * EqnMain.O y w1 sd)) (dO y s w1 sd))).
  destruct (vsum_ok (map row ps) m) as [LV NV].
  { apply Forall_map, Forall_forall. intros sd I. unfold row. apply vsub_length; rewrite vscale_length; [apply (dI_length Der C P y s w1 So F1)|apply (dO_length Der C P y s w1 So F1)]; auto. }
  assert (Ed : exists v0, one_energy_deriv y s w1 (RefSds ps) = Ok v0).
  { assert (Rf : ref_fits P w1 (RefSds ps)) by (split; auto).
    unfold one_energy_deriv. cbn [ref_coeffs d_ref_coeffs ref_sds].
    rewrite (ov_list Der P y s w1 So), (int_list Der P y s w1 So), (dov_list Der C P y s w1 So F1), (dint_list Der C P y s w1 So F1) by (auto using same_refl).
    cbn [bind]. rewrite !dot_maps. cbn [bind].
    destruct (dot_rows_maps N m (EqnMain.O y w1) (dO y s w1) ps) as (a & Ea & _); [intros; apply (dO_length Der C P y s w1 So F1); auto|].
    destruct (dot_rows_maps N m (I_ y w1) (dO y s w1) ps) as (b & Eb & _); [intros; apply (dO_length Der C P y s w1 So F1); auto|].
    destruct (dot_rows_maps N m (EqnMain.O y w1) (dI y s w1) ps) as (d & Ed & _); [intros; apply (dI_length Der C P y s w1 So F1); auto|].
    fold m. rewrite !Ea. cbn [bind]. rewrite Eb. cbn [bind]. rewrite Ed. cbn [bind]. eauto. }
  destruct Ed as [v0 Ev0].
  exists (vsum m (map row ps)). split.
  - unfold local_gradient, sbind. rewrite E. cbn [reading snd]. fold y s. unfold local_deriv. rewrite Ev0. cbn [bind].
    rewrite (ov_list Der P y s w1 So), (int_list Der P y s w1 So), (dov_list Der C P y s w1 So F1), (dint_list Der C P y s w1 So F1) by (auto using same_refl).
    cbn [bind]. rewrite !combine_maps, map_map. reflexivity.
  - apply (reading_grad o w p w1 (fun w => local_value (o_sys o) w ps) _ A E).
    + intros wa wb Eab. destruct (sound_values P _ _ _ So wa wb Eab) as (V1 & V2 & _). unfold local_value.
      rewrite (mapM_fun _ _ (wrapped_ov (o_sys o) wa) (wrapped_ov (o_sys o) wb) ps) by (intros; apply V1; auto).
      rewrite (mapM_fun _ _ (wrapped_int (o_sys o) wa) (wrapped_int (o_sys o) wb) ps) by (intros; apply V2; auto). reflexivity.
    + split; auto. intros k c i Pl. fold s in Pl. fold y.
      apply (cal_ext Der C (fun x => f (moved w1 c i x))); [intros x; rewrite Val by apply moved_shape; reflexivity|].
      rewrite NV, sumf_map. unfold f.
      apply (der_sum Der C N (fun x sd => I_ y (moved w1 c i x) sd * finv (EqnMain.O y (moved w1 c i x) sd)) (fun sd => nth k (row sd) 0) ps (nth i (w1 c) 0)). intros sd Hsd.
      assert (Ps := Hp sd Hsd). assert (Nz' : EqnMain.O y w1 sd <> 0) by (apply Nz; auto).
      eapply der_eq; [eapply (der_div Der C (fun x => I_ y (moved w1 c i x) sd) (fun x => EqnMain.O y (moved w1 c i x) sd))|].
      * cbv beta. rewrite (O_at Der P y s w1 So F1 sd k c i); auto.
      * apply (dI_der Der C P y s w1 So F1 sd k c i Ps Pl).
      * apply (dO_der Der C P y s w1 So F1 sd k c i Ps Pl).
      * cbv beta. rewrite (O_at Der P y s w1 So F1 sd k c i), (I_at Der P y s w1 So F1 sd k c i); auto.
        unfold row. rewrite vsub_nth by (rewrite !vscale_length, (dI_length Der C P y s w1 So F1), (dO_length Der C P y s w1 So F1); auto).
        rewrite !vscale_nth.
        replace (finv (EqnMain.O y w1 sd * EqnMain.O y w1 sd)) with (finv (EqnMain.O y w1 sd) * finv (EqnMain.O y w1 sd)); [ring|].
        apply f_inv_unique.
        -- intros Z. apply Nz'. transitivity (finv (EqnMain.O y w1 sd) * EqnMain.O y w1 sd * EqnMain.O y w1 sd); [rewrite (f_inv K _ Nz'); ring|].
           transitivity (finv (EqnMain.O y w1 sd) * (EqnMain.O y w1 sd * EqnMain.O y w1 sd)); [ring|]. rewrite Z. ring.
        -- transitivity ((finv (EqnMain.O y w1 sd) * EqnMain.O y w1 sd) * (finv (EqnMain.O y w1 sd) * EqnMain.O y w1 sd)); [ring|]. rewrite (f_inv K _ Nz'). ring.
Qed.
End Der.
End P.
