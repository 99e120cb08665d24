(** C54, C55, C59: examples, and the effect of normalizing. *)
From Coq Require Import List ZArith NArith Arith Bool Lia Ring QArith Qcanon Reals Lra.
From Verif Require Import Py Slater BitSpec BitLemmas Alg BicliqueLemmas ParamSel ParamSelSpec ParamSelLemmas P_ParamSel EqnBase EqnSpec EqnLemmas EqnMain EqnObj EqnObjSpec EqnEx EqnReal EqnNorm EqnEx2 P_Eqn.
From Coq Require Import List.
Import ListNotations.
Local Open Scope nat_scope.

Section Ex.
Context {K : CField}.
Local Open Scope cr_scope.
Add Ring K_ring70 : (rth K).
Variable Der : (K -> K) -> K -> K -> Prop.
Hypothesis C : calculus Der.
Lemma der_affine : forall a b x, Der (fun y => a * y + b) x a.
Proof.
  intros a b x. eapply der_eq; [apply (cal_add Der C (fun y => a * y) (fun _ => b) x (0 * x + a * 1) 0)|ring].
  - apply (cal_mul Der C (fun _ => a) (fun y => y) x 0 1); [apply (cal_const Der C)|apply (cal_id Der C)].
  - apply (cal_const Der C).
Qed.
Lemma der_affine' : forall (f : K -> K) a x, (forall y, f y = a * y + f 0) -> Der f x a.
Proof. intros f a x H. apply (cal_ext Der C (fun y => a * y + f 0)); [intros; symmetry; apply H|apply der_affine]. Qed.

Ltac solve_ifs := repeat match goal with |- context [if ?b then _ else _] => destruct b end; ring.
Ltac solve_slopes E0 E1 := unfold okv, moved, set_world; simpl; unfold xs, hs, pick; simpl; rewrite ?E0, ?E1; simpl; solve_ifs.
Lemma mapM_scale : forall (f g : N -> res K) (u : K) l os, mapM f l = Ok os ->
  (forall sd o, In sd l -> f sd = Ok o -> g sd = Ok (u * o)) -> mapM g l = Ok (map (rmul u) os).
Proof.
  clear. intros f g u l. induction l as [|sd l IH]; intros os E H; simpl in E.
  - injection E as <-. reflexivity.
  - destruct (f sd) as [o|] eqn:Eo; [|discriminate]. cbn [bind] in E. destruct (mapM f l) as [os'|] eqn:Em; [|discriminate].
    cbn [bind] in E. injection E as <-. simpl. rewrite (H sd o (or_introl eq_refl) Eo). cbn [bind].
    rewrite (IH os' eq_refl) by (intros; apply H; auto; right; auto). reflexivity.
Qed.
(** The example system satisfies the hypotheses of the theorems. *)
Example ex_sound : forall w : world K, length (w 0%nat) = 2%nat -> length (w 1%nat) = 1%nat -> sound Der (fun _ => True) ex_sys ex_sel w.
Proof.
  intros w L0 L1. destruct (w 0%nat) as [|x0 [|x1 [|x2 t]]] eqn:E0; try discriminate. destruct (w 1%nat) as [|h [|h' t]] eqn:E1; try discriminate.
  assert (Lst : forall l, In (0%nat, l) ex_sel -> l = [0; 1]%nat) by (intros l [E|[E|[]]]; injection E; auto; discriminate).
  assert (Lsh : forall l, In (1%nat, l) ex_sel -> l = [0]%nat) by (intros l [E|[E|[]]]; injection E; auto; discriminate).
  constructor.
  - split; [repeat constructor; simpl; tauto|]. simpl. intros [H|[]]. discriminate.
  - intros sd _. split; [eexists; reflexivity|]. intros w1 w2 E. simpl. unfold xs. rewrite !E. reflexivity.
  - intros sd _ c [<-|[]] l I N. apply Lst in I. subst l. eexists. split; [reflexivity|]. split; [reflexivity|].
    intros [|[|j]] i Ei; simpl in Ei; try (injection Ei as <-); [| |destruct j; discriminate]; simpl nth; apply der_affine'; intros z;
      solve_slopes E0 E1.
  - intros sd _ c NI i x. unfold xs, moved, set_world. simpl. unfold xs. destruct (Nat.eqb_spec 0 c) as [<-|]; [exfalso; apply NI; left; auto|reflexivity].
  - intros sd _. split; [eexists; reflexivity|]. intros w1 w2 E. simpl. unfold xs, hs. rewrite !E. reflexivity.
  - intros sd _ c [<-|[]] l I N. apply Lst in I. subst l. eexists. split; [reflexivity|]. split; [reflexivity|].
    intros [|[|j]] i Ei; simpl in Ei; try (injection Ei as <-); [| |destruct j; discriminate]; simpl nth; apply der_affine'; intros z;
      solve_slopes E0 E1.
  - intros sd _ l I N. apply Lsh in I. subst l. eexists. split; [reflexivity|]. split; [reflexivity|].
    intros [|j] i Ei; simpl in Ei; try (injection Ei as <-); [|destruct j; discriminate]; simpl nth; apply der_affine'; intros z;
      solve_slopes E0 E1.
  - intros sd _ c NI Nh i x. unfold xs, hs, moved, set_world. simpl. unfold xs, hs.
    destruct (Nat.eqb_spec 0 c) as [<-|]; [exfalso; apply NI; left; auto|]. destruct (Nat.eqb_spec 1 c) as [<-|]; [exfalso; apply Nh; auto|reflexivity].
  - intros a b _ _. split; [eexists; reflexivity|]. intros w1 w2 E. simpl. unfold hs. rewrite !E. reflexivity.
  - intros a b _ _ l I N. apply Lsh in I. subst l. eexists. split; [reflexivity|]. split; [reflexivity|].
    intros [|j] i Ei; simpl in Ei; try (injection Ei as <-); [|destruct j; discriminate]; simpl nth; apply der_affine'; intros z;
      solve_slopes E0 E1.
  - intros a b _ _ c Nh i x. unfold hs, moved, set_world. simpl. unfold hs. destruct (Nat.eqb_spec 1 c) as [<-|]; [exfalso; apply Nh; auto|reflexivity].
Qed.
Example ex_fits : forall w : world K, length (w 0%nat) = 2%nat -> length (w 1%nat) = 1%nat -> fits_sel (fun c => length (w c)) ex_sel.
Proof.
  intros w L0 L1. split.
  - simpl. constructor; [simpl; intros [H|[]]; discriminate|]. constructor; [simpl; tauto|constructor].
  - intros c l [E|[E|[]]]; injection E as <- <-.
    + split; [repeat constructor|]. constructor; [lia|constructor].
    + split; [|rewrite L0; repeat constructor; lia]. repeat constructor.
Qed.
Example ex_assignable : forall (w : world K) p, length (w 0%nat) = 2%nat -> length (w 1%nat) = 1%nat -> length p = 3%nat -> assignable ex_obj w p.
Proof. intros w p L0 L1 Lp. split; [apply ex_fits; auto|]. split; auto. Qed.
End Ex.

(** * The theorems with derivatives of functions of a real variable *)
Local Open Scope R_scope.
Example C54_real : forall sd, exists v, wrapped_dint ex_sys ex_sel (rworld 2 1 5 0) sd = Ok v
  /\ is_grad (K := R_field) real_der (rworld 2 1 5 0) ex_sel (fun w => wrapped_int ex_sys w sd) v.
Proof.
  intros sd. destruct (C54_gradients real_der real_calculus (fun _ => True) ex_sys ex_sel (rworld 2 1 5 0)) as (_ & H & _).
  - apply ex_sound; try reflexivity. apply real_calculus.
  - apply ex_fits; reflexivity.
  - apply H. exact I.
Qed.

Lemma half_power : Rpower (4) (- (1 / 2) / INR 1) = 1 / 2.
Proof.
  replace (- (1 / 2) / INR 1) with (- / 2) by (simpl; field). rewrite Rpower_Ropp. replace (Rpower 4 (/ 2)) with 2; [field|].
  rewrite Rpower_sqrt by lra. replace 4 with (2 * 2) by ring. rewrite sqrt_square; lra.
Qed.

(** EnergyOneSideProjection.gradient normalizes by default, its objective does not.  For a geminal wavefunction the
    gradient is then not the gradient of the objective: the energy is h + y / x, at x = 2 the derivative by y is 1/2,
    but after normalizing x to 1 it is 1. *)
Theorem C55_normalize_refuted : exists (o : obj R_field) w p w1 r nrm v, o_normalize o = gem_normalize (o_sys o) 1 /\
  assignable o w p /\ assign_step o p w = (w1, Ok tt) /\ sound real_der (fun _ => True) (o_sys o) (o_sel o) w1
  /\ ref_in (fun _ => True) w1 r /\ one_norm (o_sys o) w1 r = Ok nrm /\ nrm <> 0
  /\ snd (one_gradient o r true true p w) = Ok v
  /\ ~ vector_grad real_der (fun q => snd (one_objective o r true false q w)) p v.
Proof.
  pose (w := rworld 0 0 0 0). pose (p := [5; 2; 1] : list R_field). pose (r := RefSds [sd1]).
  assert (A : assignable gem_obj w p) by (apply ex_assignable; reflexivity).
  destruct (assign_step gem_obj p w) as [w1 [u|e]] eqn:E; [|vm_compute in E; discriminate]. destruct u.
  assert (W0 : w1 0%nat = [2; 1]) by (assert (X := f_equal (fun z => fst z 0%nat) E); symmetry; exact X).
  assert (W1 : w1 1%nat = [5]) by (assert (X := f_equal (fun z => fst z 1%nat) E); symmetry; exact X).
  assert (So : sound (K := R_field) real_der (fun _ => True) ex_sys ex_sel w1) by (apply ex_sound; [apply real_calculus|rewrite W0; reflexivity|rewrite W1; reflexivity]).
  assert (Rf : ref_in (fun _ => True) w1 r) by (split; [intros; exact I|exact I]).
  assert (En : one_norm (o_sys gem_obj) w1 r = Ok (2 * 2 + 0)).
  { unfold one_norm, r. cbn -[Rmult Rplus]. unfold dot, pick, xs. cbn -[Rmult Rplus]. rewrite W0. simpl. f_equal. ring. }
  assert (Nz : (2 * 2 + 0) <> 0) by lra.
  destruct (C55_oneside real_der real_calculus (fun _ => True) gem_obj w p w1 r (2 * 2 + 0) false A E (or_introl eq_refl) So Rf En Nz) as (v0 & Ev0 & [L0 G0]).
  destruct (snd (one_gradient gem_obj r true true p w)) as [v|e] eqn:Ev.
  - exists gem_obj, w, p, w1, r, (2 * 2 + 0), v. split; [reflexivity|]. do 7 (split; auto). intros [L G].
    assert (Eq := real_unique _ _ _ _ (G 2%nat ltac:(simpl; lia)) (G0 2%nat ltac:(simpl; lia))).
    assert (V0 : nth 2 v0 0 = 1 / 2).
    { clear - Ev0 E W0 W1. unfold one_gradient, when, sbind in Ev0. rewrite E in Ev0. cbn [done reading snd] in Ev0.
      unfold one_energy_deriv, r in Ev0. cbn -[Rmult Rplus Rinv Rminus] in Ev0. unfold xs, hs in Ev0. rewrite W0, W1 in Ev0.
      cbn -[Rmult Rplus Rinv Rminus] in Ev0. injection Ev0 as <-. simpl nth. match goal with |- ?a = ?b => change (@eq R a b) end. field. }
    assert (V1 : nth 2 v 0 = 1).
    { clear - Ev E W0 W1. unfold one_gradient, when, sbind in Ev. rewrite E in Ev. unfold gem_obj at 1 in Ev. cbn [o_normalize] in Ev.
      unfold gem_normalize, r in Ev. cbn [mapM ex_sys wrapped_ov y_ov bind] in Ev. cbn [psum fold_left y_wfn] in Ev.
      unfold one_energy_deriv in Ev. cbn -[Rmult Rplus Rinv Rminus Rpower INR] in Ev. unfold xs, hs, set_world in Ev. cbn -[Rmult Rplus Rinv Rminus Rpower INR] in Ev. rewrite ?W0, ?W1 in Ev.
      cbn -[Rmult Rplus Rinv Rminus Rpower INR] in Ev.
      match type of Ev with context [Rpower ?a ?b] => replace a with 4 in Ev by ring; rewrite half_power in Ev end.
      injection Ev as <-. simpl nth. match goal with |- ?a = ?b => change (@eq R a b) end. field. }
    assert (X : 1 = 1 / 2) by (etransitivity; [symmetry; exact V1|etransitivity; [exact Eq|exact V0]]). lra.
  - exfalso. unfold one_gradient, when, sbind in Ev. rewrite E in Ev. cbn in Ev. discriminate.
Qed.

(** After normalizing, the sum of the squares of the overlaps with the reference determinants is 1, if the overlaps are
    homogeneous of degree ngem in the parameters of the wavefunction. *)
Theorem C55_normalized : forall (y : sys R_field) ngem l w os, (0 < ngem)%nat ->
  mapM (wrapped_ov y w) l = Ok os -> 0 < psum (K := R_field) (fun o : R => o * o) os ->
  (forall sd t o, In sd l -> y_ov y w sd = Ok o -> y_ov y (set_world w (y_wfn y) (map (fun x : R => x * t) (w (y_wfn y)))) sd = Ok (t ^ ngem * o)) ->
  exists w' os', gem_normalize y ngem (RefSds l) w = (w', Ok tt) /\ mapM (wrapped_ov y w') l = Ok os'
  /\ psum (K := R_field) (fun o : R => o * o) os' = 1 /\ (forall c, c <> y_wfn y -> w' c = w c).
Proof.
  intros y g l w os Hg E Pos Hom. unfold gem_normalize. rewrite E. set (N := psum (K := R_field) (fun o : R => o * o) os) in *.
  set (t := Rpower N (- (1 / 2) / INR g)). eexists. exists (map (fun o : R => t ^ g * o) os). split; [reflexivity|]. split; [|split].
  - apply (mapM_scale (wrapped_ov y w) _ (t ^ g) l os E). intros sd o I Eo. apply (Hom sd t o I Eo).
  - transitivity ((t ^ g * t ^ g) * N).
    + unfold N. rewrite !psum_sumf, sumf_map. rewrite <- (sumf_mul_l (K := R_field)). apply sumf_ext. intros o _. simpl. ring.
    + assert (Tg : t ^ g = Rpower N (- (1 / 2))).
      { unfold t. rewrite <- Rpower_pow by (unfold Rpower; apply exp_pos). rewrite Rpower_mult. f_equal. field. apply not_0_INR. lia. }
      rewrite Tg, <- Rpower_plus. replace (- (1 / 2) + - (1 / 2)) with (- (1)) by field. rewrite Rpower_Ropp, Rpower_1 by auto. change (/ N * N = 1). field. lra.
  - intros c D. unfold set_world. rewrite (proj2 (Nat.eqb_neq _ _) D). reflexivity.
Qed.

(** Values: gradients of the example system with respect to (h, x, y) at h = 5, x = 2, y = 1. *)
Example C54_example :
  ql (wrapped_dov (K := Qc_field) ex_sys ex_sel qw sd1) = [(0%Z, 1%positive); (1%Z, 1%positive); (0%Z, 1%positive)]
  /\ ql (wrapped_dint (K := Qc_field) ex_sys ex_sel qw sd2) = [(1%Z, 1%positive); (1%Z, 1%positive); (5%Z, 1%positive)]
  /\ ql (wrapped_dss (K := Qc_field) ex_sys ex_sel qw sd2 sd2) = [(1%Z, 1%positive); (0%Z, 1%positive); (0%Z, 1%positive)].
Proof. vm_compute. auto. Qed.
Example C55_example :
  ql (one_energy_deriv (K := Qc_field) ex_sys ex_sel qw (RefSds [sd1])) = [(1%Z, 1%positive); ((-1)%Z, 4%positive); (1%Z, 2%positive)]
  /\ ql (two_energy_deriv (K := Qc_field) ex_sys ex_sel qw [sd1; sd2] None None) = [(1%Z, 1%positive); ((-6)%Z, 25%positive); (12%Z, 25%positive)].
Proof. vm_compute. auto. Qed.
Example C59_example :
  ql (local_deriv (K := Qc_field) ex_sys ex_sel qw [sd1; sd2]) = [(2%Z, 1%positive); (3%Z, 4%positive); ((-3)%Z, 2%positive)]
  /\ ql (norm_deriv (K := Qc_field) ex_sys ex_sel qw (RefSds [sd1; sd2])) = [(0%Z, 1%positive); (4%Z, 1%positive); (2%Z, 1%positive)].
Proof. vm_compute. auto. Qed.

Print Assumptions C54_overlap_slots.
Print Assumptions C54_integral_slots.
Print Assumptions C54_sd_sd_slots.
Print Assumptions C54_mismatch.
Print Assumptions C54_gradients.
Print Assumptions C54_coordinates.
Print Assumptions C54_vector.
Print Assumptions C55_one.
Print Assumptions C55_two.
Print Assumptions C55_oneside.
Print Assumptions C55_twoside.
Print Assumptions C55_normalize_refuted.
Print Assumptions C55_normalized.
Print Assumptions C59_norm.
Print Assumptions C59_local.
