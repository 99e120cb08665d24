(** C70: the Hamiltonian in the course of an optimization. *)
From Coq Require Import Ring_theory List ZArith NArith Bool Lia Arith QArith Qcanon.
From Verif Require Import Py BitSpec Slater Alg PermLemmas HamSpec HamGen HamRes HamRot HamRotLemmas HamRotMat HamRotAssign HamRotHist P_Rot2 SolverHam.
Import ListNotations.
Local Open Scope nat_scope.

Section P.
Context {K : CField}.
Variables (big huge : nat -> (nat -> nat -> K) -> bool) (expm : nat -> (nat -> nat -> K) -> nat -> nat -> K).
Hypothesis small_zero : forall n m, meq n m (fun _ _ => rO) -> big n m = false.

Lemma hrun_app : forall ops ops' (o : hobj K), hrun big huge expm o (ops ++ ops') = hrun big huge expm (hrun big huge expm o ops) ops'.
Proof. intros. unfold hrun. apply fold_left_app. Qed.
Lemma srun_app : forall n ops ops' (s : rotspec), srun big huge expm n s (ops ++ ops') = srun big huge expm n (srun big huge expm n s ops) ops'.
Proof. intros. unfold srun. apply fold_left_app. Qed.
Lemma valid_of : forall n (p : list K), length p = n * (n - 1) / 2 -> valid n p = true.
Proof. intros n p L. unfold valid. rewrite L, half_tri. apply Nat.eqb_refl. Qed.

(** While least_squares and root evaluate the objective the flag is off.  The refresh at the end of an iteration, whatever has been
    done to the Hamiltonian before, keeps the integrals and the reference, and from then on parameters rotate the present orbitals by
    the difference to the present parameters. *)
Theorem C70_refresh : forall (t : ints K) b ops q p, 1 <= i_n t -> length q = i_n t * (i_n t - 1) / 2 -> length p = i_n t * (i_n t - 1) / 2 ->
  let o := hrun big huge expm (init t b) (ops ++ begin_ops ++ [HAssign (Some q)]) in
  let o1 := hrun big huge expm o (refresh_ops (o_params o)) in
  let o2 := hrun big huge expm o1 [HAssign (Some p)] in
  o_params o = q /\ o_upd o1 = false /\ ieq (o_ints o1) (o_ints o) /\ ieq (o_ref o1) (o_ref o)
  /\ ieq (o_ints o2) (rot (o_ints o) (uni big huge expm (sub p q))).
Proof.
  intros t b ops q p P Lq Lp o o1 o2.
  assert (Q : o_params o = q).
  { unfold o. rewrite app_assoc, hrun_app. unfold hrun at 1. cbn [fold_left hstep]. destruct (C36_accepts big huge expm small_zero t b (ops ++ begin_ops) q P Lq) as (o' & E & X & _). rewrite E. exact X. }
  split; [exact Q|].
  assert (E1 : o1 = hrun big huge expm (init t b) ((ops ++ begin_ops ++ [HAssign (Some q)]) ++ refresh_ops q)) by (unfold o1; rewrite Q; unfold o; rewrite <- hrun_app; reflexivity).
  assert (E2 : o2 = hrun big huge expm (init t b) (((ops ++ begin_ops ++ [HAssign (Some q)]) ++ refresh_ops q) ++ [HAssign (Some p)])) by (unfold o2; rewrite E1, <- hrun_app; reflexivity).
  assert (Sim : forall l, sim t (i_n t) (hrun big huge expm (init t b) l) (srun big huge expm (i_n t) (sinit (i_n t) b) l)) by (intros l; apply (sim_run big huge expm small_zero t (i_n t)); auto; apply sim_init; auto).
  destruct (Sim (ops ++ begin_ops ++ [HAssign (Some q)])) as (W0 & I0 & R0 & _). fold o in W0, I0, R0.
  destruct (Sim ((ops ++ begin_ops ++ [HAssign (Some q)]) ++ refresh_ops q)) as (_ & I1 & R1 & _ & _ & U1 & _). rewrite <- E1 in I1, R1, U1.
  destruct (Sim (((ops ++ begin_ops ++ [HAssign (Some q)]) ++ refresh_ops q) ++ [HAssign (Some p)])) as (_ & I2 & _). rewrite <- E2 in I2.
  rewrite !srun_app in *. set (s := srun big huge expm (i_n t) (sinit (i_n t) b) ops) in *. unfold begin_ops, refresh_ops in *.
  cbn [srun fold_left sstep given] in *. rewrite (valid_of _ q Lq) in *. cbn [s_upd s_fp s_fw s_ref s_cur] in *. rewrite (valid_of _ p Lp) in *. cbn [s_upd s_fp s_fw s_ref s_cur] in *.
  split; [exact U1|]. split; [eapply ieq_trans; [exact I1|apply ieq_sym; exact I0]|]. split; [eapply ieq_trans; [exact R1|apply ieq_sym; exact R0]|].
  eapply ieq_trans; [exact I2|]. apply ieq_sym. eapply ieq_trans; [apply rot_ieq; [exact I0|apply meq_refl]|]. eapply ieq_trans; [apply rot_comp|].
  apply rot_ieq; [apply ieq_refl|]. intros i j _ _. apply mdot_assoc.
Qed.

(** The callback of minimize does not do that: whatever parameters are assigned next, it has no effect. *)
Theorem C70_callback_refuted : forall (t : ints K) b ops q p, 1 <= i_n t -> length q = i_n t * (i_n t - 1) / 2 -> length p = i_n t * (i_n t - 1) / 2 ->
  let o := hrun big huge expm (init t b) (ops ++ begin_ops ++ [HAssign (Some q)]) in
  ieq (o_ints (hrun big huge expm o (callback_ops (o_params o) ++ [HAssign (Some p)]))) (o_ints (hrun big huge expm o [HAssign (Some p)]))
  /\ ieq (o_ref (hrun big huge expm o (callback_ops (o_params o) ++ [HAssign (Some p)]))) (o_ref (hrun big huge expm o [HAssign (Some p)])).
Proof.
  intros t b ops q p P Lq Lp o.
  assert (Q : o_params o = q).
  { unfold o. rewrite app_assoc, hrun_app. unfold hrun at 1. cbn [fold_left hstep]. destruct (C36_accepts big huge expm small_zero t b (ops ++ begin_ops) q P Lq) as (o' & E & X & _). rewrite E. exact X. }
  assert (Sim : forall l, sim t (i_n t) (hrun big huge expm (init t b) l) (srun big huge expm (i_n t) (sinit (i_n t) b) l)) by (intros l; apply (sim_run big huge expm small_zero t (i_n t)); auto; apply sim_init; auto).
  destruct (Sim ((ops ++ begin_ops ++ [HAssign (Some q)]) ++ callback_ops q ++ [HAssign (Some p)])) as (_ & I1 & R1 & _).
  destruct (Sim ((ops ++ begin_ops ++ [HAssign (Some q)]) ++ [HAssign (Some p)])) as (_ & I2 & R2 & _).
  rewrite Q. unfold o. rewrite <- !hrun_app.
  rewrite !srun_app in *. set (s := srun big huge expm (i_n t) (sinit (i_n t) b) ops) in *. unfold begin_ops, callback_ops in *.
  cbn [srun fold_left sstep given app] in *. rewrite (valid_of _ q Lq) in *. cbn [s_upd s_fp s_fw s_ref s_cur] in *. rewrite (valid_of _ p Lp) in *. cbn [s_upd s_fp s_fw s_ref s_cur] in *.
  split; [eapply ieq_trans; [exact I1|apply ieq_sym; exact I2]|eapply ieq_trans; [exact R1|apply ieq_sym; exact R2]].
Qed.
End P.
