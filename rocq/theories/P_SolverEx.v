(** C70: examples, and that brute saves the wrong parameters. *)
From Coq Require Import List ZArith NArith Arith Bool Lia QArith Qcanon.
From Verif Require Import Py Slater Alg WfnCI ParamSel EqnBase EqnSpec EqnObj ProjSpec EqnEx EqnEx3 HamRes HamRot HamRotHist HamRotEx Solver SolverSpec SolverHam SolverEx P_SolverCI P_SolverReal P_Solver P_Solver2 P_SolverHam.
Import ListNotations.
Local Open Scope nat_scope.

Lemma qeq_ok : forall a b, qeq a b = true -> a = b.
Proof. intros a b H. unfold qeq in H. destruct (Qc_eq_dec a b) as [E|E]; [exact E|discriminate H]. Qed.
Lemma eigh2_good : good_eigh (K := Qc_field) eigh2.
Proof.
  intros n m vals vecs H. unfold eigh2 in H.
  destruct (Nat.eqb_spec n 2) as [->|D]; [|discriminate H].
  destruct (qeq (m 0 0) (zc 16)) eqn:E1; [|discriminate H]. destruct (qeq (m 0 1) (zc (-12))) eqn:E2; [|discriminate H]. destruct (qeq (m 1 1) (zc 9)) eqn:E3; [|discriminate H].
  apply qeq_ok in E1, E2, E3. cbn [Nat.eqb andb] in H. injection H as <- <-.
  constructor; [reflexivity|reflexivity|repeat constructor| | |].
  - intros k i Hk Hi. cbn [seq]. rewrite !sumf_cons. unfold sym_of. destruct i as [|[|i]]; [| |lia]; cbn [Nat.leb]; rewrite ?E1, ?E2, ?E3; (destruct k as [|[|k]]; [| |lia]); apply Qc_is_canon; reflexivity.
  - intros k l Hk Hl. destruct k as [|[|k]]; [| |lia]; (destruct l as [|[|l]]; [| |lia]); apply Qc_is_canon; reflexivity.
  - intros k l Hk Hl. destruct k as [|[|k]]; [| |lia]; (destruct l as [|[|l]]; [| |lia]); apply Qc_is_canon; reflexivity.
Qed.
Lemma ham2_sym : symmetric ham2 (ci_sds ci2).
Proof. intros a b Ha Hb. cbn in *. destruct Ha as [<-|[<-|[]]]; destruct Hb as [<-|[<-|[]]]; reflexivity. Qed.
Lemma ci2_nodup : NoDup (ci_sds ci2).
Proof. repeat constructor; cbn; intuition discriminate. Qed.
Example brute_ex : exists out, brute eigh2 ci2 ham2 true = Ok out /\ map this (b_params out) = [3 # 5; 4 # 5]%Q /\ map this (b_eigval out) = [0; 25]%Q.
Proof. eexists. split; [reflexivity|]. split; reflexivity. Qed.
(** the theorems apply to it *)
Example brute_projected_ex : exists out E v, brute eigh2 ci2 ham2 true = Ok out /\ nth_error (b_eigval out) 1 = Some E /\ nth_error (b_eigvec out) 1 = Some v
  /\ this E = 25%Q /\ residuals sys2 (ci_sds ci2) E (fun _ => v) = Ok (repeat rO 2) /\ two_energy sys2 (fun _ => v) (ci_sds ci2) None None = Ok E.
Proof.
  do 3 eexists. split; [reflexivity|]. split; [reflexivity|]. split; [reflexivity|]. split; [reflexivity|].
  match goal with |- residuals _ _ ?E (fun _ => ?v) = _ /\ _ =>
    destruct (C70_brute_projected (K := Qc_field) eigh2 ci2 ham2 true _ 1 E v sys2 (fun _ => v) eigh2_good eq_refl ci2_nodup ham2_sym eq_refl eq_refl) as (R & _ & _ & T); [|split; [exact R|exact T]] end.
  split; [|split]; intros; reflexivity.
Qed.
Example brute_errors_ex : brute eigh2 ci2 (mkbham (K := Qc_field) 6%Z (bh_ss ham2) []) true = Err ValueError /\ brute eigh2 ci2 ham_bad false = Err TypeError.
Proof. split; reflexivity. Qed.
(** What is saved is not the solution. *)
Theorem C70_brute_save_refuted : exists (w : ciwfn Qc_field) h out p q, brute eigh2 w h true = Ok out /\ b_saved out = Some (p, q) /\ p <> b_params out.
Proof.
  exists ci2, ham2. do 3 eexists. split; [reflexivity|]. split; [reflexivity|]. intros H. injection H as H. discriminate H.
Qed.
Print Assumptions C70_brute_save_refuted.

(** ** root *)
Example root_square_ex : forall K : CField, exists e', root_truncate false (@sol_three K) 2 = Ok e' /\ num_eqns false e' = 2 /\ e_pspace e' = [sd1].
Proof.
  intros K. destruct (C70_root_square false (@sol_three K) 2) as (e' & E & N & _).
  - intros c [<-|[]]. reflexivity.
  - reflexivity.
  - cbn. lia.
  - exists e'. split; auto. split; auto. injection E as <-. reflexivity.
Qed.
Example root_few_ex : forall K : CField, root done false (mkeqns (@sol_obj K) (RefSds [sd1]) [sd1] Compute 2 [] [rI]) (fun _ => rejecting [] []) (ex_world rO rO rO rO) = (ex_world rO rO rO rO, Err ValueError).
Proof. intros K. apply (C70_root_few (K := K)) with (x0 := [rO; rO]); [reflexivity|cbn; lia]. Qed.
Example root_multi_ex : forall K : CField, exists e', root_truncate false (@sol_multi K) 2 = Ok e' /\ num_eqns false e' = 3 /\ never_evaluates false e'.
Proof.
  intros K. destruct (C70_root_multi_refuted false (@sol_multi K) 2) as (e' & E & _ & N); [reflexivity|discriminate|cbn; lia|lia|cbn; lia|].
  exists e'. split; auto. split; auto. injection E as <-. reflexivity.
Qed.
Example root_negative_ex : forall K : CField, exists e', root_truncate false (@sol_neg K) 1 = Ok e' /\ num_eqns false e' = 3 /\ never_evaluates false e'.
Proof.
  intros K. destruct (C70_root_negative_refuted false (@sol_neg K) 1) as (e' & E & M & _ & N); [reflexivity| |cbn; lia|cbn; lia|cbn; lia|].
  - intros c [<-|[<-|[]]]; reflexivity.
  - exists e'. auto.
Qed.
(** ** an optimizer that accepts its last point *)
Example accepting_ok : forall (K : CField) (a b : list K), ends_at (V := list K) (J := list (list K)) None (accepting a b).
Proof. intros K a b. constructor. intros v. constructor. intros j. constructor. intros v'. apply (e_done (mksres true b v')). Qed.
Lemma sol_ignores : forall K : CField, ignores (energy_store (@sol_eqns K)) (fun _ => True) (@ex_sys K).
Proof.
  intros K w1 w2 sd A _. assert (E0 : w1 0 = w2 0) by (apply A; discriminate). assert (E1 : w1 1 = w2 1) by (apply A; discriminate).
  unfold ex_sys. cbn. unfold xs, hs. rewrite E0, E1. repeat split.
Qed.
Example energy_ex : forall K : CField, exists w' out, least_squares done false (@sol_eqns K) (fun _ _ => accepting [rI; rO] [rI; rI]) (ex_world rO rO rO rO) = (w', Ok out)
  /\ settled sol_eqns (s_params out) (s_energy out) w' /\ s_params out = [rI; rI].
Proof.
  intros K.
  assert (X : exists w' out, least_squares done false (@sol_eqns K) (fun _ _ => accepting [rI; rO] [rI; rI]) (ex_world rO rO rO rO) = (w', Ok out) /\ s_params out = [rI; rI])
    by (do 2 eexists; split; [cbv -[rmul radd rsub ropp rO rI finv rcar fring]; reflexivity|reflexivity]).
  destruct X as (w' & out & E & Ep). exists w', out. split; [exact E|]. split; [|exact Ep].
  apply (C70_energy (fun _ => True) sol_eqns false done (sol_ignores K)) with (6 := E); [auto|exact I|constructor|discriminate|].
  intros n x0. apply (accepting_ok K [rI; rO] [rI; rI]).
Qed.
Example minimize_ex : forall K : CField, exists w' r en, minimize done (@sol_single K) (fun _ => SCall [rI; rO] (fun v => SDone (mksres true [rI; rO] v))) (ex_world rO rO rI rO) = (w', Ok (r, en)) /\ en = Some [r_fun r].
Proof. intros K. do 3 eexists. split; [cbv -[rmul radd rsub ropp rO rI finv rcar fring]; reflexivity|reflexivity]. Qed.
Example cma_ex : forall K : CField, exists w' r en, cma (@sol_single K) (fun _ => SCall [rI; rO] (fun v => SCall [rI; rI] (fun _ => SDone (mksres true [rI; rO] v)))) (ex_world rO rO rI rO) = (w', Ok (r, en)) /\ w' 0 = [rI; rO] /\ en = Some [r_fun r].
Proof. intros K. do 3 eexists. split; [cbv -[rmul radd rsub ropp rO rI finv rcar fring]; reflexivity|split; reflexivity]. Qed.
(** ** the refresh makes a difference: one rotation by 1 is not two rotations by 1/2 of this truncated exponential *)
Example refresh_ex : after_ops refresh_ops <> after_ops callback_ops /\ after_ops callback_ops = after_ops (fun _ => []).
Proof. split; [intros H; vm_compute in H; discriminate H|vm_compute; reflexivity]. Qed.
Print Assumptions C70_brute. Print Assumptions C70_brute_projected. Print Assumptions C70_brute_upper. Print Assumptions C70_brute_errors. Print Assumptions C70_brute_saved.
Print Assumptions C70_root_few. Print Assumptions C70_root_same. Print Assumptions C70_root_square. Print Assumptions C70_root_multi_refuted. Print Assumptions C70_root_negative_refuted.
Print Assumptions C70_residuals. Print Assumptions C70_root_residuals. Print Assumptions C70_single. Print Assumptions C70_minimize. Print Assumptions C70_cma.
Print Assumptions C70_energy. Print Assumptions C70_root_energy. Print Assumptions C70_energy_refuted. Print Assumptions C70_refresh. Print Assumptions C70_callback_refuted.
