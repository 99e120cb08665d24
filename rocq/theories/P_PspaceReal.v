(** C76: the variational objective is bounded from below. *)
From Coq Require Import List ZArith NArith Arith Bool Lia Reals Lra.
From Verif Require Import Py Slater BitSpec Alg WfnCI CILemmas P_CI ParamSel EqnBase EqnSpec EqnLemmas EqnObj EqnReal ProjSpec Solver SolverSpec P_SolverCI P_SolverReal Pspace PspaceSpec PspaceRealEx.
Import ListNotations.
Local Open Scope nat_scope.

Lemma var_same : forall w a l r n, var_pspace w a = Ok (l, r, n) -> r = Some l /\ n = Some l.
Proof.
  intros w a l r n H. unfold var_pspace in H.
  destruct (match a with ANone => do l <- default_space w None; Ok (AList (map SInt l)) | a => Ok a end) as [p|] eqn:E; [|discriminate]. cbn [bind] in H.
  assert (Np : p <> ANone). { destruct a; [|congruence|congruence]. destruct (default_space w None); [|discriminate]. cbn in E. congruence. }
  unfold two_pspaces in H. assert (X : match p with ANone => do l <- default_space w None; Ok (AList (map SInt l)) | a => Ok a end = Ok p) by (destruct p; congruence).
  rewrite X in H. cbn [bind] in H. destruct (two_space w p) as [[l0|]|]; cbn [bind] in H; [|discriminate|discriminate]. injection H as -> <- <-. auto.
Qed.
(** for every wavefunction, the energy in a space of determinants is at least the energy that brute finds in that space *)
Theorem C76_lower_bound : forall eigh (w : winfo) (a : sarg) (cw : ciwfn R_field) (h : bham R_field) save out (y : sys R_field) W r n,
  good_eigh eigh -> brute eigh cw h save = Ok out -> (forall E, In E (b_eigval out) -> (b_energy out <= E)%R) -> symmetric h (ci_sds cw) ->
  var_pspace w a = Ok (ci_sds cw, r, n) -> NoDup (ci_sds cw) ->
  (forall sd sd', In sd (ci_sds cw) -> In sd' (ci_sds cw) -> y_ss y W sd sd' = bh_ss h sd sd') ->
  (forall sd, In sd (ci_sds cw) -> exists o, y_ov y W sd = Ok o) -> (exists sd o, In sd (ci_sds cw) /\ y_ov y W sd = Ok o /\ o <> 0%R) ->
  exists E, two_energy y W (ci_sds cw) r n = Ok E /\ (b_energy out <= E)%R.
Proof.
  intros eigh w a cw h save out y W r n G B Asc S V ND Ss Ov (sd0 & o0 & I0 & O0 & Z0). destruct (var_same _ _ _ _ _ V) as [-> ->].
  set (o := fun sd => match y_ov y W sd with Ok x => x | Err _ => rO end). set (c := map o (ci_sds cw)).
  assert (Oo : forall sd, In sd (ci_sds cw) -> y_ov y W sd = Ok (o sd)) by (intros sd Hi; unfold o; destruct (Ov sd Hi) as [x ->]; reflexivity).
  set (y' := mksys (y_wfn y) (y_ham y) (y_parts y) (y_ov y) (y_dov y)
    (fun _ sd => do hs <- mapM (bh_ss h sd) (ci_sds cw); do os <- mapM (ci_overlap (ci_with cw c)) (ci_sds cw); Ok (inner hs os)) (y_dint y) (y_hint y) (y_ss y) (y_dss y)).
  assert (Lc : length c = length (ci_sds cw)) by (unfold c; now rewrite map_length).
  destruct (C70_brute_minimum eigh cw h save out c y' W G B ND S Asc) as (E & E1 & E2); auto.
  - split; [|split; [exact Ss|reflexivity]]. intros sd Hi. change (y_ov y' W sd) with (y_ov y W sd). rewrite Oo by auto.
    destruct (In_nth _ _ 0%N Hi) as (i & Li & <-). rewrite ov_at by auto. f_equal. unfold c. rewrite nth_indep with (d' := o 0%N) by (rewrite map_length; auto). now rewrite map_nth.
  - assert (P : forall l : list N, (0 <= inner (map o l) (map o l))%R /\ (In sd0 l -> (0 < inner (map o l) (map o l))%R)).
    { assert (P0 : (o sd0 <> 0)%R) by (unfold o; now rewrite O0). clear - P0. unfold inner. induction l as [|x t [IH1 IH2]]; [split; [cbn; lra|intros []]|]. cbn [map combine]. rewrite sumf_cons. cbn [fst snd].
      change (@radd (fring R_field)) with Rplus in *. change (@rmul (fring R_field)) with Rmult in *. assert (Q := Rle_0_sqr (o x)). unfold Rsqr in Q. split; [lra|].
      intros [->|Hi]; [|specialize (IH2 Hi); lra]. assert (Q' := Rsqr_pos_lt _ P0). unfold Rsqr in Q'. lra. }
    destruct (P (ci_sds cw)) as [_ P']. specialize (P' I0). fold c in P'. intros Eq. rewrite Eq in P'. lra.
  - exists E. split; [exact E1|exact E2].
Qed.
Print Assumptions C76_lower_bound.

(** (1 + 12) / 5 is at least 1 *)
Lemma eigh_diag_good : good_eigh eigh_diag.
Proof.
  intros n m vals vecs H. unfold eigh_diag in H. destruct (Nat.eqb_spec n 2) as [->|]; [|discriminate]. destruct (Req_EM_T (m 0 1) 0) as [Z0|]; [|discriminate]. injection H as <- <-.
  assert (Two : forall k, k < 2 -> k = 0 \/ k = 1) by lia.
  split; [reflexivity|reflexivity|repeat constructor| | |]; intros i j Hi Hj; destruct (Two _ Hi) as [->| ->]; destruct (Two _ Hj) as [->| ->];
    cbn; unfold sym_of; cbn; rewrite ?Z0; change (@rO (fring R_field)) with 0%R in *; change (@rI (fring R_field)) with 1%R; try ring.
Qed.
Example C76_ex_bound : exists out E, brute eigh_diag ci_diag ham_diag false = Ok out /\ b_energy out = 1%R /\ (forall x, In x (b_eigval out) -> (b_energy out <= x)%R) /\
  symmetric ham_diag (ci_sds ci_diag) /\ var_pspace (mkwinfo 2 4 None None) (AList [SInt 3; SInt 12]) = Ok (ci_sds ci_diag, Some (ci_sds ci_diag), Some (ci_sds ci_diag)) /\
  two_energy sys_diag (fun _ => []) (ci_sds ci_diag) (Some (ci_sds ci_diag)) (Some (ci_sds ci_diag)) = Ok E /\ E = (13 / 5)%R.
Proof.
  eexists. eexists. split; [unfold brute; cbn; unfold eigh_diag; cbn; destruct (Req_EM_T 0 0) as [_|F]; [reflexivity|contradiction]|]. cbn [b_energy b_eigval]. split; [reflexivity|].
  split; [cbn; intros x [<-|[<-|[]]]; lra|]. split; [intros a b _ _; cbn; rewrite (N.eqb_sym b a); destruct (N.eqb_spec a b) as [->|]; reflexivity|].
  split; [reflexivity|]. split; [reflexivity|]. cbn. field.
Qed.
