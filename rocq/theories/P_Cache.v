(** Property C48: caching of overlaps. *)
From Coq Require Import List ZArith NArith Arith Bool Lia QArith Qcanon.
From Verif Require Import Py Slater Alg WfnCI Geminal AP1roG GemSpec GemEx Ap1Ex PermSpec Cache CacheSpec WfnCached CacheLemmas CacheEx.
Import ListNotations.

Section C48.
Context {Cfg K1 V1 K2 V2 Arg Out P Q : Type}.
Variable (eqb1 : K1 -> K1 -> bool) (eqb2 : K2 -> K2 -> bool).
Variable (EQ1 : forall a b, eqb1 a b = true <-> a = b) (EQ2 : forall a b, eqb2 a b = true <-> a = b).
Variable (olp : Cfg -> K1 -> res V1) (dolp : Cfg -> K2 -> res V2).
Variable (get : Cfg -> Arg -> prog K1 V1 K2 V2 Out).
Variable (assign : Cfg -> P -> res Cfg) (setter : Cfg -> Q -> res Cfg) (nparams : Cfg -> Z).
(** whatever the class, the amount of memory and the history *)
Theorem C48_transparent : forall c memory h, careful 0 h ->
  agrees olp dolp get assign setter c h (run eqb1 eqb2 olp dolp get assign setter nparams (fresh c memory) h).
Proof.
  intros c memory h H. apply (run_agrees eqb1 eqb2 EQ1 EQ2 olp dolp get assign setter nparams h 0 (fresh c memory)); auto.
  - split; intros L [].
  - split; cbn; auto.
Qed.
(** the caches stay within their sizes *)
Theorem C48_size : forall c memory h, let o := fold_left (fun o e => snd (step eqb1 eqb2 olp dolp get assign setter nparams o e)) h (fresh c memory) in
  (forall L, In L (o_olp o) -> forall n, l_max L = Some n -> (N.of_nat (length (l_entries L)) <= n)%N) /\
  (forall L, In L (o_dolp o) -> forall n, l_max L = Some n -> (N.of_nat (length (l_entries L)) <= n)%N).
Proof.
  intros c memory h. cbv zeta. assert (G : sized (fold_left (fun o e => snd (step eqb1 eqb2 olp dolp get assign setter nparams o e)) h (fresh c memory))).
  { assert (S : sized (K1 := K1) (V1 := V1) (K2 := K2) (V2 := V2) (fresh c memory)) by (split; constructor). revert S. generalize (fresh (K1 := K1) (V1 := V1) (K2 := K2) (V2 := V2) c memory). clear c.
    induction h as [|e h IH]; intros o S; [exact S|]. cbn [fold_left]. apply IH. now apply step_sized. }
  destruct G as [G1 G2]. rewrite Forall_forall in G1, G2. split; intros L HL n Hn; [apply G1 in HL|apply G2 in HL]; unfold small in HL; now rewrite Hn in HL.
Qed.
End C48.
Print Assumptions C48_transparent.
Print Assumptions C48_size.

Section C48_wfns.
Context {K : CField}.
Local Open Scope cr_scope.
Lemma pair_eqb_eq : forall a b, pair_eqb a b = true <-> a = b.
Proof.
  intros [a1 a2] [b1 b2]. unfold pair_eqb. cbn [fst snd]. rewrite andb_true_iff, N.eqb_eq, Z.eqb_eq. split; [intros []; congruence|]. intros E. now injection E.
Qed.
(** what the uncached objects return is get_overlap of the wavefunction models *)
Theorem C48_values :
  (forall (w : gem K) sd, value gem_overlap gem_dolp w (gem_get w (sd, None)) = do v <- gem_overlap w sd; Ok (Scalar v)) /\
  (forall (w : gem K) sd ds, value gem_overlap gem_dolp w (gem_get w (sd, Some ds)) = do l <- gem_overlap_deriv w sd ds; Ok (Array l)) /\
  (forall (w : ap1 K) sd, value ap1_olp ap1_dolp w (ap1_get w (sd, None)) = do v <- ap1_overlap w sd; Ok (Scalar v)) /\
  (forall (w : ap1 K) sd ds, value ap1_olp ap1_dolp w (ap1_get w (sd, Some ds)) = do l <- ap1_overlap_deriv w sd ds; Ok (Array l)).
Proof.
  assert (Ind : forall (w : ap1 K) sd rows cols, ap1_inds w sd = Ok (Some (rows, cols)) -> ap1_cols w sd = Ok (rows, cols)).
  { intros w sd rows cols E. unfold ap1_inds in E. unfold ap1_cols. destruct (excitation w sd) as [ac|]; [|discriminate]. cbn [bind] in *.
    destruct (negb _); [discriminate|]. destruct (get_seniority sd (a1_nspatial w)); [|discriminate]. cbn [bind] in E. destruct (negb _); [discriminate|].
    destruct (mapM _ (fst ac)); [|discriminate]. cbn [bind] in *. destruct (mapM _ (snd ac)); [|discriminate]. cbn [bind] in *. congruence. }
  split; [reflexivity|]. split; [|split].
  - intros w sd ds. cbn [gem_get snd fst value]. unfold gem_dolp, gem_overlap_deriv. destruct (gem_schemes w sd); [|reflexivity]. cbn [bind].
    destruct (olp_deriv_loop _ _ _); reflexivity.
  - intros w sd. unfold ap1_get, ap1_overlap. cbn [fst snd]. destruct (ap1_inds w sd) as [[[rows cols]|]|] eqn:E; cbn [bind]; try reflexivity.
    apply Ind in E. destruct (_ && _)%bool; [reflexivity|]. cbn [value]. unfold ap1_olp. rewrite E. reflexivity.
  - intros w sd ds. unfold ap1_get, ap1_overlap_deriv. cbn [fst snd]. destruct (ap1_inds w sd) as [[[rows cols]|]|] eqn:E; cbn [bind]; try reflexivity.
    apply Ind in E. destruct (_ && _)%bool; [reflexivity|].
    assert (G : forall (f : list K -> prog N K (N * Z) K (ovalue K)), value ap1_olp ap1_dolp w (calls_d (map (fun d => (sd, d)) ds) f) =
       do l <- mapM (fun d => ap1_permanent w rows cols (Some d)) ds; value ap1_olp ap1_dolp w (f l)).
    { induction ds as [|d ds IH]; intros f; [reflexivity|]. cbn [map calls_d value mapM]. change (ap1_dolp w (sd, d)) with (do rc <- ap1_cols w sd; ap1_permanent w (fst rc) (snd rc) (Some d)). rewrite E. cbn [bind fst snd].
      destruct (ap1_permanent w rows cols (Some d)) as [x|]; [|reflexivity]. cbn [bind]. rewrite IH. destruct (mapM _ ds); reflexivity. }
    rewrite G. destruct (mapM _ ds); reflexivity.
Qed.
(** wavefunctions as constructed, with any interleaving of get_overlap, assign_params and clear_cache *)
Theorem C48_geminal : forall (w : gem K) memory enable h, (forall d, ~ In (EEnable d) h) -> (forall q, ~ In (ESet q) h) ->
  agrees gem_overlap gem_dolp gem_get gem_assign_params set_any w h (gem_run (constructed gem_nparams w memory enable) h).
Proof.
  intros w memory enable h He Hs.
  assert (C : forall n, (n <= 1)%nat -> careful n h).
  { intros n Hn. clear w. induction h as [|e h IH]; [exact I|]. assert (X : careful n h) by (apply IH; intros ? ?; [eapply He|eapply Hs]; right; eassumption).
    destruct e; cbn [careful]; auto; exfalso; [eapply Hs|eapply He]; left; reflexivity. }
  unfold gem_run, constructed. destruct enable.
  - pose proof (C48_transparent N.eqb N.eqb N.eqb_eq N.eqb_eq (gem_overlap (K := K)) gem_dolp gem_get gem_assign_params set_any gem_nparams w memory (EEnable true :: h)) as T.
    cbn [run step agrees] in T. apply T. cbn [careful]. apply C. lia.
  - apply C48_transparent; [apply N.eqb_eq|apply N.eqb_eq|]. apply C. lia.
Qed.
Theorem C48_ap1rog : forall (w : ap1 K) memory enable h, (forall d, ~ In (EEnable d) h) -> (forall q, ~ In (ESet q) h) ->
  agrees ap1_olp ap1_dolp ap1_get ap1_set_params set_any w h (ap1_run (constructed (fun w => gem_nparams (a1_gem w)) w memory enable) h).
Proof.
  intros w memory enable h He Hs.
  assert (C : forall n, (n <= 1)%nat -> careful n h).
  { intros n Hn. clear w. induction h as [|e h IH]; [exact I|]. assert (X : careful n h) by (apply IH; intros ? ?; [eapply He|eapply Hs]; right; eassumption).
    destruct e; cbn [careful]; auto; exfalso; [eapply Hs|eapply He]; left; reflexivity. }
  unfold ap1_run, constructed. destruct enable.
  - pose proof (C48_transparent N.eqb pair_eqb N.eqb_eq pair_eqb_eq (ap1_olp (K := K)) ap1_dolp ap1_get ap1_set_params set_any (fun w => gem_nparams (a1_gem w)) w memory (EEnable true :: h)) as T.
    cbn [run step agrees] in T. apply T. cbn [careful]. apply C. lia.
  - apply C48_transparent; [apply N.eqb_eq|apply pair_eqb_eq|]. apply C. lia.
Qed.
(** Findings.  enable_cache on a wavefunction that has a cache already (they are constructed with one) wraps the
    cached method once more and forgets the inner cache, which assign_params then does not clear *)
Local Arguments gem_dolp : simpl never.
Theorem C48_enable_twice_refuted : forall (w w' : gem K) ps sd v, gem_overlap w sd = Ok v -> gem_assign_params w ps = Ok w' ->
  gem_run (constructed gem_nparams w None true) [EEnable true; EGet (sd, None); EAssign ps; EGet (sd, None)] =
    [ADone; AGet (Ok (Scalar v)); ADone; AGet (Ok (Scalar v))].
Proof.
  intros w w' ps sd v E A. unfold gem_run, constructed. cbn. rewrite E. cbn. rewrite A. cbn. rewrite N.eqb_refl. reflexivity.
Qed.
Theorem C48_enable_derivative_refuted : forall (w w' : gem K) ps sd ds l, gem_overlap_deriv w sd ds = Ok l -> gem_assign_params w ps = Ok w' ->
  length (gm_params w') = length (gm_params w) ->
  gem_run (constructed gem_nparams w None true) [EEnable false; EGet (sd, Some ds); EAssign ps; EGet (sd, Some ds)] =
    [ADone; AGet (Ok (Array l)); ADone; AGet (Ok (Array l))].
Proof.
  intros w w' ps sd ds l E A L. pose proof (proj1 (proj2 C48_values) w sd ds) as V. rewrite E in V. unfold gem_run, constructed.
  cbn [value gem_get snd fst] in V. cbn. destruct (gem_dolp w sd) as [o|] eqn:D; [|discriminate V]. cbn [bind] in V. cbn. rewrite A. cbn. rewrite N.eqb_refl. cbn. rewrite L, V. reflexivity.
Qed.
(** AP1roG.assign_ref_sd does not clear the cache *)
Theorem C48_reference_refuted : forall (w w' : ap1 K) ref rows cols rows' cols' sd v, ap1_olp w sd = Ok v -> ap1_set_ref (Some ref) w = Ok w' ->
  ap1_inds w sd = Ok (Some (rows, cols)) -> rows <> [] -> ap1_inds w' sd = Ok (Some (rows', cols')) -> rows' <> [] ->
  ap1_run (constructed (fun w => gem_nparams (a1_gem w)) w None true) [EGet (sd, None); ESet (ap1_set_ref (Some ref)); EGet (sd, None)] =
    [AGet (Ok (Scalar v)); ADone; AGet (Ok (Scalar v))].
Proof.
  intros w w' ref rows cols rows' cols' sd v E A I R I' R'. unfold ap1_run, constructed. cbn. unfold ap1_get at 1. cbn [fst snd]. rewrite I.
  destruct rows as [|r rows]; [congruence|]. cbn. rewrite E. cbn. unfold set_any at 1. rewrite A. cbn. unfold ap1_get. cbn [fst snd]. rewrite I'.
  destruct rows' as [|r' rows']; [congruence|]. cbn. rewrite N.eqb_refl. reflexivity.
Qed.
End C48_wfns.
Print Assumptions C48_values.
Print Assumptions C48_geminal.
Print Assumptions C48_ap1rog.
Print Assumptions C48_enable_twice_refuted.
Print Assumptions C48_enable_derivative_refuted.
Print Assumptions C48_reference_refuted.

(** a history with a small memory, so that entries are dropped *)
Example C48_ex : ex_history (Some 100%Z) = ex_history None /\
  ex_history None = Ok [Some (24, 1%positive); Some (24, 1%positive); None; Some (-7, 1%positive); None; Some (-7, 1%positive)]%Z.
Proof. split; vm_compute; reflexivity. Qed.
(** the hypotheses of the findings can be met, with a different value after the change *)
Example C48_twice_ex : ex_twice = Ok ((24, 1%positive), (-7, 1%positive))%Z.
Proof. vm_compute. reflexivity. Qed.
Example C48_reference_ex : ex_reference = Ok ((29, 1%positive), (5, 1%positive), [Some (29, 1%positive); None; Some (29, 1%positive)])%Z.
Proof. vm_compute. reflexivity. Qed.
