(** Property C48 for coupled-cluster wavefunctions: neither the cache of overlaps nor the stored tables of
    excitations change a result. *)
From Coq Require Import List ZArith NArith Arith Bool Lia Permutation Sorted.
From Verif Require Import Py BitSpec BitLemmas Slater SlaterBits SlaterBits2 P_Slater1 P_Slater2 Alg WfnCI CC CCEx CCSpec CCExp CCLemmas CCMain
  Cache CacheSpec CacheLemmas CCCache CCCacheSpec CCCacheEx.
Import ListNotations.

(** the two parts of a key can be told apart: the first consists of orbitals of the reference *)
Lemma prefix_eq : forall (p : Z -> bool) a c a' c', (forall z, In z a -> p z = true) -> (forall z, In z c -> p z = false) ->
  (forall z, In z a' -> p z = true) -> (forall z, In z c' -> p z = false) -> a ++ c = a' ++ c' -> a = a' /\ c = c'.
Proof.
  induction a as [|x a IH]; intros c a' c' A C A' C' E.
  - destruct a' as [|y a']; [auto|]. cbn in E. subst c. specialize (C y (or_introl eq_refl)). rewrite (A' y) in C by now left. discriminate.
  - destruct a' as [|y a'].
    + cbn in E. subst c'. specialize (C' x (or_introl eq_refl)). rewrite (A x) in C' by now left. discriminate.
    + cbn in E. injection E as -> E. destruct (IH c a' c') as [-> ->]; auto; intros; [apply A|apply A']; now right.
Qed.
Lemma key_inj : forall ref sd sd', anns sd ref ++ cres sd ref = anns sd' ref ++ cres sd' ref -> anns sd ref = anns sd' ref /\ cres sd ref = cres sd' ref.
Proof.
  intros ref sd sd'. assert (A : forall sd z, In z (anns sd ref) -> bit ref (Z.to_nat z) = true).
  { intros s z H. unfold anns in H. apply in_map_iff in H as (i & <- & H). rewrite Nat2Z.id. apply diff_orbs_In2 in H. tauto. }
  assert (C : forall sd z, In z (cres sd ref) -> bit ref (Z.to_nat z) = false).
  { intros s z H. unfold cres in H. apply in_map_iff in H as (i & <- & H). rewrite Nat2Z.id. apply diff_orbs_In1 in H. tauto. }
  intros E. apply (prefix_eq (fun z => bit ref (Z.to_nat z))) in E; eauto.
Qed.

Section CCC.
Context {K : CRing}.
Local Open Scope cr_scope.
(** every stored table is that of the excitation its key stands for *)
Definition tab (w : cc K) (ref : N) : Prop := exists combs, cc_combs w = Some combs /\
  forall sd m, dict_get combs (anns sd ref ++ cres sd ref) = Some m -> gen_exops (cc_exops w) (cc_ranks w) (anns sd ref) (cres sd ref) = Ok m.
Definition bare (w : cc K) : cc K := with_combs w (Some []).
Lemma with_table_plain : forall {A} (w : cc K) ref sd (at_ref : A) f scale, cc_ref w = RSd ref -> tab w ref ->
  (forall c m, f (with_combs w c) m = f w m) ->
  (do p <- with_table w sd at_ref f scale; Ok (fst p)) = (do p <- with_table (bare w) sd at_ref f scale; Ok (fst p)) /\
  (forall v w', with_table w sd at_ref f scale = Ok (v, w') -> bare w' = bare w /\ tab w' ref).
Proof.
  intros A w ref sd at_ref f scale Hr (combs & Ec & T) Hf. unfold with_table, bare. cbn [with_combs cc_ref cc_class]. rewrite Hr.
  destruct (N.eqb sd ref) eqn:E0; [split; [reflexivity|]; intros v w' H; injection H as <- <-; split; [reflexivity|]; exists combs; auto|].
  cbn [excitation_of]. unfold excitation_of. destruct (sign_excite _ _ _) as [s|]; [|cbn; split; [reflexivity|discriminate]]. cbn [bind].
  change (map Z.of_nat (snd (diff_orbs sd ref))) with (anns sd ref). change (map Z.of_nat (fst (diff_orbs sd ref))) with (cres sd ref).
  assert (Main : (do p <- (do p <- get_multi w (anns sd ref) (cres sd ref); do v <- f (snd p) (fst p); Ok (scale (sgnr s) v, snd p)); Ok (fst p)) =
    (do p <- (do p <- get_multi (with_combs w (Some [])) (anns sd ref) (cres sd ref); do v <- f (snd p) (fst p); Ok (scale (sgnr s) v, snd p)); Ok (fst p)) /\
    (forall v w', (do p <- get_multi w (anns sd ref) (cres sd ref); do v <- f (snd p) (fst p); Ok (scale (sgnr s) v, snd p)) = Ok (v, w') ->
       with_combs w' (Some []) = with_combs w (Some []) /\ tab w' ref)).
  { Ltac fixf := repeat match goal with Hf : forall c m, ?f (with_combs ?w c) m = ?f ?w m |- context [?f ?x ?m] =>
      lazymatch x with w => fail | _ => replace (f x m) with (f w m) by (symmetry; unshelve eapply (eq_trans _ (Hf (cc_combs x) m)); reflexivity) end end.
    unfold get_multi. cbn [with_combs cc_combs cc_refresh cc_exops cc_ranks dict_get length]. rewrite Ec.
    destruct (dict_get combs (anns sd ref ++ cres sd ref)) as [m|] eqn:Ed.
    - apply T in Ed. rewrite Ed. cbn [bind fst snd]. split.
      + fixf. destruct (f w m); reflexivity.
      + intros v w' H. destruct (f w m); [|discriminate]. cbn [bind] in H. injection H as <- <-. split; [reflexivity|]. exists combs. auto.
    - destruct (gen_exops _ _ _ _) as [m|] eqn:Eg; [|cbn; split; [reflexivity|discriminate]]. cbn [bind fst snd].
      set (c1 := if (negb (cc_refresh w =? 0)%Z && (cc_refresh w <? Z.of_nat (length combs))%Z)%bool then [] else combs).
      fixf. split; [destruct (f w m); reflexivity|].
      intros v w' H. destruct (f w m); [|discriminate]. cbn [bind] in H. injection H as <- <-. split; [reflexivity|].
      exists (dict_set c1 (anns sd ref ++ cres sd ref) m). split; [reflexivity|]. cbn [with_combs cc_exops cc_ranks]. intros sd' m' Hd.
      destruct (list_eq_dec Z.eq_dec (anns sd' ref ++ cres sd' ref) (anns sd ref ++ cres sd ref)) as [E|Ne].
      + rewrite E, dict_get_set_eq in Hd. injection Hd as <-. apply key_inj in E as [-> ->]. exact Eg.
      + rewrite dict_get_set_neq in Hd by auto. unfold c1 in Hd. destruct (_ && _)%bool; [discriminate Hd|]. now apply T. }
  destruct (cc_class w); try exact Main. rewrite Ec. destruct (forallb _ _); (split; [reflexivity|discriminate]).
Qed.
Lemma assign_bare : forall (w : cc K) ps, match cc_assign_params w ps with
  | Ok w' => cc_assign_params (bare w) ps = Ok (bare w') /\ cc_ref w' = cc_ref w /\ (forall ref, tab w ref -> tab w' ref)
  | Err x => cc_assign_params (bare w) ps = Err x end.
Proof.
  intros w ps. unfold cc_assign_params, bare. cbn [with_combs cc_exops cc_nelec cc_nspin]. match goal with |- context [bind ?X _] => destruct X as [l|x] end; [|reflexivity].
  cbn [bind]. split; [reflexivity|]. split; [reflexivity|]. intros ref (combs & E & T). exists combs. split; auto.
Qed.
Definition inv (ref : N) (o : ccobj K) : Prop := cc_ref (co_w o) = RSd ref /\ tab (co_w o) ref /\
  forall sd v, In (sd, v) (l_entries (co_olp o)) -> cc_overlap (bare (co_w o)) sd = Ok v.
Lemma bare_ref : forall w : cc K, cc_ref (bare w) = cc_ref w.
Proof. reflexivity. Qed.
Lemma run_plain : forall ref h (o : ccobj K), inv ref o -> cc_run o h = cc_plain (bare (co_w o)) h.
Proof.
  intros ref h. induction h as [|e h IH]; intros o (Hr & T & L); [reflexivity|].
  destruct e as [sd|sd ds|sd|ps|k]; cbn [cc_run cc_step cc_plain].
  - pose proof (with_table_plain (co_w o) ref sd 1 amplitudes (fun s v => s * v) Hr T (fun _ _ => eq_refl)) as [E S]. fold (cc_olp (co_w o) sd) in E, S.
    change (do p <- with_table (bare (co_w o)) sd 1 amplitudes (fun s v => s * v); Ok (fst p)) with (cc_overlap (bare (co_w o)) sd) in E.
    unfold cc_get. set (comp := match cc_olp (co_w o) sd with Ok (v, w) => (Ok v, w) | Err e => (Err e, co_w o) end).
    assert (C1 : fst comp = cc_overlap (bare (co_w o)) sd) by (rewrite <- E; unfold comp; destruct (cc_olp (co_w o) sd) as [[]|]; reflexivity).
    assert (C2 : bare (snd comp) = bare (co_w o) /\ tab (snd comp) ref /\ cc_ref (snd comp) = RSd ref).
    { unfold comp. destruct (cc_olp (co_w o) sd) as [[v w']|x]; cbn [snd]; [|auto]. destruct (S _ _ eq_refl) as [A B]. split; [auto|]. split; [auto|].
      rewrite <- bare_ref, A. exact Hr. }
    destruct C2 as (B1 & B2 & B3). destruct (disabled (co_olp o)).
    + f_equal; [now f_equal|]. rewrite IH; [cbn [co_w]; now rewrite B1|]. split; [auto|]. split; [auto|]. cbn [co_w co_olp]. rewrite B1. exact L.
    + destruct (find N.eqb sd (l_entries (co_olp o))) as [v|] eqn:Ef.
      * apply (find_In N.eqb N.eqb_eq) in Ef. apply L in Ef as Ev. f_equal; [now f_equal|]. rewrite IH; [reflexivity|]. split; [auto|]. split; [auto|]. cbn [co_w co_olp l_entries].
        intros s v' [X|X]; [injection X as <- <-; auto|]. apply filter_In in X as [X _]. auto.
      * f_equal; [now f_equal|]. rewrite IH; [cbn [co_w]; now rewrite B1|]. split; [auto|]. split; [auto|]. cbn [co_w co_olp]. rewrite B1. rewrite C1.
        destruct (cc_overlap (bare (co_w o)) sd) as [v|] eqn:Ev; [|exact L]. unfold enter. cbn [l_entries]. intros s v' [X|X]; [injection X as <- <-; auto|].
        apply L. destruct (room (co_olp o)); [auto|now apply removelast_incl].
  - pose proof (with_table_plain (co_w o) ref sd (repeat 0 (length (cc_params (co_w o)))) amplitudes_deriv (fun s v => map (fun x => s * x) v) Hr T (fun _ _ => eq_refl)) as [E S].
    fold (cc_olp_deriv (co_w o) sd) in E, S.
    change (with_table (bare (co_w o)) sd (repeat 0 (length (cc_params (co_w o)))) amplitudes_deriv (fun s v => map (fun x => s * x) v)) with (cc_olp_deriv (bare (co_w o)) sd) in E.
    unfold cc_overlap_deriv. destruct (cc_olp_deriv (co_w o) sd) as [[v w']|x]; cbn [keep bind fst] in *.
    + destruct (cc_olp_deriv (bare (co_w o)) sd) as [[v2 w2]|]; [|discriminate]. cbn [bind fst] in E. injection E as <-. destruct (S _ _ eq_refl) as [A B].
      f_equal. rewrite IH; [cbn [co_w]; now rewrite A|]. split; [rewrite <- bare_ref; cbn [co_w]; rewrite A; exact Hr|]. split; [auto|]. cbn [co_w co_olp]. rewrite A. exact L.
    + destruct (cc_olp_deriv (bare (co_w o)) sd) as [[v2 w2]|]; [discriminate|]. injection E as <-. cbn [bind]. f_equal. apply IH. split; auto.
  - pose proof (with_table_plain (co_w o) ref sd (repeat (repeat 0 (length (cc_params (co_w o)))) (length (cc_params (co_w o)))) amplitudes_hessian (fun s v => map (map (fun x => s * x)) v) Hr T (fun _ _ => eq_refl)) as [E S].
    fold (cc_olp_hessian (co_w o) sd) in E, S.
    change (with_table (bare (co_w o)) sd (repeat (repeat 0 (length (cc_params (co_w o)))) (length (cc_params (co_w o)))) amplitudes_hessian (fun s v => map (map (fun x => s * x)) v)) with (cc_olp_hessian (bare (co_w o)) sd) in E.
    unfold cc_overlap_hessian. destruct (cc_olp_hessian (co_w o) sd) as [[v w']|x]; cbn [keep bind fst] in *.
    + destruct (cc_olp_hessian (bare (co_w o)) sd) as [[v2 w2]|]; [|discriminate]. cbn [bind fst] in E. injection E as <-. destruct (S _ _ eq_refl) as [A B].
      f_equal. rewrite IH; [cbn [co_w]; now rewrite A|]. split; [rewrite <- bare_ref; cbn [co_w]; rewrite A; exact Hr|]. split; [auto|]. cbn [co_w co_olp]. rewrite A. exact L.
    + destruct (cc_olp_hessian (bare (co_w o)) sd) as [[v2 w2]|]; [discriminate|]. injection E as <-. cbn [bind]. f_equal. apply IH. split; auto.
  - pose proof (assign_bare (co_w o) ps) as A. destruct (cc_assign_params (co_w o) ps) as [w'|x].
    + destruct A as (A & B & D). rewrite A. f_equal. rewrite IH; [reflexivity|]. split; [cbn; congruence|]. split; [cbn; auto|]. intros s v [].
    + rewrite A. f_equal. apply IH. split; auto.
  - destruct k as [[| | |]|]; f_equal; rewrite IH; try reflexivity; split; auto; split; auto; intros s v [].
Qed.
(** every history on a wavefunction as constructed, whatever its memory and refresh_exops *)
Theorem C48_cc : forall c nelec nspin ra indices refwfn (ps : ccparams K) refresh w memory h,
  new_cc c nelec nspin ra indices refwfn ps false refresh = Ok w -> cc_run (cc_object w memory) h = cc_plain w h.
Proof.
  intros c nelec nspin ra indices refwfn ps refresh w memory h New.
  destruct (new_cc_built _ _ _ _ _ _ _ _ _ _ New) as (g & B). pose proof (b_combs _ _ _ _ _ _ _ _ _ _ B) as Ec. cbn in Ec.
  assert (Eb : bare w = w) by now apply with_combs_same.
  destruct (cc_ref w) as [ref|] eqn:Er.
  - rewrite <- Eb at 2. change w with (co_w (cc_object w memory)) at 2. apply (run_plain ref). split; [exact Er|]. split; [|intros s v []].
    exists []. split; [exact Ec|]. discriminate.
  - clear New B Eb. cut (forall o : ccobj K, cc_ref (co_w o) = RCI -> l_entries (co_olp o) = [] -> cc_run o h = cc_plain (co_w o) h).
    { intros H. apply (H (cc_object w memory)); [exact Er|reflexivity]. }
    clear w Er Ec. induction h as [|e h IH]; intros o Hr L; [reflexivity|].
    assert (F : forall A sd (a : A) f sc, with_table (co_w o) sd a f sc = Err AttributeError) by (intros; unfold with_table; now rewrite Hr).
    destruct e as [sd|sd ds|sd|ps'|k]; cbn [cc_run cc_step cc_plain].
    + unfold cc_get, cc_overlap, cc_olp. rewrite F, L. cbn. destruct (disabled (co_olp o)); f_equal; rewrite IH; auto.
    + unfold cc_overlap_deriv, cc_olp_deriv. rewrite F. cbn. f_equal. auto.
    + unfold cc_overlap_hessian, cc_olp_hessian. rewrite F. cbn. f_equal. auto.
    + pose proof (assign_bare (co_w o) ps') as A. destruct (cc_assign_params (co_w o) ps') as [w'|x]; [|f_equal; auto].
      destruct A as (_ & B & _). f_equal. rewrite IH; auto. cbn. congruence.
    + destruct k as [[| | |]|]; f_equal; rewrite IH; auto.
Qed.
End CCC.
Print Assumptions C48_cc.
(** two electrons in three spatial orbitals: determinants repeated, parameters changed, tables emptied
    after two entries; cache of at most one overlap or without limit *)
Example C48_cc_ex : ex_cc_history None 2 = ex_cc_history (Some 600%Z) 2 /\
  ex_cc_history None 2 = Ok (map (fun z => YScalar (K := Z_ring) (Ok z)) [-18; 1; -18]%Z ++ [YDone; YScalar (K := Z_ring) (Ok (-19)%Z); YArray (K := Z_ring) (Ok [8; -6]%Z)]).
Proof. split; vm_compute; reflexivity. Qed.
