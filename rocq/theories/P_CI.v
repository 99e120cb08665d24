(** C39, C40: overlaps, derivatives and density matrices of CI wavefunctions *)
From Coq Require Import List ZArith NArith Arith Bool Lia Permutation Ring_theory.
From Verif Require Import Density P_Density.
From Verif Require Import Py Slater SdList Alg BitSpec BitLemmas HamLemmas SlaterBits SlaterBits2 Fock FockLemmas FockInner
  DensSpec WfnCI CILemmas CIEx.
Import ListNotations.

(** position selected in an axis of length [n] by an index, negative ones counting from the end *)
Definition selects (n : nat) (d : Z) (i : nat) : Prop :=
  (i < n)%nat /\ (d = Z.of_nat i \/ d = Z.of_nat i - Z.of_nat n)%Z.

Section P.
Context {K : CRing}.
Local Open Scope cr_scope.
Add Ring K_ring45 : (rth K).

(** C39: the overlap is the coefficient stored at the (last) position of the determinant *)
Theorem C39_overlap : forall (w : ciwfn K) sd,
  (forall i, last_at (ci_sds w) sd i ->
     ci_overlap w sd = match nth_error (ci_params w) i with Some x => Ok x | None => Err IndexError end) /\
  (~ In sd (ci_sds w) -> ci_overlap w sd = Ok 0).
Proof.
  intros w sd. split.
  - intros i H. unfold ci_overlap. now rewrite (dict_last w sd i H).
  - intros H. unfold ci_overlap. now rewrite (dict_none w sd H).
Qed.

(** ... that is, <sd | sum_a c_a |sd_a>> for distinct determinants *)
Theorem C39_inner : forall (w : ciwfn K) sd, NoDup (ci_sds w) ->
  (length (ci_sds w) <= length (ci_params w))%nat ->
  ci_overlap w sd = Ok (sumf (fun a => if N.eqb (snd a) sd then fst a else 0) (combine (ci_params w) (ci_sds w))).
Proof.
  intros w sd N L. destruct (in_dec N.eq_dec sd (ci_sds w)) as [H|H].
  - apply In_nth_error in H as [i H]. rewrite (proj1 (C39_overlap w sd) i) by (apply NoDup_last; auto).
    destruct (nth_error (ci_params w) i) as [c|] eqn:E.
    + f_equal. rewrite (psi_sum w N L sd c i H E).
      * cbn [fst snd]. now rewrite N.eqb_refl.
      * intros a _ D. apply N.eqb_neq in D. now rewrite D.
    + exfalso. apply nth_error_None in E. assert (i < length (ci_sds w))%nat by (apply nth_error_Some; congruence). lia.
  - rewrite (proj2 (C39_overlap w sd) H). f_equal. symmetry. apply sumf_zero. intros a Ha.
    destruct (N.eqb_spec (snd a) sd) as [E|E]; auto. destruct H. rewrite <- E, <- (psi_sds w L). now apply in_map.
Qed.

Lemma np_index_ok : forall n d i, selects n d i <-> np_index n d = Ok i.
Proof.
  intros n d i. unfold selects, np_index.
  destruct (Z.leb_spec (- Z.of_nat n) d), (Z.ltb_spec d (Z.of_nat n)), (Z.ltb_spec d 0); cbn [andb]; split; intros H';
    try discriminate; try lia; try (apply Ok_inj in H'); try (f_equal; lia).
Qed.

(** the derivative at an index is one if the index selects the position of the determinant, else zero *)
Theorem C39_deriv : forall (w : ciwfn K) sd deriv is,
  (forall i, last_at (ci_sds w) sd i -> (i < length (ci_params w))%nat) ->
  Forall2 (selects (length (ci_params w))) deriv is ->
  exists out, ci_overlap_deriv w sd deriv = Ok out /\
    Forall2 (fun i g => (last_at (ci_sds w) sd i -> g = 1) /\ (~ last_at (ci_sds w) sd i -> g = 0)) is out.
Proof.
  intros w sd deriv is B F. unfold ci_overlap_deriv.
  set (np := length (ci_params w)) in *.
  assert (X : exists output, (match dict_sd_index w sd with
               | Some i => if Nat.ltb i np then Ok (upd (repeat (0 : K) np) i 1) else Err IndexError
               | None => Ok (repeat (0 : K) np) end) = Ok output /\
      forall i, (i < np)%nat -> (last_at (ci_sds w) sd i -> nth i output 0 = 1) /\ (~ last_at (ci_sds w) sd i -> nth i output 0 = 0)).
  { destruct (dict_spec w sd) as [[N ->]|(k & L & ->)].
    - eexists. split; [reflexivity|]. intros i Hi. rewrite nth_repeat. split; auto.
      intros [H _]. destruct N. eapply nth_error_In; eauto.
    - pose proof (B k L) as Hk. apply Nat.ltb_lt in Hk. rewrite Hk. eexists. split; [reflexivity|].
      intros i Hi. split.
      + intros L'. rewrite (last_unique _ _ _ _ L' L). apply upd_same. rewrite repeat_length; exact (B k L).
      + intros L'. rewrite upd_other by congruence. apply nth_repeat. }
  destruct X as (output & -> & V). cbn [bind].
  clear B. induction F as [|d i deriv is H F IH].
  - exists []. split; auto.
  - destruct IH as (out & E & G). cbn [mapM]. pose proof H as H'. apply np_index_ok in H'. rewrite H'. cbn [bind].
    rewrite E. cbn [bind]. eexists. split; [reflexivity|]. constructor; auto. apply V. apply H.
Qed.

(** every other index array raises IndexError *)
Theorem C39_deriv_errors : forall (w : ciwfn K) sd deriv,
  (exists d, In d deriv /\ forall i, ~ selects (length (ci_params w)) d i) \/
  (exists i, last_at (ci_sds w) sd i /\ (length (ci_params w) <= i)%nat) ->
  ci_overlap_deriv w sd deriv = Err IndexError.
Proof.
  intros w sd deriv H. unfold ci_overlap_deriv. set (np := length (ci_params w)) in *.
  assert (M : forall output : list K, (exists d, In d deriv /\ forall i, ~ selects np d i) ->
    mapM (fun d => do i <- np_index np d; Ok (nth i output 0)) deriv = Err IndexError).
  { intros output (d & Hd & Hn). clear H. induction deriv as [|d' deriv IH]; [destruct Hd|]. cbn [mapM].
    destruct (np_index np d') as [i|e] eqn:E.
    - cbn [bind]. destruct Hd as [->|Hd]; [apply np_index_ok in E; now apply Hn in E|]. now rewrite IH.
    - unfold np_index in E. destruct (_ && _)%bool; [discriminate|]. injection E as <-. reflexivity. }
  destruct (dict_spec w sd) as [[N ->]|(k & L & ->)].
  - cbn [bind]. apply M. destruct H as [H|(i & [H _] & _)]; auto. destruct N. eapply nth_error_In; eauto.
  - destruct (Nat.ltb_spec k np); cbn [bind]; auto. apply M. destruct H as [H|(i & H & H')]; auto.
    rewrite (last_unique _ _ _ _ H L) in H'. lia.
Qed.

(** changing one coefficient by [t] changes the overlap by [t] times the derivative *)
Definition with_params (w : ciwfn K) (p : list K) : ciwfn K :=
  mkci (ci_nelec w) (ci_nspin w) (ci_spin2 w) (ci_sen w) (ci_sds w) p.
Theorem C39_is_derivative : forall (w : ciwfn K) sd d i x ov t,
  selects (length (ci_params w)) d i -> nth_error (ci_params w) i = Some x -> ci_overlap w sd = Ok ov ->
  exists g, ci_overlap_deriv w sd [d] = Ok [g] /\
    ci_overlap (with_params w (upd (ci_params w) i (x + t))) sd = Ok (ov + t * g).
Proof.
  intros w sd d i x ov t S X O.
  assert (B : forall k, last_at (ci_sds w) sd k -> (k < length (ci_params w))%nat).
  { intros k L. rewrite (proj1 (C39_overlap w sd) k L) in O. destruct (nth_error _ k) eqn:E; [|discriminate].
    apply nth_error_Some. congruence. }
  destruct (C39_deriv w sd [d] [i] B) as (out & E & F); [constructor; auto|].
  inversion F as [|? g ? ? [G1 G0] F' ]; subst. inversion F'; subst. exists g. split; auto.
  destruct (dict_spec w sd) as [[N _]|(k & L & _)].
  - rewrite (proj2 (C39_overlap (with_params w _) sd)) by auto.
    rewrite (proj2 (C39_overlap w sd)) in O by auto. apply Ok_inj in O. subst ov.
    rewrite G0; [f_equal; ring|]. intros [H _]. destruct N. eapply nth_error_In; eauto.
  - rewrite (proj1 (C39_overlap (with_params w _) sd) k) by auto. cbn [ci_params with_params]. rewrite upd_err.
    rewrite (proj1 (C39_overlap w sd) k L) in O.
    destruct (Nat.eqb_spec i k) as [->|D].
    + pose proof (B k L) as Hk. apply Nat.ltb_lt in Hk. rewrite Hk. cbn [andb]. rewrite G1 by auto.
      rewrite X in O. apply Ok_inj in O. subst. f_equal. ring.
    + cbn [andb]. rewrite O. rewrite G0; [f_equal; ring|]. intros L'. apply D. eapply last_unique; eauto.
Qed.

(** coefficients imported from another CI wavefunction *)
Lemma first_index_spec : forall sd l, NoDup l ->
  (~ In sd l /\ first_index sd l = None) \/ exists i, nth_error l i = Some sd /\ first_index sd l = Some i.
Proof.
  intros sd. induction l as [|x l IH]; intros N; [left; auto|]. cbn [first_index]. inversion N as [|? ? N1 N2]; subst.
  destruct (N.eqb_spec x sd) as [->|D].
  - right. exists 0%nat. auto.
  - destruct (IH N2) as [[A ->]|(i & A & ->)].
    + left. split; auto. intros [H|H]; auto.
    + right. exists (S i). auto.
Qed.
Lemma import_loop_ok : forall (g : ciwfn K) l k p, NoDup (ci_sds g) -> NoDup l ->
  (length (ci_sds g) <= length (ci_params g))%nat -> (k + length l <= length p)%nat ->
  exists p', import_loop g l k p = Ok p' /\ length p' = length p /\
    (forall j, (j < k \/ k + length l <= j)%nat -> nth_error p' j = nth_error p j) /\
    (forall j sd, nth_error l j = Some sd ->
       (In sd (ci_sds g) -> exists x, ci_overlap g sd = Ok x /\ nth_error p' (k + j) = Some x) /\
       (~ In sd (ci_sds g) -> nth_error p' (k + j) = nth_error p (k + j))).
Proof.
  intros g. induction l as [|sd l IH]; intros k p Ng Nl Lg Lp.
  - exists p. repeat split; auto; destruct j; discriminate.
  - inversion Nl as [|? ? N1 N2]; subst. cbn [import_loop length] in *.
    assert (R : forall q, length q = length p -> (forall j, j <> k -> nth_error q j = nth_error p j) ->
       ((In sd (ci_sds g) -> exists x, ci_overlap g sd = Ok x /\ nth_error q k = Some x) /\
        (~ In sd (ci_sds g) -> nth_error q k = nth_error p k)) ->
       exists p', import_loop g l (S k) q = Ok p' /\ length p' = length p /\
    (forall j, (j < k \/ k + S (length l) <= j)%nat -> nth_error p' j = nth_error p j) /\
    (forall j sd', nth_error (sd :: l) j = Some sd' ->
       (In sd' (ci_sds g) -> exists x, ci_overlap g sd' = Ok x /\ nth_error p' (k + j) = Some x) /\
       (~ In sd' (ci_sds g) -> nth_error p' (k + j) = nth_error p (k + j)))).
    { intros q Lq Hq Hk. destruct (IH (S k) q) as (p' & E & Lp' & A & B); auto; [lia|].
      exists p'. split; auto. split; [congruence|]. split.
      - intros j Hj. rewrite A by lia. apply Hq. lia.
      - intros [|j] sd' Hj.
        + cbn in Hj. injection Hj as <-. rewrite Nat.add_0_r, A by lia. auto.
        + cbn in Hj. destruct (B j sd' Hj) as [B1 B2]. replace (k + S j)%nat with (S k + j)%nat by lia. split; auto.
          intros H. rewrite B2 by auto. apply Hq. lia. }
    destruct (first_index_spec sd (ci_sds g) Ng) as [[A ->]|(i & A & ->)].
    + apply R; auto. split; auto. tauto.
    + destruct (nth_error (ci_params g) i) as [x|] eqn:E.
      * assert (Hk : (k < length p)%nat) by lia. pose proof Hk as Hk'. apply Nat.ltb_lt in Hk'. rewrite Hk'.
        apply R.
        -- apply upd_length.
        -- intros j Hj. rewrite upd_err. destruct (Nat.eqb_spec k j); [congruence|]. reflexivity.
        -- split.
           ++ intros _. exists x. rewrite upd_err, Nat.eqb_refl, Hk'. split; auto.
              rewrite (proj1 (C39_overlap g sd) i) by (apply NoDup_last; auto). now rewrite E.
           ++ intros H. destruct H. eapply nth_error_In; eauto.
      * exfalso. apply nth_error_None in E. assert (i < length (ci_sds g))%nat by (apply nth_error_Some; congruence). lia.
Qed.
Theorem C39_import : forall (w g : ciwfn K), NoDup (ci_sds w) -> NoDup (ci_sds g) ->
  (length (ci_sds w) <= length (ci_params w))%nat -> (length (ci_sds g) <= length (ci_params g))%nat ->
  exists w', import_params w g = Ok w' /\ ci_sds w' = ci_sds w /\
    length (ci_params w') = length (ci_params w) /\
    forall sd, (In sd (ci_sds w) -> In sd (ci_sds g) -> ci_overlap w' sd = ci_overlap g sd) /\
               (~ In sd (ci_sds g) -> ci_overlap w' sd = ci_overlap w sd).
Proof.
  intros w g Nw Ng Lw Lg. unfold import_params.
  destruct (import_loop_ok g (ci_sds w) 0 (ci_params w) Ng Nw Lg Lw) as (p & E & Lp & A & B).
  rewrite E. cbn [bind]. exists (with_params w p). split; [reflexivity|]. split; auto. split; auto.
  intros sd. destruct (in_dec N.eq_dec sd (ci_sds w)) as [H|H].
  - apply In_nth_error in H as [i H]. destruct (B i sd H) as [B1 B2]. cbn [Nat.add] in *.
    rewrite (proj1 (C39_overlap (with_params w p) sd) i) by (apply NoDup_last; auto).
    rewrite (proj1 (C39_overlap w sd) i) by (apply NoDup_last; auto). cbn [ci_params with_params]. split.
    + intros _ Hg. destruct (B1 Hg) as (x & -> & ->). reflexivity.
    + intros Hg. now rewrite (B2 Hg).
  - rewrite (proj2 (C39_overlap (with_params w p) sd)), (proj2 (C39_overlap w sd)) by auto. split; auto. tauto.
Qed.

(** C40: compute_1rdm returns <a+_p a_q>, which is symmetric *)
Theorem C40_rdm : forall (w : ciwfn K) n, ci_nspin w = Z.of_nat n -> NoDup (ci_sds w) ->
  (length (ci_sds w) <= length (ci_params w))%nat -> (forall sd, In sd (ci_sds w) -> fits sd n) ->
  exists g, compute_1rdm w = Ok g /\
    forall p q, (p < n)%nat -> (q < n)%nat ->
      g p q = rdm1 (combine (ci_params w) (ci_sds w)) p q /\ g p q = g q p.
Proof.
  intros w n Hn Nd L F. destruct (rdm_ok w Nd L n Hn F) as (g & E & V). exists g. split; auto.
  intros p q Hp Hq. rewrite !V by auto. split; apply rdm1_sym.
Qed.

(** its trace is the number of electrons times the squared norm, for the determinants accepted by the
    constructor *)
Lemma mapM_all : forall {A B} (f : A -> res B) l l', mapM f l = Ok l' -> forall x, In x l -> exists y, f x = Ok y.
Proof.
  induction l as [|a l IH]; intros l' H x Hx; [destruct Hx|]. cbn [mapM] in H.
  destruct (f a) as [y|] eqn:E; [|discriminate]. cbn [bind] in H. destruct (mapM f l) eqn:E2; [|discriminate].
  destruct Hx as [<-|Hx]; eauto.
Qed.
Lemma base_electrons : forall ne ns sp se sds l, base_assign_sds ne ns sp se sds = Ok l ->
  l <> [] /\ forall sd, In sd l -> Z.of_nat (total_occ (Some sd)) = ne.
Proof.
  intros ne ns sp se sds l H. unfold base_assign_sds in H.
  destruct (match sds with None => sd_list ne ns None None sp se false | Some l => Ok l end) as [l0|]; [|discriminate].
  cbn [bind] in H. destruct (mapM (check_sd ne (ns / 2) sp se) l0) eqn:M; [|discriminate]. cbn [bind] in H.
  assert (l = l0 /\ l0 <> []) as [-> Ne] by (destruct l0; [discriminate|apply Ok_inj in H; subst; split; congruence]).
  split; auto. intros sd Hs. destruct (mapM_all _ _ _ M sd Hs) as [y Y]. unfold check_sd in Y.
  destruct (Z.eqb_spec (Z.of_nat (total_occ (Some sd))) ne); auto. discriminate.
Qed.
Lemma new_ci_sds : forall c ne ns (ps : option (list K)) sds sp se w, new_ci c ne ns ps sds sp se = Ok w ->
  ci_nelec w = ne /\ ci_nspin w = ns /\ (0 < ne)%Z /\ (0 < ns)%Z /\ (ns mod 2 = 0)%Z /\
  assign_spin c sp = Ok (ci_spin2 w) /\ assign_seniority c se = Ok (ci_sen w) /\
  assign_sds c ne ns (ci_spin2 w) (ci_sen w) sds = Ok (ci_sds w) /\ ci_sds w <> [] /\
  (forall sd, In sd (ci_sds w) -> has_electrons sd (Z.to_nat ne)) /\
  ci_params w = match ps with Some p => p | None => match ci_sds w with [] => [] | _ :: t => 1 :: map (fun _ => 0) t end end.
Proof.
  intros c ne ns ps sds sp se w H. unfold new_ci in H.
  destruct (assign_nelec c ne) as [ne'|] eqn:E1; [|discriminate]. cbn [bind] in H.
  destruct (assign_nspin ns) as [ns'|] eqn:E2; [|discriminate]. cbn [bind] in H.
  destruct (assign_spin c sp) as [sp'|] eqn:E3; [|discriminate]. cbn [bind] in H.
  destruct (assign_seniority c se) as [se'|] eqn:E4; [|discriminate]. cbn [bind] in H.
  destruct (assign_sds c ne' ns' sp' se' sds) as [l|] eqn:E5; [|discriminate]. cbn [bind] in H.
  apply Ok_inj in H. subst w. cbn [ci_nelec ci_nspin ci_spin2 ci_sen ci_sds ci_params].
  assert (ne' = ne /\ (0 < ne)%Z) as [-> P1].
  { unfold assign_nelec in E1. destruct (Z.leb_spec ne 0); [discriminate|].
    destruct c; try destruct (negb _); try discriminate; apply Ok_inj in E1; subst; split; auto. }
  assert (ns' = ns /\ (0 < ns)%Z /\ (ns mod 2 = 0)%Z) as (-> & P2 & P3).
  { unfold assign_nspin in E2. destruct (Z.leb_spec ns 0); [discriminate|].
    destruct (Z.eqb_spec (ns mod 2) 1); [discriminate|]. apply Ok_inj in E2. subst. split; auto. split; auto.
    pose proof (Z.mod_pos_bound ns' 2 ltac:(lia)). lia. }
  assert (B : l <> [] /\ forall sd, In sd l -> Z.of_nat (total_occ (Some sd)) = ne).
  { unfold assign_sds in E5. destruct c, sds; try discriminate; try (eapply base_electrons; eauto; fail);
      (destruct (sd_list _ _ _ _ _ _ _); [|discriminate]); cbn [bind] in E5; eapply base_electrons; eauto. }
  repeat (split; [solve [auto | apply B]|]). split; auto.
  intros sd Hs. apply electrons_occ. apply (proj2 B) in Hs. rewrite <- Hs, Nat2Z.id. symmetry. apply total_occ_length.
Qed.

Theorem C40_trace : forall c ne ns (ps : option (list K)) sds sp se w, new_ci c ne ns ps sds sp se = Ok w ->
  NoDup (ci_sds w) -> (length (ci_sds w) <= length (ci_params w))%nat ->
  (forall sd, In sd (ci_sds w) -> fits sd (Z.to_nat ns)) ->
  exists g, compute_1rdm w = Ok g /\
    sumf (fun p => g p p) (seq 0 (Z.to_nat ns))
    = nat_r (Z.to_nat ne) * sumf (fun a => fst a * fst a) (combine (ci_params w) (ci_sds w)).
Proof.
  intros c ne ns ps sds sp se w H Nd L F.
  destruct (new_ci_sds _ _ _ _ _ _ _ _ H) as (_ & Ens & _ & P & _ & _ & _ & _ & _ & El & _).
  destruct (C40_rdm w (Z.to_nat ns)) as (g & E & V); auto.
  { rewrite Ens. lia. }
  exists g. split; auto.
  rewrite <- (C38_trace (combine (ci_params w) (ci_sds w)) (Z.to_nat ns) (Z.to_nat ne)).
  - apply sumf_ext. intros p Hp. apply in_seq in Hp. apply V; lia.
  - now rewrite psi_sds.
  - rewrite psi_sds by auto. intros sd Hs. split; auto.
Qed.

(** and it agrees with the generalized density matrix of tools/density *)
Theorem C40_density : forall (lt : K -> K -> bool) (ab : K -> K) thr (w : ciwfn K) n,
  keeps_all lt ab thr -> ci_nspin w = Z.of_nat (2 * n) -> ci_sds w <> [] -> NoDup (ci_sds w) ->
  length (ci_sds w) = length (ci_params w) -> (forall sd, In sd (ci_sds w) -> fits sd (2 * n)) ->
  exists g g1 g2, compute_1rdm w = Ok g /\
    density_matrix lt ab (ci_params w) (ci_sds w) n false thr Generalized = Ok ([g1], [g2]) /\
    forall p q, (p < 2 * n)%nat -> (q < 2 * n)%nat -> g p q = g1 p q.
Proof.
  intros lt ab thr w n Kp Hn Ne Nd L F.
  destruct (C40_rdm w (2 * n)%nat Hn Nd) as (g & E & V); auto; [lia|].
  destruct (C38_generalized lt ab thr (ci_params w) (ci_sds w) n Kp) as (g1 & g2 & E2 & V1 & _).
  { unfold ci_ok. assert (M : map snd (combine (ci_params w) (ci_sds w)) = ci_sds w) by (apply psi_sds; lia).
    split; [|split].
    - intros X. rewrite X in M. now apply Ne.
    - now rewrite M.
    - now rewrite M. }
  exists g, g1, g2. repeat split; auto. intros p q Hp Hq. rewrite V1 by auto. now apply V.
Qed.

(** a determinant with an orbital beyond nspin: IndexError *)
Lemma rdm_pair_kind : forall (w : ciwfn K) sd c o v e, bit sd o = true -> bit sd v = false ->
  rdm_pair w sd c o v = Err e -> e = IndexError.
Proof.
  intros w sd c o v e Ho Hv H. destruct (excite_pair sd o v Ho Hv) as (ex & s & E & S & _).
  unfold rdm_pair in H. rewrite E in H. cbn [bind] in H. destruct (existsb (N.eqb ex) (ci_sds w)) eqn:X; [|discriminate].
  apply existsb_exists in X as (y & Hy & Q). apply N.eqb_eq in Q. subst y.
  destruct (dict_spec w ex) as [[A _]|(i & _ & D)]; [tauto|]. rewrite D in H.
  destruct (nth_error (ci_params w) i); [|congruence]. rewrite S in H. discriminate.
Qed.
Lemma rdm_adds_kind : forall n l (m : nat -> nat -> K) e, rdm_adds n l m = Err e -> e = IndexError.
Proof.
  intros n. induction l as [|[[i j] v] l IH]; intros m e H; [discriminate|]. cbn [rdm_adds] in H. unfold rdm_add in H.
  destruct (_ && _)%bool; cbn [bind] in H; [eauto|congruence].
Qed.
Lemma mapM_kind : forall {A B} (f : A -> res B) l e, mapM f l = Err e -> exists x, In x l /\ f x = Err e.
Proof.
  intros A B f. induction l as [|a l IH]; intros e H; [discriminate|]. cbn [mapM] in H.
  destruct (f a) eqn:E; cbn [bind] in H.
  - destruct (mapM f l) eqn:E2; [discriminate|]. destruct (IH e0) as (x & Hx & E3); auto. exists x. split; [now right|].
    cbn [bind] in H. congruence.
  - exists a. split; [now left|congruence].
Qed.
Lemma rdm_sd_kind : forall (w : ciwfn K) sd c m e, (0 <= ci_nspin w)%Z -> rdm_sd w sd c m = Err e -> e = IndexError.
Proof.
  intros w sd c m e P H. unfold rdm_sd in H.
  destruct (rdm_adds _ _ m) as [m1|] eqn:E1; cbn [bind] in H; [|injection H as <-; eapply rdm_adds_kind; eauto].
  destruct (mapM _ _) as [ls|] eqn:E2; cbn [bind] in H; [eapply rdm_adds_kind; eauto|].
  injection H as ->. apply mapM_kind in E2 as ([o v] & Hx & E). apply in_prod_iff in Hx as [Ho Hv]. cbn [fst snd] in E.
  apply occ_indices_In in Ho. replace (ci_nspin w) with (Z.of_nat (Z.to_nat (ci_nspin w))) in Hv by lia.
  rewrite vir_indices_filter, filter_In, negb_true_iff in Hv. eapply rdm_pair_kind; eauto. tauto.
Qed.
Theorem C40_outside : forall (w : ciwfn K) sd c i, (0 <= ci_nspin w)%Z ->
  In (sd, c) (combine (ci_sds w) (ci_params w)) -> bit sd i = true -> (Z.to_nat (ci_nspin w) <= i)%nat ->
  compute_1rdm w = Err IndexError.
Proof.
  intros w sd c i P H B L. unfold compute_1rdm. generalize (fun _ _ : nat => 0 : K).
  induction (combine (ci_sds w) (ci_params w)) as [|[sd' c'] l IH]; intros m; [destruct H|]. cbn [rdm_loop].
  destruct (rdm_sd w sd' c' m) as [m'|e] eqn:E.
  - cbn [bind]. destruct H as [H|H]; [|auto]. exfalso. injection H as -> ->. unfold rdm_sd in E.
    rewrite (rdm_adds_err _ _ m i i (c * c)) in E; [discriminate| |lia].
    apply in_map_iff. exists i. split; auto. now apply occ_indices_In.
  - cbn [bind]. f_equal. eapply rdm_sd_kind; eauto.
Qed.
End P.
Print Assumptions C40_outside.

(** The constructor accepts repeated determinants.  The overlap then only sees the last coefficient while
    the density matrix counts them all, so it is not that of the represented vector: the trace is not
    the number of electrons times the sum of the squared overlaps. *)
Theorem C40_repeated_refuted : exists (w : ciwfn Z_ring) (g : nat -> nat -> Z_ring),
  new_ci (K := Z_ring) CIGeneral 1 2 (Some [2; 3]%Z) (Some [1; 1]%N) None None = Ok w /\ compute_1rdm w = Ok g /\
  ci_overlap w 1%N = Ok (3%Z : Z_ring) /\ ci_overlap w 2%N = Ok (0%Z : Z_ring) /\
  sumf (K := Z_ring) (fun p => g p p) (seq 0 2) = 13%Z.
Proof. do 2 eexists. do 4 (split; [vm_compute; reflexivity|]). vm_compute. reflexivity. Qed.
Print Assumptions C40_repeated_refuted.

Example C39_ex : zov 2 4 [3; 5; 6; 9]%N [2; -3; 5; 7]%Z 5 = Ok (-3)%Z /\ zov 2 4 [3; 5; 6; 9]%N [2; -3; 5; 7]%Z 12 = Ok 0%Z /\
  zov 2 4 [3; 5; 3]%N [2; -3; 5]%Z 3 = Ok 5%Z /\ zov 2 4 [3; 5]%N [2]%Z 5 = Err IndexError /\
  zdov 2 4 [3; 5; 6; 9]%N [2; -3; 5; 7]%Z 6 [0; 2; -2; -1; 3]%Z = Ok [0; 1; 1; 0; 0]%Z /\
  zdov 2 4 [3; 5; 6; 9]%N [2; -3; 5; 7]%Z 10 [0; 2; -4]%Z = Ok [0; 0; 0]%Z /\
  zdov 2 4 [3; 5; 6; 9]%N [2; -3; 5; 7]%Z 6 [4]%Z = Err IndexError /\
  zdov 2 4 [3; 5; 6; 9]%N [2; -3; 5; 7]%Z 6 [-5]%Z = Err IndexError /\
  zdov 2 4 [3; 5]%N [2]%Z 5 [0]%Z = Err IndexError /\
  zimport 2 4 [3; 5; 6; 9]%N [2; -3; 5; 7]%Z [9; 12; 3]%N [20; 30; 40]%Z = Ok [40; -3; 5; 20]%Z.
Proof. vm_compute. repeat split. Qed.

Example C40_ex : zrdm 2 4 [3; 5; 6; 9]%N [2; -3; 5; 7]%Z
    = Ok [[62; -15; -10; 0]; [-15; 29; -6; 14]; [-10; -6; 34; -21]; [0; 14; -21; 49]]%Z /\
  zrdm 2 2 [5; 3]%N [1; 2]%Z = Err IndexError /\ zrdm 2 4 [3; 5]%N [1]%Z = Err IndexError /\
  (62 + 29 + 34 + 49 = 2 * (2 * 2 + -3 * -3 + 5 * 5 + 7 * 7))%Z.
Proof. vm_compute. repeat split. Qed.
