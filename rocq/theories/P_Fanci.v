(** C72: the projected equations of the interface to PyCI, their Jacobian, constraints and frozen parameters. *)
From Coq Require Import List ZArith Arith Bool Lia Ring QArith Qcanon.
From Verif Require Import Py Slater Alg BicliqueLemmas EqnSpec EqnLemmas Fanci Fanpt FanciSpec FanciLemmas FanptLemmas SolverEx FanptEx FanciEx.
Import ListNotations.
Local Open Scope nat_scope.

Section Jac.
Context {F : CField}.
Local Notation K := (fring F).
Local Open Scope cr_scope.
Add Ring K_ring131 : (rth K).

Lemma actives_nth : forall (o : fobj K) p, fo_mask o <> [] -> (p < fo_nactive o)%nat ->
  ((p < length (fo_act o))%nat /\ nth p (actives o) 0%nat = nth p (fo_act o) 0%nat /\ (nth p (fo_act o) 0%nat < fo_nparam o - 1)%nat) \/
  (fo_eact o = true /\ p = length (fo_act o) /\ nth p (actives o) 0%nat = (fo_nparam o - 1)%nat).
Proof.
  intros o p N H. unfold actives. rewrite act_full by exact N. assert (S := nactive_split o N). destruct (Nat.lt_ge_cases p (length (fo_act o))) as [L|L].
  - left. split; [exact L|]. rewrite app_nth1 by exact L. split; [reflexivity|]. apply act_lt. now apply nth_In.
  - right. destruct (fo_eact o); [|lia]. assert (p = length (fo_act o)) by lia. subst p. split; [reflexivity|]. split; [reflexivity|]. rewrite app_nth2 by lia. now rewrite Nat.sub_diag.
Qed.
Theorem C72_jacobian : forall Der, calculus Der -> forall (o : fobj K) c x, (1 <= c)%nat -> length x = fo_nparam o -> fo_mask o <> [] -> (fo_nproj o <= fo_ns o)%nat ->
  overlaps_derived Der o (wpar x) -> constraints_derived Der o x ->
  forall r p, (r < fo_nequation o)%nat -> (p < fo_nactive o)%nat ->
  Der (fun y => nth r (compute_objective o (upd x (nth p (actives o) 0%nat) y)) 0) (nth (nth p (actives o) 0%nat) x 0) (nth p (nth r (compute_jacobian o c x) []) 0).
Proof.
  intros Der C o c x Hc Hx Nm Hps Ho Hcon r p Hr Hp.
  assert (Lw : length (wpar x) = (length x - 1)%nat) by (unfold wpar; apply removelast_len).
  assert (Px : (1 <= length x)%nat) by (rewrite Hx; unfold fo_nparam; destruct (fo_mask o); [now destruct Nm|cbn; lia]).
  (* derivatives of the overlaps along the parameter *)
  assert (G : exists (D : nat -> K) (e : K), (forall j, (j < fo_ns o)%nat -> Der (fun y => fo_ovlp o (wpar (upd x (nth p (actives o) 0%nat) y)) j) (nth (nth p (actives o) 0%nat) x 0) (D j)) /\
     Der (fun y => epar (upd x (nth p (actives o) 0%nat) y)) (nth (nth p (actives o) 0%nat) x 0) e /\
     upd x (nth p (actives o) 0%nat) (nth (nth p (actives o) 0%nat) x 0) = x /\
     (forall (f : nat -> K) (e0 : K), nth p (map f (fo_act o) ++ (if fo_eact o then [e0] else [])) 0 = (if Nat.ltb p (length (fo_act o)) then f (nth p (fo_act o) 0%nat) else e0)) /\
     (if Nat.ltb p (length (fo_act o)) then e = 0 /\ (forall j, D j = fo_dovlp o (wpar x) j (nth p (fo_act o) 0%nat)) else e = 1 /\ (forall j, D j = 0))).
  { destruct (actives_nth o p Nm Hp) as [(L & E & Lt) | (Ea & -> & E)]; rewrite E.
    - exists (fun j => fo_dovlp o (wpar x) j (nth p (fo_act o) 0%nat)), 0. split; [|split; [|split; [|split]]].
      + intros j Hj. assert (Q := Ho j (nth p (fo_act o) 0%nat) Hj ltac:(rewrite Lw, Hx; exact Lt)). rewrite wpar_nth in Q by (rewrite Hx; exact Lt).
        eapply (cal_ext Der C); [|exact Q]. intros y. cbv beta. now rewrite (proj1 (wpar_upd_w x _ y ltac:(rewrite Hx; exact Lt))).
      + eapply (cal_ext Der C); [|apply (cal_const Der C (epar x))]. intros y. cbv beta. now rewrite (proj2 (wpar_upd_w x _ y ltac:(rewrite Hx; exact Lt))).
      + apply upd_same; lia.
      + intros f e0. rewrite nth_row. destruct (Nat.ltb_spec p (length (fo_act o))); [reflexivity|lia].
      + destruct (Nat.ltb_spec p (length (fo_act o))); [auto|lia].
    - exists (fun _ => 0), 1. rewrite <- Hx. split; [|split; [|split; [|split]]].
      + intros j Hj. eapply (cal_ext Der C); [|apply (cal_const Der C (fo_ovlp o (wpar x) j))]. intros y. cbv beta. now rewrite (proj1 (wpar_upd_e x y Px)).
      + eapply (cal_ext Der C); [|apply (cal_id Der C)]. intros y. cbv beta. now rewrite (proj2 (wpar_upd_e x y Px)).
      + apply upd_same; lia.
      + intros f e0. rewrite nth_row, Nat.ltb_irrefl, Ea, Nat.eqb_refl. reflexivity.
      + rewrite Nat.ltb_irrefl. auto. }
  destruct G as (D & e & GD & GE & GS & GR & GC). set (k := nth p (actives o) 0%nat) in *.
  destruct (Nat.lt_ge_cases r (fo_nproj o)) as [Lr|Lr].
  - rewrite row_proj by exact Lr. rewrite GR. eapply (cal_ext Der C); [intros y; symmetry; apply obj_proj; exact Lr|].
    eapply (der_eq Der).
    + apply (der_sub Der C).
      * apply (der_sum Der C nat (fun y j => fo_ci o r j * fo_ovlp o (wpar (upd x k y)) j) (fun j => fo_ci o r j * D j)). intros j Hj. apply in_seq in Hj. apply (der_scale Der C). apply GD. lia.
      * apply (cal_mul Der C); [exact GE|apply (GD r); lia].
    + cbv beta. rewrite GS. destruct (Nat.ltb p (length (fo_act o))); destruct GC as [-> GC].
      * rewrite GC. rewrite (sumf_ext (fun j => fo_ci o r j * D j) (fun j => fo_ci o r j * fo_dovlp o (wpar x) j (nth p (fo_act o) 0%nat))) by (intros j _; now rewrite GC). ring.
      * rewrite GC. rewrite sumf_zero by (intros j _; rewrite GC; ring). ring.
  - set (i := (r - fo_nproj o)%nat). assert (Li : (i < length (fo_cons o))%nat) by (unfold fo_nequation in Hr; unfold i; lia). replace r with (fo_nproj o + i)%nat by (unfold i; lia).
    rewrite row_con by exact Li. eapply (cal_ext Der C); [intros y; symmetry; apply obj_con; exact Li|].
    assert (Hi := Hcon (snd (nth i (fo_cons o) (NNorm, CNorm))) ltac:(apply in_map, nth_In; exact Li)).
    destruct (snd (nth i (fo_cons o) (NNorm, CNorm))) as [|d v|d v|f df] eqn:Ec; cbn [con_f con_df].
    + rewrite GR. eapply (der_eq Der).
      * apply (der_sub Der C); [|apply (cal_const Der C)]. apply (der_sum Der C nat (fun y j => fo_ovlp o (wpar (upd x k y)) j * fo_ovlp o (wpar (upd x k y)) j) (fun j => D j * fo_ovlp o (wpar x) j + fo_ovlp o (wpar x) j * D j)).
        intros j Hj. apply in_seq in Hj. eapply (der_eq Der); [apply (cal_mul Der C); apply GD; lia|]. cbv beta. now rewrite GS.
      * destruct (Nat.ltb p (length (fo_act o))); destruct GC as [_ GC].
        -- rewrite chunks_sum by exact Hc. replace (sumf (fun j => D j * fo_ovlp o (wpar x) j + fo_ovlp o (wpar x) j * D j) (seq 0 (fo_ns o)) - 0) with (sumf (fun j => D j * fo_ovlp o (wpar x) j + fo_ovlp o (wpar x) j * D j) (seq 0 (fo_ns o))) by ring.
           apply sumf_ext. intros j _. rewrite GC. ring.
        -- rewrite sumf_zero by (intros j _; rewrite GC; ring). ring.
    + rewrite GR. eapply (der_eq Der); [apply (der_sub Der C); [apply (GD d); exact Hi|apply (cal_const Der C)]|]. destruct (Nat.ltb p (length (fo_act o))); destruct GC as [_ GC]; rewrite GC; ring.
    + set (g := fun p0 : nat => if (nth d (fo_mask o) false && Nat.eqb p0 (ntrue (firstn d (fo_mask o))))%bool then (1 : K) else 0).
      assert (Ev : nth p (map g (seq 0 (fo_nactive o))) 0 = g p).
      { rewrite (nth_indep (map g (seq 0 (fo_nactive o))) 0 (g 0%nat)) by (now rewrite map_length, seq_length). rewrite map_nth, seq_nth by exact Hp. reflexivity. }
      rewrite Ev. unfold g. clear Ev g.
      destruct (nth d (fo_mask o) false) eqn:Md; cbn [andb]; [|apply (cal_const Der C)].
      assert (Pl : nth (ntrue (firstn d (fo_mask o))) (actives o) 0%nat = d) by (apply place_of; auto).
      assert (Lp : (ntrue (firstn d (fo_mask o)) < length (actives o))%nat).
      { destruct (Nat.lt_ge_cases (ntrue (firstn d (fo_mask o))) (length (actives o))) as [Y|Y]; [exact Y|]. exfalso.
        assert (In d (actives o)) by (unfold actives; apply filter_In; split; [apply in_seq; lia|exact Md]).
        rewrite (nth_overflow (actives o) 0%nat Y) in Pl. subst d. cbn in Y. destruct (actives o); [destruct H|cbn in Y; lia]. }
      destruct (Nat.eqb_spec p (ntrue (firstn d (fo_mask o)))) as [Ep|Ep].
      * assert (Ek : k = d) by (unfold k; now rewrite Ep). rewrite Ek. eapply (der_eq Der); [apply (der_sub Der C); [|apply (cal_const Der C)]; eapply (cal_ext Der C); [|apply (cal_id Der C)]|ring].
        intros y. cbv beta. rewrite nth_upd_eq; [reflexivity|]. rewrite Hx. exact Hi.
      * assert (Nk : k <> d).
        { intros E. apply Ep. apply (place_unique (actives o)); [apply NoDup_filter, seq_NoDup|unfold actives; rewrite nactive_full; exact Hp|exact Lp|]. rewrite Pl. exact E. }
        eapply (cal_ext Der C); [|apply (cal_const Der C (nth d x 0 - v))]. intros y. cbv beta. rewrite nth_upd_neq by auto. reflexivity.
    + apply Hi. exact Hp.
Qed.
(** the shapes: nequation values, and a row of nactive values for each *)
Theorem C72_shapes : forall (o : fobj K) c x, fo_mask o <> [] ->
  length (compute_objective o x) = fo_nequation o /\ length (compute_jacobian o c x) = fo_nequation o /\
  (forall row, In row (compute_jacobian o c x) -> length row = fo_nactive o \/ exists f df, In (CUser f df) (map snd (fo_cons o)) /\ row = df x).
Proof.
  intros o c x Nm. unfold compute_objective, compute_jacobian. rewrite !app_length, !map_length, !seq_length. split; [reflexivity|]. split; [reflexivity|].
  intros row H. assert (S := nactive_split o Nm). apply in_app_or in H. destruct H as [H|H]; apply in_map_iff in H; destruct H as (a & <- & Ha).
  - left. rewrite app_length, map_length, S. destruct (fo_eact o); reflexivity.
  - destruct (snd a) as [|d v|d v|f df] eqn:E; cbn [con_df].
    + left. rewrite app_length, map_length, S. destruct (fo_eact o); reflexivity.
    + left. rewrite app_length, map_length, S. destruct (fo_eact o); reflexivity.
    + left. now rewrite map_length, seq_length.
    + right. exists f, df. split; [rewrite <- E; now apply in_map|reflexivity].
Qed.
(** any memory gives the same gradient of the norm *)
Theorem C72_chunks : forall (o : fobj K) mem mem' x, (1 <= fo_ns o)%nat ->
  con_df o (chunk_size mem (fo_ns o)) x CNorm = con_df o (chunk_size mem' (fo_ns o)) x CNorm /\
  (forall b, In b (chunks (chunk_size mem (fo_ns o)) (fo_ns o)) -> (fst b < snd b <= fo_ns o)%nat /\ (Z.of_nat (snd b - fst b) <= Z.max 1 mem)%Z).
Proof.
  intros o mem mem' x Hs. assert (P : forall m, (1 <= chunk_size m (fo_ns o))%nat) by (intros m; unfold chunk_size; apply Nat.min_glb; [lia|exact Hs]). split.
  - cbn [con_df]. f_equal. apply map_ext. intros k. now rewrite !chunks_sum by auto.
  - intros b Hb. assert (Pm := P mem). assert (Cm : (Z.of_nat (chunk_size mem (fo_ns o)) <= Z.max 1 mem)%Z) by (unfold chunk_size; lia). generalize dependent (chunk_size mem (fo_ns o)). intros c Hb Pm Cm.
    unfold chunks in Hb. apply in_map_iff in Hb. destruct Hb as (i & <- & Hi). apply in_seq in Hi. cbn [fst snd].
    assert (D := Nat.div_mod (fo_ns o + c - 1) c ltac:(lia)). assert (Mb := Nat.mod_upper_bound (fo_ns o + c - 1) c ltac:(lia)). assert (i * c < fo_ns o)%nat by nia. lia.
Qed.
(** the constraints: the norm only without constraints and norm_det; the names of norm_param and norm_det are there *)
Lemma od_set_in : forall {A} (d : list (cname * A)) n v, In (n, v) (od_set d n v).
Proof. intros A d n v. induction d as [|[m w] d IH]; cbn [od_set]; [now left|]. destruct (cname_eqb m n); [now left|now right]. Qed.
Lemma cname_eqb_eq : forall a b, cname_eqb a b = true <-> a = b.
Proof. intros [|i|i|i] [|j|j|j]; cbn; split; intros H; try discriminate H; try reflexivity; try (apply Nat.eqb_eq in H; now subst); injection H as ->; apply Nat.eqb_refl. Qed.
Lemma od_set_other : forall {A} (d : list (cname * A)) n v m w, m <> n -> (In (m, w) (od_set d n v) <-> In (m, w) d).
Proof.
  intros A d n v m w N. induction d as [|[a b] d IH]; cbn [od_set].
  - split; [intros [E|[]]; injection E as E1 E2; congruence|intros []].
  - destruct (cname_eqb a n) eqn:E.
    + apply cname_eqb_eq in E. subst a. split; (intros [E|H]; [injection E as E1 E2; congruence|now right]).
    + split; (intros [H|H]; [now left|right; now apply IH]).
Qed.
Lemma od_fold : forall {A} (nm : nat -> cname) (mkv : nat -> A -> ccon K) (l : list (nat * A)) d n w, (forall i, nm i <> n) ->
  (In (n, w) (fold_left (fun d p => od_set d (nm (fst p)) (mkv (fst p) (snd p))) l d) <-> In (n, w) d).
Proof. intros A nm mkv l. induction l as [|a l IH]; intros d n w N; cbn [fold_left]; [tauto|]. rewrite IH by auto. apply od_set_other. intros E. now apply (N (fst a)). Qed.
Theorem C72_default_norm : forall cons np nd w, In (NNorm, w) (all_cons (K := K) cons np nd) <->
  (cons = None /\ nd = None /\ w = CNorm) \/ (exists l, cons = Some l /\ In (NNorm, w) l).
Proof.
  intros cons np nd w. unfold all_cons. cbv zeta.
  rewrite (od_fold NDet (fun i v => CDet i v)) by (intros; discriminate). rewrite (od_fold NParam (fun i v => CParam i v)) by (intros; discriminate).
  destruct cons as [l|].
  - split; [intros H; right; exists l; auto|]. intros [(E & _)|(l' & E & H)]; [discriminate E|injection E as <-; exact H].
  - destruct nd as [nd|]; cbn [In]; split.
    + intros [].
    + intros [(_ & E & _)|(l' & E & _)]; discriminate E.
    + intros [E|[]]. injection E as <-. left. auto.
    + intros [(_ & _ & ->)|(l' & E & _)]; [now left|discriminate E].
Qed.
Lemma det_fold : forall i w (nd : list (nat * K)) d, In (NDet i, w) (fold_left (fun d p => od_set d (NDet (fst p)) (CDet (fst p) (snd p))) nd d) ->
  In (NDet i, w) d \/ exists v, In (i, v) nd /\ w = CDet i v.
Proof.
  intros i w. induction nd as [|[a b] nd IH]; intros d H; cbn [fold_left] in H; [now left|]. apply IH in H. destruct H as [H|(v' & H & E)]; [|right; exists v'; split; [now right|exact E]].
  cbn [fst snd] in H. destruct (Nat.eq_dec a i) as [->|N].
  - induction d as [|[m y] d IHd]; cbn [od_set] in H.
    + destruct H as [E|[]]. injection E as <-. right. exists b. split; [now left|reflexivity].
    + destruct (cname_eqb m (NDet i)) eqn:Em.
      * destruct H as [E|H]; [injection E as <-; right; exists b; split; [now left|reflexivity]|left; now right].
      * destruct H as [E|H]; [left; now left|]. destruct (IHd H) as [Y|Y]; [left; now right|now right].
  - left. apply (od_set_other d (NDet a) (CDet a b)) in H; [exact H|]. intros E. injection E as E. auto.
Qed.
Lemma det_fold_in : forall i v (nd : list (nat * K)) d, In (i, v) nd -> (forall v', In (i, v') nd -> v' = v) -> In (NDet i, CDet i v) (fold_left (fun d p => od_set d (NDet (fst p)) (CDet (fst p) (snd p))) nd d).
Proof.
  intros i v. induction nd as [|[a b] nd IH]; intros d Hi Hu; [destruct Hi|]. cbn [fold_left fst snd].
  destruct (in_dec Nat.eq_dec i (map fst nd)) as [Y|Y].
  - apply in_map_iff in Y. destruct Y as ([i' b'] & E & Y). cbn [fst] in E. subst i'. apply IH; [|intros v' H; apply Hu; now right]. rewrite (Hu b') in Y by (now right). exact Y.
  - destruct Hi as [E|Hi]; [injection E as -> ->|exfalso; apply Y; apply in_map_iff; now exists (i, v)].
    assert (Z : forall (l : list (nat * K)) d0, ~ In i (map fst l) -> In (NDet i, CDet i v) d0 -> In (NDet i, CDet i v) (fold_left (fun d p => od_set d (NDet (fst p)) (CDet (fst p) (snd p))) l d0)).
    { induction l as [|[a' b'] l IHl]; intros d0 Nl Hd; [exact Hd|]. cbn [fold_left fst snd]. apply IHl; [intros H; apply Nl; now right|]. apply od_set_other; [|exact Hd]. intros E. injection E as E. apply Nl. now left. }
    apply Z; [exact Y|apply od_set_in].
Qed.
(** every determinant of norm_det has its constraint; a constraint on a determinant is of norm_det or was given *)
Theorem C72_norm_det : forall cons np nd i,
  (forall v, In (i, v) nd -> (forall v', In (i, v') nd -> v' = v) -> In (NDet i, CDet i v) (all_cons (K := K) cons np (Some nd))) /\
  (forall w, In (NDet i, w) (all_cons (K := K) cons np (Some nd)) -> (exists v, In (i, v) nd /\ w = CDet i v) \/ exists l, cons = Some l /\ In (NDet i, w) l).
Proof.
  intros cons np nd i. unfold all_cons. cbv zeta. split.
  - intros v Hi Hu. now apply det_fold_in.
  - intros w H. apply det_fold in H. destruct H as [H|H]; [|now left]. right. apply (od_fold NParam (fun i v => CParam i v)) in H; [|intros; discriminate].
    destruct cons as [l|]; [now exists l|destruct H].
Qed.
(** freezing: only the energy is affected *)
Theorem C72_energy_mask : forall (o : fobj K), fo_mask o <> [] ->
  fo_eact (freeze_energy o) = false /\ fo_eact (unfreeze_energy o) = true /\ fo_act (freeze_energy o) = fo_act o /\ fo_act (unfreeze_energy o) = fo_act o /\
  fo_nactive (unfreeze_energy o) = S (fo_nactive (freeze_energy o)) /\ fo_nparam (freeze_energy o) = fo_nparam o /\ fo_nequation (freeze_energy o) = fo_nequation o /\
  (forall x, compute_objective (freeze_energy o) x = compute_objective o x \/ exists i v, In (CParam i v) (map snd (fo_cons o)) /\ i = (fo_nparam o - 1)%nat).
Proof.
  intros o Nm. assert (U : forall b, upd (fo_mask o) (fo_nparam o - 1) b = removelast (fo_mask o) ++ [b]).
  { intros b. unfold fo_nparam. destruct (exists_last Nm) as (l & b0 & ->). rewrite app_length, removelast_last. cbn [length]. replace (length l + 1 - 1)%nat with (length l) by lia. clear. induction l as [|c l IH]; cbn [upd app length]; [reflexivity|]. f_equal. exact IH. }
  assert (Fl : fo_mask (freeze_energy o) = removelast (fo_mask o) ++ [false]) by apply U. assert (Ut : fo_mask (unfreeze_energy o) = removelast (fo_mask o) ++ [true]) by apply U.
  assert (Lr := removelast_len (fo_mask o)).
  assert (Ln : (1 <= length (fo_mask o))%nat) by (destruct (fo_mask o); [now destruct Nm|cbn; lia]).
  assert (Act : forall b, filter (fun k => nth k (removelast (fo_mask o) ++ [b]) false) (seq 0 (length (removelast (fo_mask o) ++ [b]) - 1)) = fo_act o).
  { intros b. unfold fo_act, fo_nparam. rewrite app_length. cbn [length]. rewrite Lr. replace (length (fo_mask o) - 1 + 1 - 1)%nat with (length (fo_mask o) - 1)%nat by lia.
    apply filter_ext_in. intros k Hk. apply in_seq in Hk. rewrite app_nth1 by lia. apply nth_removelast. lia. }
  split; [unfold fo_eact; rewrite Fl; apply last_last|]. split; [unfold fo_eact; rewrite Ut; apply last_last|].
  split; [unfold fo_act at 1, fo_nparam; rewrite Fl; apply Act|]. split; [unfold fo_act at 1, fo_nparam; rewrite Ut; apply Act|].
  split; [unfold fo_nactive, ntrue; rewrite Fl, Ut, !filter_app, !app_length; cbn; lia|]. split; [unfold fo_nparam; rewrite Fl, app_length, Lr; cbn; lia|]. split; [reflexivity|].
  intros x. destruct (existsb (fun p => match snd p with CParam i _ => Nat.eqb i (fo_nparam o - 1) | _ => false end) (fo_cons o)) eqn:E.
  - right. apply existsb_exists in E. destruct E as (a & Ha & E). destruct (snd a) as [|d v|d v|f df] eqn:Ea; try discriminate E. apply Nat.eqb_eq in E. exists d, v. split; [rewrite <- Ea; now apply in_map|exact E].
  - left. unfold compute_objective. f_equal. apply map_ext_in. intros a Ha. destruct (snd a) as [|d v|d v|f df] eqn:Ea; try reflexivity. cbn [con_f]. rewrite Fl.
    assert (Nd : d <> (fo_nparam o - 1)%nat).
    { intros Ed. assert (X : existsb (fun p => match snd p with CParam i _ => Nat.eqb i (fo_nparam o - 1) | _ => false end) (fo_cons o) = true); [|rewrite X in E; discriminate E]. apply existsb_exists. exists a. split; [exact Ha|]. rewrite Ea. now apply Nat.eqb_eq. }
    replace (nth d (removelast (fo_mask o) ++ [false]) false) with (nth d (fo_mask o) false); [reflexivity|]. unfold fo_nparam in Nd.
    destruct (Nat.lt_ge_cases d (length (fo_mask o) - 1)) as [L|L]; [rewrite app_nth1 by lia; symmetry; now apply nth_removelast|]. rewrite !nth_overflow; [reflexivity| |lia]. rewrite app_length, Lr. cbn. lia.
Qed.
(** y[mask] = x and y[mask] *)
Theorem C72_masks : forall (m : list bool) (y x : list K), length y = length m -> length x = ntrue m ->
  get_mask m (put_mask m y x) = x /\ length (put_mask m y x) = length y /\ (forall i, nth i m false = false -> nth i (put_mask m y x) 0 = nth i y 0) /\ put_mask m y (get_mask m y) = y.
Proof.
  induction m as [|b m IH]; intros y x Hy Hx.
  - destruct y; [|discriminate Hy]. destruct x; [|discriminate Hx]. repeat split; auto.
  - destruct y as [|a y]; [discriminate Hy|]. injection Hy as Hy. destruct b.
    + destruct x as [|v x]; [discriminate Hx|]. cbn in Hx. injection Hx as Hx. destruct (IH y x Hy Hx) as (A & B & C & D). unfold get_mask in *. cbn [put_mask combine filter map fst snd length].
      split; [now rewrite A|]. split; [now rewrite B|]. split; [|now rewrite D]. intros [|i] Hi; [discriminate Hi|]. cbn [nth] in *. now apply C.
    + cbn in Hx. destruct (IH y x Hy Hx) as (A & B & C & D). unfold get_mask in *. cbn [put_mask combine filter map fst snd length].
      split; [exact A|]. split; [now rewrite B|]. split; [|now rewrite D]. intros [|i] Hi; [reflexivity|]. cbn [nth] in *. now apply C.
Qed.
(** constraints cannot be added or removed *)
Theorem C72_change_constraints_refuted : forall (o : fobj K) n c, add_constraint o n c = Err TypeError /\ remove_constraint o n = Err TypeError.
Proof. intros; split; reflexivity. Qed.
(** the parameters given to the wavefunction by the overlaps and by their derivatives are the same if the selected ones
    are the first ones *)
Lemma feed_from : forall n s (ps x : list K), fold_left (fun p i => upd p i (nth i x 0)) (seq s n) ps = fold_left (fun p ij => upd p (snd ij) (nth (fst ij) x 0)) (combine (seq s n) (seq s n)) ps.
Proof. induction n as [|n IH]; intros s ps x; [reflexivity|]. cbn [seq fold_left combine fst snd]. apply IH. Qed.
Theorem C72_feed : forall n (ps x : list K), feed_overlap ps (seq 0 n) x = feed_deriv ps (seq 0 n) x.
Proof. intros n ps x. unfold feed_overlap, feed_deriv. rewrite seq_length. apply feed_from. Qed.
End Jac.
Print Assumptions C72_jacobian. Print Assumptions C72_shapes. Print Assumptions C72_chunks. Print Assumptions C72_default_norm. Print Assumptions C72_norm_det.
Print Assumptions C72_energy_mask. Print Assumptions C72_masks. Print Assumptions C72_change_constraints_refuted. Print Assumptions C72_feed.

(** with the first parameter frozen the overlaps read the vector of all parameters where the derivatives read the
    active ones *)
Theorem C72_feed_refuted : exists (ps x : list Qc_field) inds, feed_overlap ps inds x <> feed_deriv ps inds x.
Proof. exists [zc 1; zc 2], [zc 3; zc 4], [1]. intros H. apply (f_equal (fun l => this (nth 1 l (zc 0)))) in H. vm_compute in H. discriminate H. Qed.
Print Assumptions C72_feed_refuted.
(** values for two determinants, a parameter and the energy, with the norm, a determinant and a parameter constrained *)
Example C72_ex : map this (compute_objective ex_fanci ex_fx) = map this [zc (-9); zc 3; zc 28; zc 1; zc 3] /\
  map (map this) (compute_jacobian ex_fanci 1 ex_fx) = map (map this) [[zc (-9); zc (-5)]; [zc 3; zc (-2)]; [zc 44; zc 0]; [zc 1; zc 0]; [zc 4; zc 0]].
Proof. vm_compute. split; reflexivity. Qed.
