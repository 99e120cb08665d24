(** Overlaps and gradients of the geminals with a rank-two coefficient matrix, and those of APIG *)
From Coq Require Import List ZArith NArith Arith Bool Lia Permutation Sorted Ring_theory.
From Verif Require Import Py Slater BitSpec BitLemmas SlaterBits Combos Alg MathTools SdLemmas PermSpec PermLemmas RyserLemmas BorchardtLemmas
  HamLemmas BicliqueLemmas BicliqueMain Graphs WfnCI CILemmas Geminal GemPairs GemSpec GemMain GemSchemes GemOlp GemWf P_Permanent MpsLemmas EqnSpec EqnLemmas Rank2 Rank2Spec Rank2Lemmas Rank2Main.
Import ListNotations.
Local Open Scope nat_scope.

Section Values.
Context {K : CField}.
Local Open Scope cr_scope.
Add Ring K_ring102 : (rth K).
Lemma pm_ext : forall (E E' : nat -> nat -> K) rows cols, (forall i j, In i rows -> In j cols -> E i j = E' i j) -> pm E rows cols = pm E' rows cols.
Proof. intros E E' rows cols H. unfold pm. destruct (Nat.ltb _ _); apply permR_ext; rewrite <- Forall2_map_iff'; intros; auto. Qed.
(** the matrix of coefficients, by rows, and the APIG wavefunction with these coefficients *)
Definition full_params (ngem norb : nat) (p : list K) : list K := flat_map (fun i => map (rank2 ngem norb p i) (seq 0 norb)) (seq 0 ngem).
Definition full (w : gem K) : gem K := with_params2 w (full_params (gm_ngem w) (norbpair w) (gm_params w)).
Lemma full_entry : forall ngem norb p i j, (i < ngem)%nat -> (j < norb)%nat -> nth (i * norb + j)%nat (full_params ngem norb p) 0 = rank2 ngem norb p i j.
Proof.
  intros ngem norb p i j Hi Hj. unfold full_params. rewrite nth_flat with (m := norb); auto; [|intros; rewrite map_length; apply seq_length].
  rewrite (nth_indep _ 0 (rank2 ngem norb p (0 + i) 0%nat)) by (now rewrite map_length, seq_length). rewrite map_nth, seq_nth by auto. reflexivity.
Qed.
Lemma full_length : forall ngem norb p, length (full_params ngem norb p) = (ngem * norb)%nat.
Proof. intros. unfold full_params. apply flat_map_const. intros. now rewrite map_length, seq_length. Qed.

Lemma new_r2_inv : forall small lstsq far nelec nspin ngem o ps (w : gem K), new_r2 small lstsq far nelec nspin ngem o ps = Ok w ->
  gm_class w = GAPIG /\ gm_nelec w = nelec /\ gm_nspin w = nspin /\
  (exists h, (0 < h)%nat /\ nelec = Z.of_nat (2 * h) /\ (h <= gm_ngem w)%nat) /\
  new_gem GAPIG nelec nspin ngem o (PArray (full_params (gm_ngem w) (norbpair w) (gm_params w))) = Ok (full w).
Proof.
  intros small lstsq far nelec nspin ngem o ps w E. unfold new_r2 in E.
  destruct (gem_assign_nelec nelec) as [ne|] eqn:E1; [|discriminate]. cbn [bind] in E.
  destruct (assign_nspin nspin) as [ns|] eqn:E2; [|discriminate]. cbn [bind] in E.
  destruct (gem_assign_ngem ne ngem) as [ng|] eqn:E3; [|discriminate]. cbn [bind] in E.
  destruct (assign_orbpairs GAPIG ns o) as [pr|] eqn:E4; [|discriminate]. cbn [bind] in E.
  unfold r2_assign in E. destruct (r2_given _ _ _ ps) as [l|]; [|discriminate].
  destruct (r2_singular _ _); [discriminate|]. cbn [bind] in E. injection E as <-. unfold full. cbn [with_params2 gm_class gm_nelec gm_nspin gm_ngem gm_pairs gm_params norbpair].
  assert (X : new_gem GAPIG nelec nspin ngem o (PArray (full_params ng (length pr) l)) = Ok (mkgem GAPIG ne ns ng pr (full_params ng (length pr) l))).
  { unfold new_gem. rewrite E1. cbn [bind]. rewrite E2. cbn [bind]. rewrite E3. cbn [bind]. rewrite E4. cbn [bind]. unfold gem_assign_params. cbn [bind gm_ngem norbpair gm_pairs].
    rewrite full_length, Nat.eqb_refl. reflexivity. }
  pose proof (new_gem_inv _ _ _ _ _ _ _ X) as (_ & F2 & F3 & F4 & _). cbn [gm_nelec gm_nspin gm_ngem] in *. subst ne ns. auto.
Qed.
Lemma full_cols : forall (w : gem K) ps, cols_of (full w) ps = cols_of w ps.
Proof. reflexivity. Qed.

(** *** overlaps *)
Section Fixed.
Variable w : gem K.
Variable W : wf_gem (full w).
Variable A : admissible (gm_ngem w) (norbpair w) (gm_params w).
Lemma scheme_cols : forall ps cols, (forall q, In q ps -> (fst q < snd q)%Z) -> NoDup ps -> cols_of w ps = Ok cols -> cols_in w cols /\ length cols = length ps /\ cols = map (idx (full w)) ps.
Proof.
  intros ps cols S N Ec. assert (I : incl ps (gm_pairs (full w))) by (eapply cols_incl; eauto).
  assert (E : cols = map (idx (full w)) ps). { pose proof (cols_value (full w) ps W S I) as X. rewrite full_cols, Ec in X. now injection X. }
  split; [|split; [now rewrite E, map_length|auto]]. subst cols. split; [now apply idx_NoDup|].
  intros c Hc. apply in_map_iff in Hc as (q & <- & Hq). apply (idx_lt (full w)); auto.
Qed.
Definition r2_term (q : scheme * Z) : K :=
  match fst q with [] => 0 | _ => sgnr (snd q) * pm (rank2 (gm_ngem w) (norbpair w) (gm_params w)) (seq 0 (gm_ngem w)) (map (idx (full w)) (fst q)) end.
Definition nice_list (L : list (scheme * Z)) : Prop := forall q, In q L -> NoDup (fst q) /\ forall x, In x (fst q) -> (fst x < snd x)%Z.
Lemma ngem_pos : (0 < gm_ngem w)%nat.
Proof. apply (wf_pos _ W). Qed.
Lemma compute_none : forall cols, cols_in w cols -> cols <> [] -> r2_compute w cols None = Ok (pm (rank2 (gm_ngem w) (norbpair w) (gm_params w)) (seq 0 (gm_ngem w)) cols).
Proof.
  intros cols Hc Nc. unfold r2_compute. apply r2_perm_value; auto; [apply rows_seq|]. pose proof ngem_pos. destruct (gm_ngem w); [lia|discriminate].
Qed.
Lemma r2_loop_value : forall L v, nice_list L -> (forall q, In q L -> incl (fst q) (gm_pairs w)) -> r2_olp_loop w L v = Ok (v + sumf r2_term L).
Proof.
  induction L as [|[ps s] L IH]; intros v G I; cbn [r2_olp_loop].
  - cbn [sumf fold_right]. f_equal. ring.
  - destruct (G (ps, s) (or_introl eq_refl)) as (N & S). cbn [fst] in *.
    assert (G' : nice_list L) by (intros q Hq; apply G; now right). assert (I' : forall q, In q L -> incl (fst q) (gm_pairs w)) by (intros q Hq; apply I; now right).
    rewrite sumf_cons. unfold r2_term at 1. cbn [fst snd]. destruct ps as [|p0 ps].
    + rewrite IH by auto. f_equal. ring.
    + assert (Ec : cols_of w (p0 :: ps) = Ok (map (idx (full w)) (p0 :: ps))). { rewrite <- full_cols. apply cols_value; auto. exact (I _ (or_introl eq_refl)). }
      rewrite Ec. cbn [bind]. destruct (scheme_cols _ _ S N Ec) as (Hc & _). rewrite compute_none by (auto; discriminate). cbn [bind]. rewrite IH by auto. f_equal. ring.
Qed.
Lemma r2_loop_full : forall (ch : char_zero K) L v, nice_list L -> r2_olp_loop w L v = olp_loop (full w) L v.
Proof.
  intros ch. induction L as [|[ps s] L IH]; intros v G; cbn [r2_olp_loop olp_loop]; auto.
  destruct (G (ps, s) (or_introl eq_refl)) as (N & S). cbn [fst] in *. assert (G' : nice_list L) by (intros q Hq; apply G; now right).
  destruct ps as [|p0 ps]; [now apply IH|]. rewrite full_cols. destruct (cols_of w (p0 :: ps)) as [cols|] eqn:Ec; [|reflexivity]. cbn [bind].
  destruct (scheme_cols _ _ S N Ec) as (Hc & Lc & _). assert (Nc : cols <> []) by (destruct cols; [discriminate|congruence]).
  rewrite compute_none by auto. cbn [full with_params2 gm_ngem gm_params norbpair gm_pairs]. change (norbpair (full w)) with (norbpair w).
  rewrite (compute_value ch); auto; [|apply ngem_pos|apply Hc]. cbn [bind].
  rewrite (pm_ext (entry (full_params (gm_ngem w) (norbpair w) (gm_params w)) (norbpair w)) (rank2 (gm_ngem w) (norbpair w) (gm_params w))); [now apply IH|].
  intros i j Hi Hj. unfold entry. apply full_entry; [apply in_seq in Hi; lia|now apply Hc].
Qed.
(** *** gradients *)
Definition r2_dterm (h k : nat) (q : scheme * Z) : K :=
  match fst q with [] => 0 | _ => sgnr (snd q) * dperm w (map (idx (full w)) (fst q)) (target w h k) end.
Lemma dperm_other : forall cols k h, cols_in w cols -> cols <> [] -> (k < length (gm_params w))%nat -> ~ In k (r2_indices w cols) -> dperm w cols (target w h k) = 0.
Proof.
  intros cols k h Hc Nc Hk Nk. pose proof (ad_len _ _ _ A) as Lp. assert (Hn : (gm_ngem w <= k)%nat) by (destruct (le_lt_dec (gm_ngem w) k); auto; exfalso; apply Nk, indices_In; auto).
  rewrite target_same by lia. assert (Nb : (norbpair w <> 0)%nat) by lia.
  destruct (le_lt_dec (gm_ngem w + norbpair w) k) as [H|H].
  - rewrite (dperm_col w cols k (k - gm_ngem w - norbpair w) false); auto; try lia.
    destruct (in_dec _ _ _) as [I|I]; auto. exfalso. apply Nk, indices_In. right. exists (k - gm_ngem w - norbpair w)%nat. split; auto. lia.
  - rewrite (dperm_col w cols k (k - gm_ngem w) true); auto; try lia.
    destruct (in_dec _ _ _) as [I|I]; auto. exfalso. apply Nk, indices_In. right. exists (k - gm_ngem w)%nat. split; auto. lia.
Qed.
Lemma r2_dloop_value : forall h L output, gm_nelec w = Z.of_nat (2 * h) -> (h <= gm_ngem w)%nat -> nice_list L -> (forall q, In q L -> incl (fst q) (gm_pairs w)) ->
  (forall q, In q L -> fst q <> [] -> minor_ok (gm_ngem w) (length (fst q))) -> length output = length (gm_params w) ->
  exists o, r2_dolp_loop w L output = Ok o /\ length o = length output /\
    forall k, (k < length (gm_params w))%nat -> nth k o 0 = nth k output 0 + sumf (r2_dterm h k) L.
Proof.
  intros h. induction L as [|[ps s] L IH]; intros output En Hh G I Mo Lo; cbn [r2_dolp_loop].
  - exists output. repeat split; auto. intros. cbn [sumf fold_right]. ring.
  - destruct (G (ps, s) (or_introl eq_refl)) as (N & S). cbn [fst] in *.
    assert (G' : nice_list L) by (intros q Hq; apply G; now right). assert (I' : forall q, In q L -> incl (fst q) (gm_pairs w)) by (intros q Hq; apply I; now right).
    assert (Mo' : forall q, In q L -> fst q <> [] -> minor_ok (gm_ngem w) (length (fst q))) by (intros q Hq; apply Mo; now right).
    destruct ps as [|p0 ps].
    + destruct (IH output En Hh G' I' Mo' Lo) as (o & E & Lo' & V). exists o. repeat split; auto. intros k Hk. rewrite V by auto. rewrite sumf_cons. unfold r2_dterm at 2. cbn [fst]. ring.
    + assert (Ec : cols_of w (p0 :: ps) = Ok (map (idx (full w)) (p0 :: ps))). { rewrite <- full_cols. apply cols_value; auto. exact (I _ (or_introl eq_refl)). }
      rewrite Ec. cbn [bind]. destruct (scheme_cols _ _ S N Ec) as (Hc & Lc & _). set (cols := map (idx (full w)) (p0 :: ps)) in *.
      assert (Nc : cols <> []) by discriminate. assert (Mc : minor_ok (gm_ngem w) (length cols)) by (rewrite Lc; apply (Mo (p0 :: ps, s)); [now left|discriminate]).
      destruct (fill_value w cols s (fun k => dperm w cols (target w h k)) (r2_indices w cols) output) as (o1 & E1 & L1 & V1).
      { now apply indices_NoDup. }
      { intros i Hi. assert (B : (i < length (gm_params w))%nat).
        { rewrite (ad_len _ _ _ A). apply indices_In in Hi as [Hi|(c & Hi & Hi')]; [lia|]. pose proof (proj2 Hc c Hi). lia. }
        split; [lia|]. apply compute_deriv; auto. }
      rewrite E1. cbn [bind]. destruct (IH o1 En Hh G' I' Mo') as (o & E & Lo' & V); [congruence|]. exists o. split; auto. split; [congruence|].
      intros k Hk. rewrite V, V1 by auto. rewrite sumf_cons. unfold r2_dterm at 2. cbn [fst snd]. fold cols.
      destruct (in_dec Nat.eq_dec k (r2_indices w cols)) as [Q|Q]; [ring|]. rewrite dperm_other by auto. ring.
Qed.
End Fixed.

(** *** derivatives *)
(** values of a parameter that have to be avoided *)
Definition avoid (ngem norb : nat) (p : list K) (k : nat) : list K :=
  if Nat.ltb k ngem then map (lam p) (without k (seq 0 ngem)) ++ map (eps ngem p) (seq 0 norb)
  else if Nat.ltb k (ngem + norb) then map (eps ngem p) (without (k - ngem) (seq 0 norb)) ++ map (lam p) (seq 0 ngem)
  else [].
Lemma avoid_current : forall ngem norb p k, admissible ngem norb p -> ~ In (nth k p 0) (avoid ngem norb p k).
Proof.
  intros ngem norb p k A I. unfold avoid in I. destruct (Nat.ltb_spec k ngem) as [H|H]; [|destruct (Nat.ltb_spec k (ngem + norb)) as [H'|H']; [|destruct I]].
  - apply in_app_iff in I as [I|I]; apply in_map_iff in I as (i & Ei & Hi).
    + apply without_In in Hi as [Hi D]. apply in_seq in Hi. apply D, (ad_lam _ _ _ A); auto; lia.
    + apply in_seq in Hi. apply (ad_diff _ _ _ A k i); auto; lia.
  - replace (nth k p 0) with (eps ngem p (k - ngem)) in I by (unfold eps; f_equal; lia).
    apply in_app_iff in I as [I|I]; apply in_map_iff in I as (i & Ei & Hi).
    + apply without_In in Hi as [Hi D]. apply in_seq in Hi. apply D, (ad_eps _ _ _ A); auto; lia.
    + apply in_seq in Hi. apply (ad_diff _ _ _ A i (k - ngem)%nat); auto; lia.
Qed.
Lemma lam_upd : forall p k (x : K) i, (k < length p)%nat -> lam (upd p k x) i = if Nat.eqb k i then x else lam p i.
Proof. intros. unfold lam. now apply nth_upd. Qed.
Lemma eps_upd : forall ngem p k (x : K) i, (k < length p)%nat -> eps ngem (upd p k x) i = if Nat.eqb k (ngem + i) then x else eps ngem p i.
Proof. intros. unfold eps. now apply nth_upd. Qed.
Lemma admissible_upd : forall ngem norb p k x, admissible ngem norb p -> (k < length p)%nat -> ~ In x (avoid ngem norb p k) -> admissible ngem norb (upd p k x).
Proof.
  intros ngem norb p k x A Hk Nx. unfold avoid in Nx.
  assert (X1 : (k < ngem)%nat -> forall i, (i < ngem)%nat -> i <> k -> x <> lam p i).
  { intros H i Hi D ->. rewrite (proj2 (Nat.ltb_lt k ngem)) in Nx by auto. apply Nx, in_app_iff. left. apply in_map, without_In. split; auto. apply in_seq. lia. }
  assert (X2 : (k < ngem)%nat -> forall i, (i < norb)%nat -> x <> eps ngem p i).
  { intros H i Hi ->. rewrite (proj2 (Nat.ltb_lt k ngem)) in Nx by auto. apply Nx, in_app_iff. right. apply in_map, in_seq. lia. }
  assert (Y1 : (ngem <= k < ngem + norb)%nat -> forall i, (i < norb)%nat -> (ngem + i <> k)%nat -> x <> eps ngem p i).
  { intros H i Hi D ->. rewrite (proj2 (Nat.ltb_ge k ngem)), (proj2 (Nat.ltb_lt k (ngem + norb))) in Nx by lia. apply Nx, in_app_iff. left. apply in_map, without_In. split; [apply in_seq; lia|lia]. }
  assert (Y2 : (ngem <= k < ngem + norb)%nat -> forall i, (i < ngem)%nat -> x <> lam p i).
  { intros H i Hi ->. rewrite (proj2 (Nat.ltb_ge k ngem)), (proj2 (Nat.ltb_lt k (ngem + norb))) in Nx by lia. apply Nx, in_app_iff. right. apply in_map, in_seq. lia. }
  constructor.
  - rewrite upd_length'. apply A.
  - intros i i' Hi Hi'. rewrite !lam_upd by auto. destruct (Nat.eqb_spec k i) as [Q|Q], (Nat.eqb_spec k i') as [Q'|Q']; [congruence| | |].
    + intros E. exfalso. apply (X1 ltac:(lia) i' Hi'); auto.
    + intros E. exfalso. apply (X1 ltac:(lia) i Hi); auto.
    + now apply (ad_lam _ _ _ A).
  - intros i i' Hi Hi'. rewrite !eps_upd by auto. destruct (Nat.eqb_spec k (ngem + i)) as [Q|Q], (Nat.eqb_spec k (ngem + i')) as [Q'|Q']; [lia| | |].
    + intros E. exfalso. apply (Y1 ltac:(lia) i' Hi'); auto.
    + intros E. exfalso. apply (Y1 ltac:(lia) i Hi); auto.
    + now apply (ad_eps _ _ _ A).
  - intros i j Hi Hj. rewrite lam_upd, eps_upd by auto. destruct (Nat.eqb_spec k i) as [Q|Q], (Nat.eqb_spec k (ngem + j)) as [Q'|Q']; [lia| | |].
    + apply X2; auto. lia.
    + intros E. apply (Y2 ltac:(lia) i Hi). auto.
    + now apply (ad_diff _ _ _ A).
Qed.
Lemma wf_upd : forall w : gem K, wf_gem (full w) -> forall k x, wf_gem (full (with_entry w k x)).
Proof.
  intros w W k x. constructor; try apply W. cbn. change (norbpair (with_entry w k x)) with (norbpair w). apply full_length.
Qed.
Lemma r2_derivative : forall Der (cal : calculus Der) (loc : local Der) (w : gem K) h L k, wf_gem (full w) -> admissible (gm_ngem w) (norbpair w) (gm_params w) ->
  nice_list L -> (forall q, In q L -> incl (fst q) (gm_pairs w)) -> (k < length (gm_params w))%nat -> ~ (h <= k < gm_ngem w)%nat ->
  Der (fun x => okv (r2_olp_loop (with_entry w k x) L 0)) (nth k (gm_params w) 0) (sumf (r2_dterm w h k) L).
Proof.
  intros Der cal loc w h L k W A G I Hk Nk. pose proof (ad_len _ _ _ A) as Lp.
  apply (loc (fun x => sumf (r2_term (with_entry w k x)) L) _ _ _ (avoid (gm_ngem w) (norbpair w) (gm_params w) k)).
  { now apply avoid_current. }
  { intros x Hx. rewrite r2_loop_value; [cbn [okv]; ring|now apply wf_upd|now apply admissible_upd|auto|exact I]. }
  apply (der_sum Der cal). intros [ps s] Hq. unfold r2_term, r2_dterm. cbn [fst snd]. destruct ps as [|p0 ps]; [apply (cal_const Der cal)|].
  apply (der_scale Der cal). set (cols := map (idx (full w)) (p0 :: ps)). rewrite target_same by auto.
  destruct (G _ Hq) as (N & S). cbn [fst] in *.
  assert (Hc : cols_in w cols).
  { split; [apply idx_NoDup; auto; exact (I _ Hq)|]. intros c Hc. apply in_map_iff in Hc as (q & <- & Hq'). apply (idx_lt (full w)); auto. apply (I _ Hq). exact Hq'. }
  eapply der_eq.
  { apply (der_pm Der cal (fun x => rank2 (gm_ngem w) (norbpair w) (upd (gm_params w) k x)) (rank2_deriv (gm_ngem w) (norbpair w) (gm_params w) k) (nth k (gm_params w) 0) (seq 0 (gm_ngem w)) cols (seq_NoDup _ _) (proj1 Hc)).
    intros i j Hi Hj. apply in_seq in Hi. apply Hc in Hj. apply der_entry; auto; [lia|]. apply (ad_diff _ _ _ A); auto. lia. }
  unfold dperm. apply sumf_ext. intros i Hi. apply sumf_ext. intros j Hj. f_equal. apply pm_ext. intros i' j' _ _. unfold rank2, zet, lam, eps. now rewrite !upd_same by auto.
Qed.
End Values.
