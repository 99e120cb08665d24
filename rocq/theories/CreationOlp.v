(** Lemmas: overlaps and derivatives of the creation coupled cluster wavefunction *)
From Coq Require Import List ZArith NArith Arith Bool Lia Permutation Sorted Ring_theory.
From Verif Require Import Py Slater BitSpec BitLemmas SlaterBits Combos Alg SdLemmas SignSpec SignLemmas PermLemmas MatchSpec MatchLemmas GeneralLemmas
  Graphs WfnCI Geminal GemPairs CreSpec CreLemmas GemMain GemSchemes GemFinal CILemmas CCLemmas MathTools Creation CreationSpec CreationLemmas CreationGood CreationPf BicliqueLemmas.
Import ListNotations.
Local Open Scope nat_scope.

Lemma zocc_lowest : forall h sd, firstn (2 * h) (zocc sd) = lowest h (occ_indices (Some sd)).
Proof. intros h sd. unfold zocc, lowest. apply firstn_map. Qed.
Lemma occ_sorted : forall sd, StronglySorted lt (occ_indices (Some sd)).
Proof. intros sd. apply occ_indices_increasing. Qed.
Lemma cr_orbitals_ok : forall occ h e, 2 * h <= length occ -> is_perm h e -> cr_orbitals occ e = Ok (orbs occ e).
Proof.
  intros occ h e L (S & _). unfold cr_orbitals, orbs. apply mapM_ok_of. intros p Hp. pose proof (perm_range h e S p Hp) as R. unfold at_pos, orb.
  rewrite !(nth_error_nth' _ 0) by lia. reflexivity.
Qed.
Definition posn (pairs : list (Z * Z)) (p : Z * Z) : nat := match pair_index p pairs with Some i => i | None => 0 end.

Lemma nth_error_upd_eq : forall {A} (l : list A) k y, (k < length l) -> nth_error (upd l k y) k = Some y.
Proof. intros A. induction l as [|z l IH]; intros [|k] y H; cbn in *; try lia; auto. apply IH. lia. Qed.
Lemma nth_error_upd_neq : forall {A} (l : list A) k j y, j <> k -> nth_error (upd l k y) j = nth_error l j.
Proof. intros A. induction l as [|z l IH]; intros [|k] [|j] y H; cbn; auto; try congruence. Qed.
Section Olp.
Context {K : CField}.
Local Open Scope cr_scope.
Add Ring K_ring106 : (rth K).
(** what the constructor and assign_params establish *)
Definition wf_cr (w : creation K) (h : nat) : Prop :=
  cr_perms w = cr_permutations (Z.of_nat (2 * h)) /\ NoDup (cr_pairs w) /\ forall p, In p (cr_pairs w) -> (fst p < snd p)%Z.
Variables (w : creation K) (h : nat) (sd : N).
Hypothesis Wf : wf_cr w h.
Notation occ := (occ_indices (Some sd)).
Notation low := (lowest h occ).
Hypothesis Le : (2 * h <= length occ)%nat.

Lemma amp_facts : forall (params : list K) (C : Z * Z -> K) x y, amplitudes (cr_pairs w) params C low -> In x low -> In y low -> (x < y)%Z ->
  cr_col (cr_pairs w) (x, y) = Ok (posn (cr_pairs w) (x, y)) /\ nth_error params (posn (cr_pairs w) (x, y)) = Some (C (x, y)) /\ nth_error (cr_pairs w) (posn (cr_pairs w) (x, y)) = Some (x, y).
Proof.
  intros params C x y A Hx Hy L. destruct (A x y Hx Hy L) as (i & E1 & E2). destruct Wf as (_ & N & _). apply (pair_index_spec _ _ _ N) in E1 as E3. unfold cr_col, posn. rewrite E3. auto.
Qed.
Lemma amp_covers : forall (params : list K) (C : Z * Z -> K), amplitudes (cr_pairs w) params C low -> covers (cr_pairs w) low.
Proof. intros params C A x y Hx Hy L. destruct (A x y Hx Hy L) as (i & E & _). eapply nth_error_In; eauto. Qed.
Lemma mem_facts : forall e p, is_perm h e -> In p (orbs occ e) -> In (fst p) low /\ In (snd p) low /\ (fst p < snd p)%Z.
Proof. intros e [x y] He Hp. apply (orbs_In occ h (occ_sorted sd) Le e x y He Hp). Qed.

Lemma product_value : forall (C : Z * Z -> K) e s, amplitudes (cr_pairs w) (cr_params w) C low -> is_perm h e -> cr_product w occ e s = Ok (sgnr s * prodf C (orbs occ e)).
Proof.
  intros C e s A He. unfold cr_product. rewrite (cr_orbitals_ok occ h e) by auto. cbn [bind].
  assert (Q1 : mapM (cr_col (cr_pairs w)) (orbs occ e) = Ok (map (posn (cr_pairs w)) (orbs occ e))).
  { apply mapM_ok_of. intros [x y] Hp. destruct (mem_facts e _ He Hp) as (H1 & H2 & H3). now destruct (amp_facts _ C x y A H1 H2 H3). }
  rewrite Q1. cbn [bind].
  assert (Q2 : mapM (cr_param w) (map (posn (cr_pairs w)) (orbs occ e)) = Ok (map C (orbs occ e))).
  { assert (In_e : forall p, In p (orbs occ e) -> In p (orbs occ e)) by auto. revert In_e. generalize (orbs occ e) at 1 3 4. induction l as [|[x y] l IH]; intros I; auto. cbn [map mapM].
    destruct (mem_facts e _ He (I _ (or_introl eq_refl))) as (H1 & H2 & H3). destruct (amp_facts _ C x y A H1 H2 H3) as (_ & E & _). unfold cr_param at 1. rewrite E. cbn [bind]. rewrite IH by (intros p Hp; apply I; now right). reflexivity. }
  rewrite Q2. cbn [bind]. now rewrite prodf_map.
Qed.
Lemma olp_value : forall (C : Z * Z -> K), amplitudes (cr_pairs w) (cr_params w) C low ->
  cr_olp w sd = Ok (sumf (fun p => sgnr (snd p) * prodf C (fst p)) (crl occ h)).
Proof.
  intros C A. unfold cr_olp. destruct Wf as (Ep & _). rewrite Ep. rewrite (mapM_ok_of _ (fun p => sgnr (snd p) * prodf C (orbs occ (fst p)))).
  - cbn [bind]. unfold crl. rewrite !sumf_map. reflexivity.
  - intros [e s] H. cbn [fst snd]. apply perms_In in H as [H _]. now apply product_value.
Qed.
Lemma olp_pfaffian : forall (C : Z * Z -> K), amplitudes (cr_pairs w) (cr_params w) C low -> cr_olp w sd = Ok (pfaffian C low).
Proof.
  intros C A. rewrite (olp_value C A). f_equal. destruct Wf as (_ & N & Lt).
  rewrite <- (good_pfaffian h low (cr_pairs w) 1 (crl occ h) C); auto.
  - apply sumf_ext. intros p _. now rewrite Z.mul_1_l.
  - apply lowest_length. exact Le.
  - apply lowest_sorted. apply occ_sorted.
  - eapply amp_covers; eauto.
  - apply crl_good; auto; [apply occ_sorted|]. eapply amp_covers; eauto.
Qed.

(** ** derivatives *)
Definition others (pr : Z * Z) (ps : list (Z * Z)) : list (Z * Z) := filter (fun p => negb (zpair_eqb p pr)) ps.
Definition slope (C : Z * Z -> K) (k : nat) (ps : list (Z * Z)) : K :=
  sumf (fun pr => if Nat.eqb (posn (cr_pairs w) pr) k then prodf C (others pr ps) else 0) ps.
Lemma deriv_pairs_value : forall (C : Z * Z -> K) e s, amplitudes (cr_pairs w) (cr_params w) C low -> is_perm h e -> forall todo output, incl todo (orbs occ e) -> length output = length (cr_params w) ->
  exists o, cr_deriv_pairs w s (orbs occ e) todo output = Ok o /\ length o = length output /\
    forall k, nth k o 0 = nth k output 0 + sgnr s * sumf (fun pr => if Nat.eqb (posn (cr_pairs w) pr) k then prodf C (others pr (orbs occ e)) else 0) todo.
Proof.
  intros C e s A He. induction todo as [|[x y] todo IH]; intros output I Lo; cbn [cr_deriv_pairs].
  - exists output. repeat split; auto. intros k. rewrite (sumf_zero _ []) by (intros ? []). ring.
  - destruct (mem_facts e _ He (I _ (or_introl eq_refl))) as (H1 & H2 & H3). destruct (amp_facts _ C x y A H1 H2 H3) as (E1 & E2 & _). rewrite E1. cbn [bind].
    assert (Lc : (posn (cr_pairs w) (x, y) < length output)%nat) by (rewrite Lo; apply nth_error_Some; congruence). rewrite (proj2 (Nat.ltb_lt _ _) Lc). cbn [negb].
    assert (Q : mapM (fun p => do c <- cr_col (cr_pairs w) p; cr_param w c) (others (x, y) (orbs occ e)) = Ok (map C (others (x, y) (orbs occ e)))).
    { apply mapM_ok_of. intros [a b] Hp. unfold others in Hp. apply filter_In in Hp as [Hp _]. destruct (mem_facts e _ He Hp) as (G1 & G2 & G3). destruct (amp_facts _ C a b A G1 G2 G3) as (F1 & F2 & _).
      rewrite F1. cbn [bind]. unfold cr_param. now rewrite F2. }
    unfold others in Q at 1. rewrite Q. cbn [bind]. destruct (IH (upd output (posn (cr_pairs w) (x, y)) (nth (posn (cr_pairs w) (x, y)) output 0 + sgnr s * prodf (fun x => x) (map C (others (x, y) (orbs occ e)))))) as (o & Eo & Lo' & Vo).
    + intros p Hp. apply I. now right.
    + rewrite upd_length. auto.
    + exists o. rewrite Eo. split; auto. rewrite upd_length in Lo'. split; auto. intros k. rewrite Vo, sumf_cons, prodf_map. change (fun x0 : Z * Z => C x0) with C. destruct (Nat.eqb_spec (posn (cr_pairs w) (x, y)) k) as [<-|D].
      * rewrite nth_upd_eq by auto. ring.
      * rewrite nth_upd_neq by auto. ring.
Qed.
Lemma deriv_value : forall (C : Z * Z -> K), amplitudes (cr_pairs w) (cr_params w) C low ->
  exists o, cr_olp_deriv w sd = Ok o /\ length o = length (cr_params w) /\ forall k, nth k o 0 = sumf (fun p => sgnr (snd p) * slope C k (fst p)) (crl occ h).
Proof.
  intros C A. unfold cr_olp_deriv. destruct Wf as (Ep & _). rewrite Ep. unfold crl.
  assert (X : forall L output, (forall p, In p L -> is_perm h (fst p) /\ snd p = cr_sign (zpairs (fst p))) -> length output = length (cr_params w) ->
    exists o, cr_deriv_loop w occ (map fst L) output = Ok o /\ length o = length (cr_params w) /\
      forall k, nth k o 0 = nth k output 0 + sumf (fun p => sgnr (snd p) * slope C k (fst p)) (map (fun p => (orbs occ (fst p), snd p)) L)).
  { induction L as [|[e s] L IH]; intros output H Lo; cbn [map cr_deriv_loop fst snd].
    - exists output. repeat split; auto. intros k. rewrite (sumf_zero _ []) by (intros ? []). ring.
    - destruct (H _ (or_introl eq_refl)) as [He Es]. cbn [fst snd] in He, Es. rewrite (cr_orbitals_ok occ h e) by auto. cbn [bind]. rewrite (orbs_sign occ h (occ_sorted sd) Le e He), <- Es.
      destruct (deriv_pairs_value C e s A He (orbs occ e) output) as (o1 & E1 & L1 & V1); auto; [apply incl_refl|]. rewrite E1. cbn [bind].
      destruct (IH o1) as (o & Eo & L2 & V2); [intros p Hp; apply H; now right|congruence|]. exists o. split; auto. split; auto. intros k. rewrite V2, V1, sumf_cons. cbn [fst snd]. unfold slope at 2. ring. }
  destruct (X (cr_permutations (Z.of_nat (2 * h))) (repeat 0 (length (cr_params w)))) as (o & E & L & V).
  - intros [e s] H. now apply perms_In in H.
  - apply repeat_length.
  - exists o. split; auto. split; auto. intros k. rewrite V, nth_repeat. ring.
Qed.
(** changing one parameter *)
Definition changed (C : Z * Z -> K) (k : nat) (y : K) : Z * Z -> K := fun p => if Nat.eqb (posn (cr_pairs w) p) k then y else C p.
Lemma changed_product : forall C k x y ps, NoDup ps -> (forall p q, In p ps -> In q ps -> posn (cr_pairs w) p = posn (cr_pairs w) q -> p = q) ->
  (forall p, In p ps -> posn (cr_pairs w) p = k -> C p = x) -> prodf (changed C k y) ps = prodf C ps + (y - x) * slope C k ps.
Proof.
  intros C k x y ps N Inj Hx. destruct (in_dec Nat.eq_dec k (map (posn (cr_pairs w)) ps)) as [H|H].
  - apply in_map_iff in H as (p & Ep & Hp).
    assert (Pm : Permutation ps (p :: others p ps)).
    { apply NoDup_Permutation; auto.
      - constructor; [|now apply NoDup_filter]. unfold others. intros Q. apply filter_In in Q as [_ Q]. rewrite (proj2 (zpair_eqb_eq p p) eq_refl) in Q. discriminate.
      - intros q. cbn [In]. unfold others. rewrite filter_In. split.
        + intros Hq. destruct (zpair_eqb q p) eqn:E; [apply zpair_eqb_eq in E; auto|right; auto].
        + intros [<-|[Hq _]]; auto. }
    assert (So : slope C k ps = prodf C (others p ps)).
    { unfold slope. rewrite (sumf_single _ ps p); auto.
      - now rewrite Ep, Nat.eqb_refl.
      - intros q Hq Dq. destruct (Nat.eqb_spec (posn (cr_pairs w) q) k) as [Eq|]; auto. exfalso. apply Dq. apply Inj; auto. congruence. }
    rewrite So, (prodf_perm (changed C k y) _ _ Pm), (prodf_perm C _ _ Pm), !prodf_cons. unfold changed at 1. rewrite Ep, Nat.eqb_refl. rewrite (Hx p Hp Ep).
    rewrite (prodf_ext (changed C k y) C (others p ps)); [ring|]. intros q Hq. unfold changed. destruct (Nat.eqb_spec (posn (cr_pairs w) q) k) as [Eq|]; auto. exfalso.
    unfold others in Hq. apply filter_In in Hq as [Hq Dq]. assert (q = p) by (apply Inj; auto; congruence). subst q. rewrite (proj2 (zpair_eqb_eq p p) eq_refl) in Dq. discriminate.
  - assert (D : forall p, In p ps -> Nat.eqb (posn (cr_pairs w) p) k = false) by (intros p Hp; apply Nat.eqb_neq; intros E; apply H; rewrite <- E; now apply in_map).
    rewrite (prodf_ext (changed C k y) C ps) by (intros p Hp; unfold changed; now rewrite D). unfold slope. rewrite sumf_zero; [ring|]. intros p Hp. now rewrite D.
Qed.
Definition with_params (l : list K) : creation K := mkcr (cr_nelec w) (cr_nspin w) (cr_pairs w) l (cr_perms w).
Lemma posn_inj : forall x y x' y', covers (cr_pairs w) low -> In x low -> In y low -> (x < y)%Z -> In x' low -> In y' low -> (x' < y')%Z ->
  posn (cr_pairs w) (x, y) = posn (cr_pairs w) (x', y') -> (x, y) = (x', y').
Proof.
  intros x y x' y' Cv H1 H2 H3 H4 H5 H6 E. destruct Wf as (_ & N & _).
  assert (Q : forall p, In p (cr_pairs w) -> nth_error (cr_pairs w) (posn (cr_pairs w) p) = Some p).
  { intros p Hp. unfold posn. destruct (pair_index p (cr_pairs w)) as [i|] eqn:X; [now apply pair_index_spec in X|]. apply pair_index_none in X. contradiction. }
  pose proof (Q _ (Cv x y H1 H2 H3)) as Q1. pose proof (Q _ (Cv x' y' H4 H5 H6)) as Q2. rewrite E in Q1. congruence.
Qed.
Lemma changed_amplitudes : forall (C : Z * Z -> K) k y, (k < length (cr_params w))%nat -> amplitudes (cr_pairs w) (cr_params w) C low -> amplitudes (cr_pairs w) (upd (cr_params w) k y) (changed C k y) low.
Proof.
  intros C k y Hk A a b Ha Hb Lab. destruct (amp_facts _ C a b A Ha Hb Lab) as (_ & E2 & E3). exists (posn (cr_pairs w) (a, b)). split; auto. unfold changed.
  destruct (Nat.eqb_spec (posn (cr_pairs w) (a, b)) k) as [E|D]; [rewrite E; now apply nth_error_upd_eq|now rewrite nth_error_upd_neq].
Qed.
End Olp.
Section Affine.
Context {K : CField}.
Local Open Scope cr_scope.
Add Ring K_ring107 : (rth K).
Lemma olp_affine : forall (w : creation K) h sd (C : Z * Z -> K) k x, wf_cr w h -> (2 * h <= length (occ_indices (Some sd)))%nat ->
  amplitudes (cr_pairs w) (cr_params w) C (lowest h (occ_indices (Some sd))) -> nth_error (cr_params w) k = Some x ->
  exists v o, cr_olp w sd = Ok v /\ cr_olp_deriv w sd = Ok o /\ length o = length (cr_params w) /\
    forall y, cr_olp (with_params w (upd (cr_params w) k y)) sd = Ok (v + (y - x) * nth k o 0).
Proof.
  intros w h sd C k x Wf Le A Hk. destruct (deriv_value w h sd Wf Le C A) as (o & Eo & Lo & Vo). eexists. exists o. split; [apply (olp_value w h sd Wf Le C A)|]. split; auto. split; auto. intros y.
  assert (Wf' : wf_cr (with_params w (upd (cr_params w) k y)) h) by (exact Wf).
  assert (Lk : (k < length (cr_params w))%nat) by (apply nth_error_Some; congruence).
  rewrite (olp_value _ h sd Wf' Le (changed w C k y)); [|exact (changed_amplitudes w h sd Wf C k y Lk A)]. f_equal. rewrite Vo, <- sumf_mul_l, <- sumf_add. apply sumf_ext. intros p Hp. apply crl_In in Hp as (e & He & ->). cbn [fst snd].
  rewrite (changed_product w C k x y); [ring| | |].
  - eapply flat_perm_NoDup; [apply (lowest_NoDup _ h (occ_sorted sd))|]. apply orbs_perm; auto.
  - intros [a b] [c d] H1 H2 E. destruct (mem_facts h sd Le e _ He H1) as (F1 & F2 & F3). destruct (mem_facts h sd Le e _ He H2) as (G1 & G2 & G3). cbn [fst snd] in *.
    apply (posn_inj w h sd Wf) in E; auto. eapply amp_covers; eauto.
  - intros [a b] H1 E. destruct (mem_facts h sd Le e _ He H1) as (F1 & F2 & F3). cbn [fst snd] in *. destruct (amp_facts w h sd Wf _ C a b A F1 F2 F3) as (_ & Q & _). rewrite E in Q. congruence.
Qed.
End Affine.
