(** C45: AP1roG *)
From Coq Require Import List ZArith NArith Arith Bool Lia Permutation Sorted Ring_theory QArith Qcanon.
From Verif Require Import Py Slater BitSpec BitLemmas SlaterBits SlaterBits2 Combos Fock Alg FockInner SignSpec SignLemmas
  Graphs GraphSpec MatchSpec MatchLemmas GeneralLemmas MathTools SdLemmas PermLemmas HamLemmas P_Permanent
  BicliqueLemmas BicliqueMain WfnCI Geminal GemPairs CreSpec CreLemmas P_Slater1 P_Slater2 P_Graphs GemSpec P_GemPairs
  GemMain GemSchemes GemOlp GemWf CILemmas GemFinal P_Geminal AP1roG Ap1Spec Ap1Lemmas Ap1Main GemEx Ap1Ex.
Import ListNotations.
Local Open Scope nat_scope.

(** the reference: any closed-shell determinant with the right number of electrons, nothing else *)
Theorem C45_reference : forall nelec k sd, 0 < k ->
  (has_electrons sd (Z.to_nat nelec) /\ (0 <= nelec)%Z /\ closed_shell k sd -> ap1_assign_ref_sd nelec (Z.of_nat (2 * k)) (Some sd) = Ok sd) /\
  (~ (has_electrons sd (Z.to_nat nelec) /\ (0 <= nelec)%Z /\ closed_shell k sd) -> ap1_assign_ref_sd nelec (Z.of_nat (2 * k)) (Some sd) = Err ValueError).
Proof.
  intros nelec k sd Hk. unfold ap1_assign_ref_sd. cbn [bind].
  replace (Z.of_nat (2 * k) / 2)%Z with (Z.of_nat k) by (rewrite Nat2Z.inj_mul, Z.mul_comm, Z.div_mul; lia).
  destruct (C09_spin_seniority sd (Z.of_nat k)) as (na & nb & v & sp & E1 & E2 & Ca & Cb & _ & _ & Es & _ & _ & _ & _ & Cl); [lia|].
  rewrite Nat2Z.id in *. rewrite E1, E2. cbn [bind].
  assert (Te : has_electrons sd (total_occ (Some sd))) by (apply electrons_occ; symmetry; apply total_occ_length).
  assert (Sp : v = 0 -> sp = 0%Z).
  { intros Hv0. pose proof (proj1 Cl Hv0) as Hv. assert (Ee : na = nb); [|lia]. destruct Ca as (la & N1 & I1 & <-), Cb as (lb & N2 & I2 & <-).
    apply Permutation_length, NoDup_Permutation; auto. intros i. now rewrite I1, I2, Hv. }
  split.
  - intros (He & Hn & Hc). rewrite (has_electrons_unique _ _ _ Te He), Z2Nat.id, Z.eqb_refl by auto. cbn [negb].
    pose proof (proj2 Cl Hc) as Hc'. rewrite (Sp Hc'), Hc'. reflexivity.
  - intros H. destruct (Z.eqb_spec (Z.of_nat (total_occ (Some sd))) nelec) as [En|]; [|reflexivity]. cbn [negb].
    destruct (negb (sp =? 0)%Z); [reflexivity|]. destruct (Nat.eqb_spec v 0) as [Ev|]; [|reflexivity]. exfalso. apply H.
    rewrite <- En, Nat2Z.id. split; [auto|]. split; [lia|]. exact (proj1 Cl Ev).
Qed.
Print Assumptions C45_reference.

Section P.
Context {K : CField}.
Local Open Scope cr_scope.
Add Ring K_ring53 : (rth K).

(** the rows are the pairs of the reference and the columns the others, in the order given; together
    they are the alpha-beta pairs of all spatial orbitals *)
Theorem C45_assign : forall nelec nspin ngem o ref ps (w : ap1 K), new_ap1 nelec nspin ngem o ref ps = Ok w ->
  exists k h P, nelec = Z.of_nat (2 * h) /\ nspin = Z.of_nat (2 * k) /\ gm_ngem (a1_gem w) = h /\
    closed_shell k (a1_ref w) /\ has_electrons (a1_ref w) (2 * h) /\
    apig_assign_orbpairs nspin o = Ok P /\ NoDup P /\ (forall p, In p P <-> is_diag k p) /\
    a1_refpairs w = filter (fun p => bit (a1_ref w) (Z.to_nat (fst p))) P /\
    gm_pairs (a1_gem w) = filter (fun p => negb (bit (a1_ref w) (Z.to_nat (fst p)))) P /\
    length (a1_refpairs w) = h /\ length (a1_params w) = (h * length (gm_pairs (a1_gem w)))%nat.
Proof.
  intros nelec nspin ngem o ref ps w E. pose proof (new_ap1_wf _ _ _ _ _ _ _ E) as (k & h & W & Hn & Hs & HP).
  assert (EP : exists P, apig_assign_orbpairs nspin o = Ok P).
  { unfold new_ap1 in E. destruct (gem_assign_nelec nelec) as [ne|]; [|discriminate]. cbn [bind] in E.
    destruct (assign_nspin nspin) as [ns|] eqn:E2; [|discriminate]. apply assign_nspin_inv in E2 as (-> & _). cbn [bind] in E.
    destruct (ap1_assign_ngem ne ngem) as [ng|]; [|discriminate]. cbn [bind] in E. destruct (ap1_assign_ref_sd ne nspin ref) as [rf|]; [|discriminate]. cbn [bind] in E.
    unfold ap1_assign_orbpairs in E. destruct (apig_assign_orbpairs nspin o) as [P|]; [eauto|discriminate]. }
  destruct EP as [P EP]. destruct (HP P EP) as (Pm & F1 & F2).
  assert (D : forall p, In p P <-> is_diag k p).
  { intros p. rewrite <- (pairs_all w k h W). split; apply Permutation_in; auto. now symmetry. }
  assert (Rf : forall p, In p P -> in_ref (a1_ref w) p = bit (a1_ref w) (Z.to_nat (fst p))).
  { intros p Hp. apply D in Hp as (i & Hi & ->). cbn [fst]. rewrite Nat2Z.id. apply in_ref_key; auto. apply W. }
  exists k, h, P. split; [auto|]. split; [auto|]. split; [apply W|]. split; [apply W|]. split.
  - apply electrons_occ. pose proof (closed_count k (a1_ref w) (w1_closed _ _ _ W)) as C. unfold zocc in C. rewrite map_length, (w1_count _ _ _ W) in C. exact C.
  - split; [auto|]. split; [eapply Permutation_NoDup; [symmetry; exact Pm|]; eapply all_NoDup; eauto|]. split; [auto|]. split; [|split].
    + rewrite F1. apply filter_ext_in. auto.
    + rewrite F2. apply filter_ext_in. intros p Hp. now rewrite Rf.
    + split; [eapply refpairs_length; eauto|apply W].
Qed.

(** the overlap, for every determinant, is the coefficient in the product over the reference pairs r of
    (a+_r a+_rbar + sum_a t_ra a+_a a+_abar), up to the sign of gathering the alpha orbitals *)
Theorem C45_product : forall nelec nspin ngem o ref ps (w : ap1 K) C sd h, char_zero K ->
  new_ap1 nelec nspin ngem o ref ps = Ok w -> ap1_coefficients w C -> nelec = Z.of_nat (2 * h) ->
  exists v, ap1_overlap w sd = Ok v /\
    gem_product (a1_refpairs w ++ gm_pairs (a1_gem w)) (map C (seq 0 h)) sd = interleave_sign h * v.
Proof.
  intros nelec nspin ngem o ref ps w C sd h Ch E HC Hn. apply new_ap1_wf in E as (k & h' & W & Hn' & _). assert (h' = h) by lia. subst h'.
  apply (ap1_product Ch w k h W); auto.
Qed.

(** in particular the reference has overlap one *)
Theorem C45_ref_one : forall nelec nspin ngem o ref ps (w : ap1 K), char_zero K ->
  new_ap1 nelec nspin ngem o ref ps = Ok w -> ap1_overlap w (a1_ref w) = Ok 1.
Proof.
  intros nelec nspin ngem o ref ps w Ch E. apply new_ap1_wf in E as (k & h & W & _). rewrite (ap1_value Ch w k h W).
  assert (X1 : exc1 k w (a1_ref w) = []).
  { unfold exc1. apply filter_none. intros i Hi. apply alphas_In in Hi as [_ ->]. reflexivity. }
  assert (X2 : exc2 k w (a1_ref w) = []).
  { unfold exc2. apply filter_none. intros i Hi. apply alphas_In in Hi as [_ ->]. reflexivity. }
  unfold rows_of, cols1_of. rewrite X1, X2. cbn [length Nat.eqb andb map permR]. rewrite (proj2 (paired_iff w k h W (a1_ref w))) by apply W. reflexivity.
Qed.

Lemma product_perm : forall l l' (cs : list (Z * Z -> K)), Permutation l l' -> forall m, gem_product l cs m = gem_product l' cs m.
Proof.
  intros l l' cs P. induction cs as [|c cs IH]; intros m; [reflexivity|]. cbn [gem_product fold_right]. unfold geminal at 1 3.
  rewrite (sumf_perm _ _ _ P). apply sumf_ext. intros p _. f_equal. apply cre_ext. intros n. apply cre_ext. intros n'. apply IH.
Qed.
Lemma combinations_full : forall {A} (l : list A), combinations l (length l) = [l].
Proof.
  intros A. assert (Big : forall (l : list A) n, length l < n -> combinations l n = []).
  { induction l as [|x l IH]; intros [|n] H; cbn [combinations length] in *; try lia; auto. rewrite !IH by lia. reflexivity. }
  induction l as [|x l IH]; [reflexivity|]. cbn [length combinations]. rewrite IH, Big by lia. reflexivity.
Qed.
(** APIG with the identity in the reference columns gives the same overlap up to a sign that depends on
    the number of pairs only *)
Theorem C45_apig : forall nelec nspin ngem o ref ps ps' (w : ap1 K) (w' : gem K) C sd h, char_zero K ->
  new_ap1 nelec nspin ngem o ref ps = Ok w -> new_gem GAPIG nelec nspin ngem o ps' = Ok w' ->
  ap1_coefficients w C -> coefficients w' C -> nelec = Z.of_nat (2 * h) -> has_electrons sd (2 * h) ->
  exists v, ap1_overlap w sd = Ok v /\ gem_overlap w' sd = Ok (convention GAPIG h * interleave_sign h * v).
Proof.
  intros nelec nspin ngem o ref ps ps' w w' C sd h Ch E E' HC HC' Hn He.
  destruct (C45_product _ _ _ _ _ _ w C sd h Ch E HC Hn) as (v & Ev & Pv). exists v. split; auto.
  rewrite (C43_overlap _ _ _ _ _ _ w' C sd h Ch E' HC' Hn He) by auto. f_equal. rewrite <- (Rmul_assoc (rth K)), <- Pv. f_equal.
  destruct (C45_assign _ _ _ _ _ _ w E) as (k & h' & P & Hn' & Hs & Hg & _ & _ & EP & _ & _ & _ & _ & _ & _).
  destruct (new_ap1_wf _ _ _ _ _ _ w E) as (k' & h'' & W & Hn'' & Hs'' & HP). destruct (HP P EP) as (Pm & _ & _).
  assert (h' = h) by lia. subst h'. assert (h'' = h) by lia. subst h''. 
  assert (Ng : gm_ngem w' = h).
  { assert (G1 : exists ng, gem_assign_ngem nelec ngem = Ok ng /\ ng = h).
    { unfold new_ap1 in E. destruct (gem_assign_nelec nelec) as [ne|] eqn:E1; [|discriminate]. cbn [bind] in E.
      assert (ne = nelec). { unfold gem_assign_nelec in E1. destruct (nelec <=? 0)%Z; [discriminate|]. destruct (negb _); [discriminate|]. congruence. } subst ne.
      destruct (assign_nspin nspin) as [ns|]; [|discriminate]. cbn [bind] in E.
      unfold ap1_assign_ngem in E. destruct (gem_assign_ngem nelec ngem) as [ng|]; [|discriminate]. cbn [bind] in E.
      destruct (Z.eqb_spec (Z.of_nat ng) (nelec / 2)) as [En|]; [|discriminate]. exists ng. split; auto. rewrite Hn, Nat2Z.inj_mul, Z.mul_comm, Z.div_mul in En by lia. lia. }
    destruct G1 as (ng & Eg & ->). unfold new_gem in E'. destruct (gem_assign_nelec nelec) as [ne|] eqn:E1; [|discriminate]. cbn [bind] in E'.
    assert (ne = nelec). { unfold gem_assign_nelec in E1. destruct (nelec <=? 0)%Z; [discriminate|]. destruct (negb _); [discriminate|]. congruence. } subst ne.
    destruct (assign_nspin nspin); [|discriminate]. cbn [bind] in E'. rewrite Eg in E'. cbn [bind] in E'. destruct (assign_orbpairs _ _ _); [|discriminate]. cbn [bind] in E'.
    apply params_inv in E' as (_ & _ & _ & X & _). exact X. }
  apply new_gem_inv in E' as (_ & _ & _ & _ & _ & Eo & _). cbn [assign_orbpairs] in Eo. rewrite EP in Eo. injection Eo as <-.
  unfold antisymmetrised. rewrite Ng. pose proof (combinations_full (seq 0 h)) as Cf. rewrite seq_length in Cf. rewrite Cf. rewrite sumf_cons. unfold sumf. cbn [fold_right].
  transitivity (gem_product P (map C (seq 0 h)) sd); [ring|]. now apply product_perm.
Qed.

(** another number of electrons: zero *)
Theorem C45_electrons : forall nelec nspin ngem o ref ps (w : ap1 K) sd n, char_zero K ->
  new_ap1 nelec nspin ngem o ref ps = Ok w -> has_electrons sd n -> Z.of_nat n <> nelec -> ap1_overlap w sd = Ok 0.
Proof.
  intros nelec nspin ngem o ref ps w sd n Ch E He Hn. apply new_ap1_wf in E as (k & h & W & Hn' & _). apply zocc_length in He.
  rewrite (ap1_value Ch w k h W). f_equal. destruct (Nat.eqb_spec (length (exc1 k w sd)) (length (exc2 k w sd))) as [El|]; auto. cbn [andb].
  destruct (paired k sd) eqn:Pd; auto. exfalso. apply (paired_iff w k h W) in Pd. apply closed_count in Pd. apply (exc_lengths w k h W) in El. lia.
Qed.

(** the overlap is affine in every amplitude and the derivative is the slope; indices outside the
    parameters, negative ones included, silently give zero *)
Theorem C45_derivative : forall nelec nspin ngem o ref ps (w : ap1 K) sd v, char_zero K ->
  new_ap1 nelec nspin ngem o ref ps = Ok w -> ap1_overlap w sd = Ok v ->
  exists D, (forall ds, ap1_overlap_deriv w sd ds = Ok (map D ds)) /\
    (forall i t, (i < length (a1_params w))%nat ->
       ap1_overlap (a1_with_entry w i (nth i (a1_params w) 0 + t)) sd = Ok (v + t * D (Z.of_nat i))) /\
    (forall d, ~ (0 <= d < Z.of_nat (length (a1_params w)))%Z -> D d = 0).
Proof.
  intros nelec nspin ngem o ref ps w sd v Ch E Ev. apply new_ap1_wf in E as (k & h & W & _).
  exists (dslope w k sd). split; [intros ds; now apply (deriv_value Ch w k h W)|]. split.
  - intros i t Hi. destruct (slope_affine Ch w k h sd i t W Hi) as (v' & Ev' & E2). rewrite Ev in Ev'. injection Ev' as <-. exact E2.
  - intros d Hd. now apply (dslope_range w k h W).
Qed.
End P.
Print Assumptions C45_assign.
Print Assumptions C45_product.
Print Assumptions C45_ref_one.
Print Assumptions C45_apig.
Print Assumptions C45_electrons.
Print Assumptions C45_derivative.

(** AP1roG and APIG with the same coefficients differ by a sign: here two pairs *)
Theorem C45_sign_refuted : exists (w : ap1 Qc_field) (w' : gem Qc_field) C sd v v',
  ex_ap1 = Ok w /\ ex_ap1_apig = Ok w' /\ ap1_coefficients w C /\ coefficients w' C /\
  ap1_overlap w sd = Ok v /\ gem_overlap w' sd = Ok v' /\ v <> v'.
Proof.
  destruct ex_ap1 as [w|] eqn:E; [|vm_compute in E; discriminate E]. destruct ex_ap1_apig as [w'|] eqn:E'; [|vm_compute in E'; discriminate E'].
  exists w, w', (coef w'), 85%N.
  assert (Hw' : wf_gem w') by (eapply new_gem_wf; exact E').
  assert (HC : coefficients w' (coef w')).
  { intros r i p _ Hi. unfold coef. apply pair_index_spec in Hi; [now rewrite Hi|apply Hw']. }
  destruct (ap1_overlap w 85) as [v|] eqn:V; [|exfalso; assert (X : (do w <- ex_ap1; do v <- ap1_overlap w 85; Ok tt) = Ok tt) by (vm_compute; reflexivity); rewrite E in X; cbn [bind] in X; rewrite V in X; discriminate].
  destruct (gem_overlap w' 85) as [v'|] eqn:V'; [|exfalso; assert (X : (do w <- ex_ap1_apig; do v <- gem_overlap w 85; Ok tt) = Ok tt) by (vm_compute; reflexivity); rewrite E' in X; cbn [bind] in X; rewrite V' in X; discriminate].
  exists v, v'. split; [reflexivity|]. split; [reflexivity|]. split; [|split; [auto|split; [auto|split; [auto|]]]].
  - assert (X : (do w <- ex_ap1; do w' <- ex_ap1_apig; Ok (forallb (fun r => forallb (fun i => match nth_error (a1_refpairs w) i with
         | Some p => (Qnum (this (coef w' r p)) =? if Nat.eqb r i then 1 else 0)%Z && Pos.eqb (Qden (this (coef w' r p))) 1 | None => true end) (seq 0 2)
       && forallb (fun i => match nth_error (gm_pairs (a1_gem w)) i with Some p => (Qnum (this (coef w' r p)) =? Qnum (this (nth (r * 2 + i) (a1_params w) (rO (c := Qc_field)))))%Z
         && Pos.eqb (Qden (this (coef w' r p))) (Qden (this (nth (r * 2 + i) (a1_params w) (rO (c := Qc_field))))) | None => true end) (seq 0 2))%bool (seq 0 2),
       gm_ngem (a1_gem w), length (a1_refpairs w), length (gm_pairs (a1_gem w)))) = Ok (true, 2, 2, 2)) by (vm_compute; reflexivity).
    rewrite E, E' in X. cbn [bind] in X. apply Ok_inj in X. apply pair_equal_spec in X as [X X4]. apply pair_equal_spec in X as [X X3]. apply pair_equal_spec in X as [X1 X2]. rewrite forallb_forall in X1.
    assert (Canon : forall a b : Qc, Qnum (this a) = Qnum (this b) -> Qden (this a) = Qden (this b) -> a = b).
    { intros a b H1 H2. apply Qc_is_canon. unfold Qeq. now rewrite H1, H2. }
    intros r Hr. rewrite X2 in Hr. assert (Ir : In r (seq 0 2)) by (apply in_seq; lia). specialize (X1 r Ir). apply andb_true_iff in X1 as [Y1 Y2]. rewrite forallb_forall in Y1, Y2. split.
    + intros i p Hi. assert (Ii : In i (seq 0 2)) by (apply in_seq; assert (i < length (a1_refpairs w)) by (apply nth_error_Some; congruence); lia).
      specialize (Y1 i Ii). rewrite Hi in Y1. apply andb_true_iff in Y1 as [Z1 Z2]. apply Z.eqb_eq in Z1. apply Pos.eqb_eq in Z2. apply Canon; destruct (Nat.eqb r i); auto.
    + intros i p Hi. assert (Ii : In i (seq 0 2)) by (apply in_seq; assert (i < length (gm_pairs (a1_gem w))) by (apply nth_error_Some; congruence); lia).
      specialize (Y2 i Ii). rewrite Hi in Y2. apply andb_true_iff in Y2 as [Z1 Z2]. apply Z.eqb_eq in Z1. apply Pos.eqb_eq in Z2. rewrite X4. apply Canon; auto.
  - intros Ev. assert (X : (do w <- ex_ap1; do w' <- ex_ap1_apig; do v <- ap1_overlap w 85; do v' <- gem_overlap w' 85; Ok (Qnum (this v) =? Qnum (this v'))%Z) = Ok false) by (vm_compute; reflexivity).
    rewrite E, E' in X. cbn [bind] in X. rewrite V, V' in X. cbn [bind] in X. rewrite Ev, Z.eqb_refl in X. discriminate.
Qed.
Print Assumptions C45_sign_refuted.

Example C45_ex : ex_ap1_value 85 = Ok (1%Z, 1%positive) /\ ex_ap1_value 170 = Ok (29%Z, 1%positive) /\ ex_ap1_value 153 = Ok (2%Z, 1%positive) /\
  ex_ap1_deriv 170 [0; 1; 2; 3; 4; -1]%Z = Ok [7; 5; 3; 2; 0; 0]%Z.
Proof. repeat split; vm_compute; reflexivity. Qed.
