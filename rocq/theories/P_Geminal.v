(** C43, C44: overlaps of geminal wavefunctions and their derivatives *)
From Coq Require Import List ZArith NArith Arith Bool Lia Permutation Sorted Ring_theory QArith Qcanon.
From Verif Require Import P_CI.
From Verif Require Import Py Slater BitSpec BitLemmas SlaterBits SlaterBits2 Combos Fock Alg FockInner SignSpec SignLemmas
  Graphs GraphSpec MatchSpec MatchLemmas GeneralLemmas MathTools SdLemmas PermLemmas HamLemmas P_Permanent
  BicliqueLemmas BicliqueMain WfnCI Geminal GemPairs CreSpec CreLemmas P_Slater2 P_Graphs GemSpec P_GemPairs
  GemMain GemSchemes GemOlp GemWf CILemmas GemFinal GemEx.
Import ListNotations.
Local Open Scope nat_scope.

Lemma zocc_length : forall sd k, has_electrons sd k -> length (zocc sd) = k.
Proof. intros sd k H. unfold zocc. rewrite map_length. now apply electrons_occ. Qed.

Section P.
Context {K : CField}.
Local Open Scope cr_scope.
Add Ring K_ring51 : (rth K).

(** C43: the overlap is the coefficient of the determinant in the antisymmetrised product of geminals,
    summed over the choices of nelec/2 of the geminals, up to the sign convention of the class *)
Theorem C43_overlap : forall c nelec nspin ngem o ps (w : gem K) C sd h, char_zero K ->
  new_gem c nelec nspin ngem o ps = Ok w -> coefficients w C ->
  nelec = Z.of_nat (2 * h) -> has_electrons sd (2 * h) ->
  (c = GAPIG \/ forall i, bit sd i = true -> (Z.of_nat i < nspin)%Z) ->
  gem_overlap w sd = Ok (convention c h * antisymmetrised (gm_pairs w) C (gm_ngem w) h sd).
Proof.
  intros c nelec nspin ngem o ps w C sd h Ch E HC Hn He Hb. apply zocc_length in He.
  pose proof (new_gem_inv _ _ _ _ _ _ _ E) as (_ & _ & _ & (h0 & H0 & E0 & H1) & _).
  eapply overlap_value; eauto. lia.
Qed.

(** APG and the set-interacting geminals accept determinants with another even number of electrons:
    the value is that of a product of fewer or more geminals, not zero *)
Theorem C43_other_number : forall c nelec nspin ngem o ps (w : gem K) C sd h, char_zero K ->
  new_gem c nelec nspin ngem o ps = Ok w -> coefficients w C -> c <> GAPIG ->
  (0 < h <= gm_ngem w)%nat -> has_electrons sd (2 * h) ->
  (forall i, bit sd i = true -> (Z.of_nat i < nspin)%Z) ->
  gem_overlap w sd = Ok (antisymmetrised (gm_pairs w) C (gm_ngem w) h sd).
Proof.
  intros c nelec nspin ngem o ps w C sd h Ch E HC Nc Hh He Hb. apply zocc_length in He.
  rewrite (overlap_value c nelec nspin ngem o ps w C sd h); auto; [|congruence].
  destruct c; cbn [convention]; try congruence; f_equal; ring.
Qed.

(** odd numbers of electrons: zero; APIG rejects every number other than nelec *)
Theorem C43_odd : forall c nelec nspin ngem o ps (w : gem K) sd k,
  new_gem c nelec nspin ngem o ps = Ok w -> has_electrons sd k ->
  (c <> GAPIG -> Nat.odd k = true -> gem_overlap w sd = Ok 0) /\
  (c = GAPIG -> Z.of_nat k <> nelec -> gem_overlap w sd = Err ValueError).
Proof.
  intros c nelec nspin ngem o ps w sd k E He. apply zocc_length in He. split.
  - intros Nc Od. unfold gem_overlap. destruct (gem_schemes w sd) as [L|e] eqn:Es.
    + cbn [bind]. pose proof (scheme_facts _ _ _ _ _ _ _ sd L E Es) as SF. clear Es. revert SF. generalize (0 : K).
      induction L as [|[q s] L IH]; intros v SF; cbn [olp_loop]; auto. destruct q as [|q1 q].
      * apply IH. intros p Hp. apply SF. now right.
      * exfalso. destruct (SF (q1 :: q, s) (or_introl eq_refl)) as (_ & _ & P). cbn [fst] in P.
        assert (X : q1 :: q <> []) by discriminate. apply P, Permutation_length in X. rewrite flat_length, He in X. rewrite <- X, Nat.odd_mul in Od. discriminate Od.
    + exfalso. apply new_gem_inv in E as (Ec & _). unfold gem_schemes, schemes in Es. rewrite Ec in Es. destruct c; [discriminate|congruence|].
      destruct (C20_error (filter (fun i => (i <? gm_nspin w / 2)%Z) (zocc sd)) (filter (fun i => negb (i <? gm_nspin w / 2)%Z) (zocc sd)) (Some (zocc sd)) false) as [Er _].
      destruct Er as (o' & Eo' & Ns); [eauto|]. injection Eo' as <-. apply Ns. apply occZ_sorted.
  - intros -> Ne. apply new_gem_inv in E as (Ec & En & _). unfold gem_overlap, gem_schemes, schemes, apig_schemes. rewrite Ec, En, He.
    destruct (Z.eqb_spec (Z.of_nat k) nelec); [congruence|]. reflexivity.
Qed.

Lemma col_kind : forall (w : gem K) p, exists c, col_ind w p = Ok c \/ col_ind w p = Err ValueError.
Proof.
  intros w p. unfold col_ind. destruct (gm_class w).
  - unfold apg_col_ind. destruct (sort_pair p) as [i j]. destruct (_ && _)%bool; [eexists; left; reflexivity|exists 0%Z; auto].
  - unfold base_col_ind. destruct (pair_index p (gm_pairs w)); [eexists; left; reflexivity|exists 0%Z; auto].
  - unfold set_col_ind. destruct p as [i j]. destruct (_ && _)%bool; [eexists; left; reflexivity|exists 0%Z; auto].
Qed.
Lemma cols_kind : forall (w : gem K) ps, exists l, cols_of w ps = Ok l \/ cols_of w ps = Err ValueError.
Proof.
  intros w ps. unfold cols_of. destruct (mapM _ ps) as [l|e] eqn:E; [eauto|]. exists []. right. apply mapM_kind in E as (p & _ & E).
  destruct (col_kind w p) as (c & [X|X]); rewrite X in E; cbn in E; congruence.
Qed.
(** APG: an occupied orbital outside the basis is rejected *)
Theorem C43_range : forall nelec nspin ngem o ps (w : gem K) sd h i,
  new_gem GAPG nelec nspin ngem o ps = Ok w -> has_electrons sd (2 * h) -> (0 < h)%nat ->
  bit sd i = true -> (nspin <= Z.of_nat i)%Z -> gem_overlap w sd = Err ValueError.
Proof.
  intros nelec nspin ngem o ps w sd h i E He Hh Hi Hn. apply zocc_length in He. pose proof (new_gem_wf _ _ _ _ _ _ _ E) as W.
  assert (Es : gem_schemes w sd = Ok (generate_complete_pmatch (zocc sd) 1)).
  { apply new_gem_inv in E as (Ec & _). unfold gem_schemes, schemes. now rewrite Ec. }
  pose proof (scheme_facts _ _ _ _ _ _ _ sd _ E Es) as SF.
  apply new_gem_inv in E as (Ec & _ & Ens & _ & _ & Eo & _).
  assert (Ep : gm_pairs w = all_pairs (Z.to_nat nspin)) by (destruct o; cbn in Eo; [discriminate|]; injection Eo as <-; auto).
  unfold gem_overlap. rewrite Es. cbn [bind].
  assert (All : forall p, In p (generate_complete_pmatch (zocc sd) 1) -> Permutation (flat (fst p)) (zocc sd)).
  { intros [q s] Hp. apply (C19_sound h) in Hp; auto. apply occZ_NoDup. }
  destruct (generate_complete_pmatch (zocc sd) 1) as [|[q s] L] eqn:EL.
  - exfalso. assert (Cn : length (generate_complete_pmatch (zocc sd) 1) = double_fact h) by (apply C19_once; auto; apply occZ_NoDup). rewrite EL in Cn. cbn [length] in Cn.
    assert (D : forall n, (0 < double_fact n)%nat) by (induction n; cbn [double_fact]; nia). specialize (D h). lia.
  - specialize (All _ (or_introl eq_refl)). destruct (SF _ (or_introl eq_refl)) as (_ & Sq & _). cbn [fst] in All, Sq.
    assert (Iz : In (Z.of_nat i) (zocc sd)) by (apply occZ_In; rewrite Nat2Z.id; split; [lia|auto]).
    destruct q as [|q1 q]; [apply Permutation_length in All; rewrite flat_length, He in All; cbn [length] in All; lia|].
    cbn [olp_loop]. destruct (cols_kind w (q1 :: q)) as (l & [X|X]); rewrite X; [|reflexivity]. exfalso.
    apply (cols_incl w (q1 :: q) l W Sq) in X. apply (Permutation_in _ (Permutation_sym All)) in Iz.
    apply flat_In_inv in Iz as [y [Hy|Hy]]; apply X in Hy; rewrite Ep in Hy; apply all_pairs_In in Hy; cbn [fst snd] in Hy; lia.
Qed.

(** APIG and the set-interacting geminals are APG with the other coefficients zero *)
Lemma geminal_embed : forall pairs big (c1 c2 : Z * Z -> K) psi1 psi2 m, NoDup pairs -> NoDup big -> incl pairs big ->
  (forall p, In p pairs -> c1 p = c2 p) -> (forall p, In p big -> ~ In p pairs -> c1 p = 0) ->
  (forall n, psi1 n = psi2 n) -> geminal big c1 psi1 m = geminal pairs c2 psi2 m.
Proof.
  intros pairs big c1 c2 psi1 psi2 m N1 N2 I H1 H2 H3. unfold geminal.
  rewrite (sumf_support (fun p => c1 p * cre (fst p) (cre (snd p) psi1) m) pairs big N2 N1 I).
  - apply sumf_ext. intros p Hp. rewrite H1 by auto. f_equal. apply cre_ext. intros n. now apply cre_ext.
  - intros p Hp. destruct (in_dec (fun a b : Z * Z => ltac:(decide equality; apply Z.eq_dec)) p pairs); auto. left. rewrite H2 by auto. ring.
Qed.
Theorem C43_embedding : forall c nelec nspin ngem o ps o' ps' (w w' : gem K) C sd h, char_zero K ->
  new_gem c nelec nspin ngem o ps = Ok w -> new_gem GAPG nelec nspin ngem o' ps' = Ok w' ->
  incl (gm_pairs w) (gm_pairs w') -> coefficients w C ->
  coefficients w' (fun r p => if existsb (zpair_eqb p) (gm_pairs w) then C r p else 0) ->
  nelec = Z.of_nat (2 * h) -> has_electrons sd (2 * h) -> (forall i, bit sd i = true -> (Z.of_nat i < nspin)%Z) ->
  exists v, gem_overlap w' sd = Ok v /\ gem_overlap w sd = Ok (convention c h * v).
Proof.
  intros c nelec nspin ngem o ps o' ps' w w' C sd h Ch E E' I HC HC' Hn He Hb.
  rewrite (C43_overlap _ _ _ _ _ _ _ _ _ _ Ch E HC Hn He) by auto. rewrite (C43_overlap _ _ _ _ _ _ _ _ _ _ Ch E' HC' Hn He) by auto.
  assert (Eg : gm_ngem w = gm_ngem w').
  { unfold new_gem in E, E'. destruct (gem_assign_nelec nelec) as [ne|]; [|discriminate]. destruct (assign_nspin nspin); [|discriminate]. cbn [bind] in *.
    destruct (gem_assign_ngem ne ngem) as [ng|]; [|discriminate]. cbn [bind] in *.
    destruct (assign_orbpairs c _ o); [|discriminate]. destruct (assign_orbpairs GAPG _ o'); [|discriminate]. cbn [bind] in *.
    unfold gem_assign_params in E, E'.
    destruct (match ps with PNone => _ | PArray l => _ | PGem _ => _ end); [|discriminate]. cbn [bind] in E.
    destruct (match ps' with PNone => _ | PArray l => _ | PGem _ => _ end); [|discriminate]. cbn [bind] in E'.
    destruct (negb _) in E; [discriminate|]. destruct (negb _) in E'; [discriminate|]. injection E as <-. injection E' as <-. reflexivity. }
  eexists. split; [reflexivity|]. f_equal. f_equal. cbn [convention].
  transitivity (antisymmetrised (gm_pairs w') (fun r p => if existsb (zpair_eqb p) (gm_pairs w) then C r p else 0) (gm_ngem w') h sd); [|ring].
  unfold antisymmetrised. rewrite Eg. apply sumf_ext. intros S _. symmetry.
  apply new_gem_wf in E, E'. pose proof (wf_nodup _ E) as N1. pose proof (wf_nodup _ E') as N2.
  assert (M : forall p, existsb (zpair_eqb p) (gm_pairs w) = true <-> In p (gm_pairs w)).
  { intros p. rewrite existsb_exists. split.
    - intros ([a b] & Hq & Eq). destruct p as [x y]. unfold zpair_eqb in Eq. cbn in Eq. apply andb_true_iff in Eq as [A B]. apply Z.eqb_eq in A, B. now subst.
    - intros Hp. exists p. split; auto. unfold zpair_eqb. now rewrite !Z.eqb_refl. }
  clear Eg. revert sd He Hb. assert (X : forall m, gem_product (gm_pairs w') (map (fun r p => if existsb (zpair_eqb p) (gm_pairs w) then C r p else 0) S) m =
    gem_product (gm_pairs w) (map C S) m); [|intros; apply X].
  induction S as [|r S IH]; intros m; [reflexivity|]. cbn [map gem_product fold_right]. apply geminal_embed; auto.
  - intros p Hp. apply M in Hp. now rewrite Hp.
  - intros p _ Np. destruct (existsb _ _) eqn:B; auto. apply M in B. contradiction.
Qed.

(** C44: the overlap is affine in every coefficient and the derivative is its slope.  The numbers of
    geminals and of electron pairs have to be both one or both more than one *)
Theorem C44_derivative : forall c nelec nspin ngem o ps (w : gem K) sd v, char_zero K ->
  new_gem c nelec nspin ngem o ps = Ok w -> gem_overlap w sd = Ok v ->
  (gm_ngem w = 1%nat <-> has_electrons sd 2) ->
  exists D, length D = length (gm_params w) /\
    (forall k t, (k < length (gm_params w))%nat ->
       gem_overlap (with_entry w k (nth k (gm_params w) 0 + t)) sd = Ok (v + t * nth k D 0)) /\
    (forall ds ks, Forall2 (selects (length (gm_params w))) ds ks ->
       gem_overlap_deriv w sd ds = Ok (map (fun k => nth k D 0) ks)) /\
    (forall ds d, In d ds -> ~ (- Z.of_nat (length (gm_params w)) <= d < Z.of_nat (length (gm_params w)))%Z ->
       gem_overlap_deriv w sd ds = Err IndexError).
Proof.
  intros c nelec nspin ngem o ps w sd v Ch E EV Mo.
  destruct (overlap_deriv c nelec nspin ngem o ps w sd v Ch E EV) as (L & D & EL & ED & LD & HD).
  { rewrite Mo. unfold zocc. rewrite map_length. apply electrons_occ. }
  exists D. split; auto. split; auto. unfold gem_overlap_deriv. rewrite EL. cbn [bind]. rewrite ED. cbn [bind]. split.
  - intros ds ks F. induction F as [|d k ds ks H F IH]; cbn [mapM map]; auto. apply np_index_ok in H. rewrite H. cbn [bind]. rewrite IH. reflexivity.
  - intros ds d Hd Nd. set (f := fun d => _). destruct (mapM f ds) as [l|e] eqn:Em.
    + destruct (mapM_all f ds l Em d Hd) as [y Ey]. unfold f in Ey. destruct (np_index (length (gm_params w)) d) eqn:En; [|discriminate].
      apply np_index_ok in En as (A & [B|B]); lia.
    + apply mapM_kind in Em as (x & _ & Ex). unfold f, np_index in Ex. destruct (_ && _)%bool; cbn in Ex; congruence.
Qed.

(** one electron pair and more than one geminal: the overlap exists and its derivatives are refused *)
Theorem C44_single_refuted : forall c nspin ngem o ps (w : gem K) sd v ds, char_zero K ->
  new_gem c 2 nspin ngem o ps = Ok w -> (2 <= gm_ngem w)%nat -> has_electrons sd 2 ->
  gem_overlap w sd = Ok v -> v <> 0 -> gem_overlap_deriv w sd ds = Err ValueError.
Proof.
  intros c nspin ngem o ps w sd v ds Ch E Hg He EV Nz. apply zocc_length in He. pose proof (new_gem_wf _ _ _ _ _ _ _ E) as W.
  unfold gem_overlap in EV. unfold gem_overlap_deriv. destruct (gem_schemes w sd) as [L|] eqn:Es; [|discriminate]. cbn [bind] in *.
  pose proof (scheme_facts _ _ _ _ _ _ _ sd L E Es) as SF. clear E Es.
  assert (GL : good_list w L). { eapply (olp_loop_good w L 0 v); eauto. intros p Hp. split; apply (SF p Hp). }
  assert (X : forall out, (exists out', olp_deriv_loop w L out = Ok out' /\ forall p, In p L -> fst p = []) \/ olp_deriv_loop w L out = Err ValueError).
  { clear EV. induction L as [|[q s] L IH]; intros out; cbn [olp_deriv_loop].
    - left. exists out. split; auto. intros p [].
    - assert (IH' : forall out, (exists out', olp_deriv_loop w L out = Ok out' /\ forall p, In p L -> fst p = []) \/ olp_deriv_loop w L out = Err ValueError).
      { apply IH; intros p Hp; [apply SF|apply GL]; now right. }
      destruct q as [|q1 q].
      + destruct (IH' out) as [(o' & E1 & E2)|E1]; [left|right; auto]. exists o'. split; auto. intros p [<-|Hp]; auto.
      + right. destruct (SF _ (or_introl eq_refl)) as (_ & Sq & P). cbn [fst] in P, Sq. assert (Y : q1 :: q <> []) by discriminate.
        apply P, Permutation_length in Y. rewrite flat_length, He in Y. destruct q; cbn in Y; [|lia].
        destruct (GL _ (or_introl eq_refl)) as (_ & _ & I). cbn [fst] in I. rewrite cols_value by auto. cbn [bind map].
        assert (Ix : (idx w q1 < norbpair w)%nat) by (apply idx_lt; auto; apply I; now left).
        destruct (gm_ngem w) as [|[|g]] eqn:Eg; [lia|lia|]. cbn [seq list_prod map app deriv_inner]. rewrite Eg.
        enough (Z0 : compute_permanent (gm_params w) (S (S g)) (norbpair w) [idx w q1] (seq 0 (S (S g))) (Some (Z.of_nat (0 * norbpair w + idx w q1))) = Err ValueError) by (rewrite Z0; reflexivity).
        unfold compute_permanent. rewrite checks_ok by (intros c' [<-|[]]; auto). cbn [negb].
        assert (D1 : (Z.of_nat (0 * norbpair w + idx w q1) / Z.of_nat (norbpair w))%Z = Z.of_nat 0) by (rewrite Z.div_small by lia; reflexivity).
        assert (D2 : (Z.of_nat (0 * norbpair w + idx w q1) mod Z.of_nat (norbpair w))%Z = Z.of_nat (idx w q1)) by (rewrite Z.mod_small by lia; reflexivity).
        rewrite (filter_Z _ _ _ D1), (filter_Z _ _ _ D2).
        assert (L1 : S (length (without 0%nat (seq 0 (S (S g))))) = S (S g)).
        { rewrite without_length; [apply seq_length|apply in_seq; lia|apply seq_NoDup]. }
        assert (L2 : without (idx w q1) [idx w q1] = []) by (unfold without; cbn; now rewrite Nat.eqb_refl).
        rewrite L2, seq_length. cbn [length]. destruct (Nat.eqb_spec (length (without 0%nat (seq 0 (S (S g))))) (S (S g))); [lia|]. cbn [orb Nat.eqb].
        destruct (Nat.eqb_spec (length (without 0%nat (seq 0 (S (S g))))) 0); [lia|]. cbn [andb]. unfold sub_permanent. cbn [length].
        destruct (length (without 0%nat (seq 0 (S (S g))))); [lia|]. destruct (_ && _)%bool; reflexivity. }
  destruct (X (zeros (length (gm_params w)))) as [(o' & _ & E2)| ->]; [|reflexivity]. exfalso. apply Nz.
  rewrite olp_loop_value in EV by auto. injection EV as <-. rewrite sumf_zero; [ring|]. intros p Hp. unfold term. now rewrite E2.
Qed.
End P.
Print Assumptions C43_overlap.
Print Assumptions C43_other_number.
Print Assumptions C43_odd.
Print Assumptions C43_range.
Print Assumptions C43_embedding.
Print Assumptions C44_derivative.
Print Assumptions C44_single_refuted.

Lemma Qc_char_zero : char_zero Qc_field.
Proof. intros n Hn E. apply Qc_nat_pos in Hn. rewrite E in Hn. apply (Qclt_not_eq _ _ Hn). reflexivity. Qed.

(** a determinant with two electrons instead of four has a nonzero overlap *)
Theorem C43_electrons_refuted : exists c nelec nspin ngem o ps (w : gem Qc_field) sd v,
  new_gem c nelec nspin ngem o ps = Ok w /\ ~ has_electrons sd (Z.to_nat nelec) /\ gem_overlap w sd = Ok v /\ v <> rO.
Proof.
  destruct ex_apg as [w|] eqn:E; [|vm_compute in E; discriminate E].
  exists GAPG, 4%Z, 6%Z, (Some 3%Z), None, (PArray (map (fun i => qz (Z.of_nat (i * i mod 11) - 3)) (seq 0 45))), w, 3%N, (qz 5).
  split; [exact E|]. split; [intros H; apply electrons_occ in H; vm_compute in H; discriminate H|].
  assert (X : ex_value ex_apg 3 = Ok (5%Z, 1%positive)) by (vm_compute; reflexivity).
  unfold ex_value in X. rewrite E in X. cbn [bind] in X. split.
  - destruct (gem_overlap w 3) as [v|] eqn:V; [|discriminate]. f_equal. cbn in X. injection X as X1 X2. apply Qc_is_canon. unfold Qeq. rewrite X1, X2. reflexivity.
  - intros Z0. apply (f_equal (fun x : Qc_field => Qnum (this x))) in Z0. vm_compute in Z0. discriminate Z0.
Qed.
Print Assumptions C43_electrons_refuted.

(** non-trivial values of both sides *)
Example C43_ex : ex_value ex_apg 30 = Ok ((-24)%Z, 1%positive) /\ ex_product ex_apg 2 30 = Ok ((-24)%Z, 1%positive) /\
  ex_value ex_apig 45 = Ok (4%Z, 1%positive) /\ ex_value ex_set 54 = Ok (50%Z, 1%positive) /\
  ex_value ex_apig1 5 = Ok ((-5)%Z, 1%positive) /\ ex_product ex_apig1 1 5 = Ok (5%Z, 1%positive) /\ has_electrons 30 4.
Proof. repeat split; try (vm_compute; reflexivity). apply electrons_occ. reflexivity. Qed.
Example C44_ex : (do w <- ex_apg; do l <- gem_overlap_deriv w 30 [5; -40; 2]%Z; Ok (map (fun x : Qc_field => Qnum (this x)) l)) = Ok [1; 1; 0]%Z /\
  (do w <- ex_pair; do l <- gem_overlap_deriv w 3 [0]%Z; Ok tt) = Err ValueError.
Proof. split; vm_compute; reflexivity. Qed.
