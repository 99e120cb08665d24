(** AP1roG overlaps *)
From Coq Require Import List ZArith NArith Arith Bool Lia Permutation Sorted Ring_theory.
From Verif Require Import Py Slater BitSpec BitLemmas SlaterBits SlaterBits2 Combos Fock Alg FockInner SignSpec SignLemmas
  Graphs GraphSpec MatchSpec MatchLemmas GeneralLemmas MathTools SdLemmas PermLemmas HamLemmas P_Permanent
  BicliqueLemmas BicliqueMain WfnCI Geminal GemPairs CreSpec CreLemmas P_Slater1 P_Slater2 P_Graphs GemSpec P_GemPairs
  GemMain GemSchemes GemOlp GemWf CILemmas GemFinal AP1roG Ap1Spec Ap1Lemmas.
Import ListNotations.
Local Open Scope nat_scope.

Lemma ref_facts : forall nelec k o ref, 0 < k -> ap1_assign_ref_sd nelec (Z.of_nat (2 * k)) o = Ok ref ->
  closed_shell k ref /\ nelec = Z.of_nat (2 * length (alphas k ref)).
Proof.
  intros nelec k o ref Hk E. unfold ap1_assign_ref_sd in E. destruct (match o with None => _ | Some s => _ end) as [s|]; [|discriminate]. cbn [bind] in E.
  replace (Z.of_nat (2 * k) / 2)%Z with (Z.of_nat k) in E by (rewrite Nat2Z.inj_mul, Z.mul_comm, Z.div_mul; lia).
  destruct (Z.eqb_spec (Z.of_nat (total_occ (Some s))) nelec) as [En|]; [|discriminate]. cbn [negb] in E.
  destruct (C09_spin_seniority s (Z.of_nat k)) as (na & nb & v & sp & E1 & E2 & _ & _ & _ & _ & _ & _ & _ & _ & _ & Cl); [lia|].
  rewrite E1 in E. cbn [bind] in E. destruct (negb (sp =? 0)%Z); [discriminate|]. rewrite E2 in E. cbn [bind] in E.
  destruct (Nat.eqb_spec v 0) as [Ev|]; [|discriminate]. cbn [negb] in E. injection E as <-. rewrite Nat2Z.id in Cl.
  assert (C : closed_shell k s) by (exact (proj1 Cl Ev)). split; auto. rewrite <- En. f_equal.
  rewrite <- (closed_count k s C). unfold zocc. rewrite map_length. apply total_occ_length.
Qed.
Lemma pairs_diag : forall k ps, 0 < k -> NoDup (pair_orbs ps) -> Z.of_nat (length (pair_orbs ps)) = Z.of_nat (2 * k) ->
  (forall p, In p ps -> is_diag k p) -> Permutation ps (map (key k) (seq 0 k)).
Proof.
  intros k ps Hk N L D. rewrite pair_orbs_flat in *. rewrite flat_length in L. apply NoDup_Permutation_bis.
  - eapply flat_perm_NoDup; [exact N|reflexivity].
  - rewrite map_length, seq_length. lia.
  - intros p Hp. destruct (D p Hp) as (i & Hi & ->). apply in_map_iff. exists i. split; auto. apply in_seq. lia.
Qed.
Lemma filter_perm' : forall {A} (f : A -> bool) l l', Permutation l l' -> Permutation (filter f l) (filter f l').
Proof.
  intros A f l l' P. induction P; cbn [filter]; auto.
  - destruct (f x); auto.
  - destruct (f x), (f y); auto. constructor.
  - etransitivity; eauto.
Qed.
Lemma filter_map' : forall {A B} (f : B -> bool) (g : A -> B) l, filter f (map g l) = map g (filter (fun a => f (g a)) l).
Proof. induction l as [|a l IH]; [reflexivity|]. cbn [map filter]. destruct (f (g a)); cbn [map]; now rewrite IH. Qed.

Section Main.
Context {K : CField}.
Local Open Scope cr_scope.
Add Ring K_ring52 : (rth K).

Lemma params_inv : forall (g g' : gem K) ps, gem_assign_params g ps = Ok g' ->
  gm_class g' = gm_class g /\ gm_nelec g' = gm_nelec g /\ gm_nspin g' = gm_nspin g /\ gm_ngem g' = gm_ngem g /\ gm_pairs g' = gm_pairs g /\
  length (gm_params g') = (gm_ngem g * norbpair g)%nat.
Proof.
  intros g g' ps E. unfold gem_assign_params in E. destruct (match ps with PNone => _ | PArray l => _ | PGem _ => _ end) as [l|]; [|discriminate]. cbn [bind] in E.
  destruct (Nat.eqb_spec (length l) (gm_ngem g * norbpair g)) as [L|]; [|discriminate]. cbn [negb] in E. injection E as <-. cbn. repeat split; auto.
Qed.
Lemma new_ap1_wf : forall nelec nspin ngem o ref ps (w : ap1 K), new_ap1 nelec nspin ngem o ref ps = Ok w ->
  exists k h, wf_ap1 w k h /\ nelec = Z.of_nat (2 * h) /\ nspin = Z.of_nat (2 * k) /\
    (forall P, apig_assign_orbpairs nspin o = Ok P -> Permutation P (a1_refpairs w ++ gm_pairs (a1_gem w)) /\
       a1_refpairs w = filter (in_ref (a1_ref w)) P /\ gm_pairs (a1_gem w) = filter (fun p => negb (in_ref (a1_ref w) p)) P).
Proof.
  intros nelec nspin ngem o ref ps w E. unfold new_ap1 in E.
  destruct (gem_assign_nelec nelec) as [ne|] eqn:E1; [|discriminate]. cbn [bind] in E.
  destruct (assign_nspin nspin) as [ns|] eqn:E2; [|discriminate]. cbn [bind] in E.
  destruct (ap1_assign_ngem ne ngem) as [ng|] eqn:E3; [|discriminate]. cbn [bind] in E.
  destruct (ap1_assign_ref_sd ne ns ref) as [rf|] eqn:E4; [|discriminate]. cbn [bind] in E.
  destruct (ap1_assign_orbpairs ns rf o) as [[rp vp]|] eqn:E5; [|discriminate]. cbn [bind fst snd] in E.
  destruct (ap1_assign_params _ ps) as [g|] eqn:E6; [|discriminate]. cbn [bind] in E. injection E as <-.
  apply assign_nspin_inv in E2 as (-> & P2 & k & Ek). assert (Ek' : nspin = Z.of_nat (2 * k)) by lia. clear Ek. subst nspin.
  unfold gem_assign_nelec in E1. destruct (Z.leb_spec nelec 0); [discriminate|]. destruct (Z.eqb_spec (nelec mod 2) 0) as [Ev|]; [|discriminate]. injection E1 as <-.
  unfold ap1_assign_ngem in E3. destruct (gem_assign_ngem nelec ngem) as [n|]; [|discriminate]. cbn [bind] in E3.
  destruct (Z.eqb_spec (Z.of_nat n) (nelec / 2)) as [En|]; [|discriminate]. cbn [negb] in E3. injection E3 as <-.
  pose proof (Z.div_mod nelec 2 ltac:(lia)) as Dm.
  assert (Eh : nelec = Z.of_nat (2 * n)) by lia. subst nelec.
  apply ref_facts in E4 as (C & L); [|lia]. assert (L' : length (alphas k rf) = n) by lia.
  unfold ap1_assign_params in E6. apply params_inv in E6 as (G1 & G2 & G3 & G4 & G5 & G6). cbn [gm_class gm_nelec gm_nspin gm_ngem gm_pairs norbpair] in *.
  unfold ap1_assign_orbpairs in E5. destruct (apig_assign_orbpairs (Z.of_nat (2 * k)) o) as [P|] eqn:EP; [|discriminate]. cbn [bind] in E5.
  destruct (forallb _ P) eqn:D; [|discriminate]. cbn [negb] in E5. injection E5 as <- <-.
  replace (Z.of_nat (2 * k) / 2)%Z with (Z.of_nat k) in D by (rewrite Nat2Z.inj_mul, Z.mul_comm, Z.div_mul; lia).
  rewrite forallb_forall in D.
  assert (D' : forall p, In p P -> is_diag k p) by (intros p Hp; apply diag_pair_iff; [lia|auto]).
  apply C42_apig in EP as (Srt & Nd & Ln & _).
  assert (PP : Permutation P (map (key k) (seq 0 k))) by (apply pairs_diag; auto; lia).
  exists k, n. split; [|split; [reflexivity|split; [reflexivity|]]].
  - constructor; cbn [a1_gem a1_ref a1_refpairs]; auto; try lia.
    + unfold a1_nspatial. cbn [a1_gem]. rewrite G3, Nat2Z.inj_mul, Z.mul_comm, Z.div_mul; lia.
    + apply (filter_perm' (in_ref rf)) in PP. rewrite PP, filter_map'. unfold alphas. apply Permutation_map. erewrite filter_ext_in; [reflexivity|].
      intros i Hi. apply in_seq in Hi. apply in_ref_key; auto; lia.
    + rewrite G5. apply (filter_perm' (fun p => negb (in_ref rf p))) in PP. rewrite PP, filter_map'. apply Permutation_map. erewrite filter_ext_in; [reflexivity|].
      intros i Hi. apply in_seq in Hi. cbn beta. rewrite in_ref_key; auto; lia.
    + unfold a1_params. cbn [a1_gem]. rewrite G6. unfold norbpair. now rewrite G5.
  - cbn [a1_gem a1_ref a1_refpairs]. rewrite G5. intros P' EP'. injection EP' as <-. split; [|split; auto]. apply (GemSchemes.filter_perm (in_ref rf)).
Qed.

(** *** expansion along the columns of the reference *)
Lemma permR_rows_perm : forall {A B} (m : A -> B -> K) rs rs' cs, NoDup rs -> Permutation rs rs' -> length rs = length cs ->
  permR (map m rs) cs = permR (map m rs') cs.
Proof.
  intros A B m rs rs' cs N P L. rewrite (permR_transpose m rs cs L), (permR_transpose m rs' cs) by (rewrite <- L; symmetry; now apply Permutation_length).
  now apply permR_cols_perm.
Qed.
Lemma ident_block : forall {B} (f : B -> nat) (m : nat -> B -> K) kept rows cols,
  (forall r p, In p kept -> m r p = if Nat.eqb r (f p) then 1 else 0) -> NoDup (map f kept ++ rows) -> length rows = length cols ->
  permR (map m (map f kept ++ rows)) (kept ++ cols) = permR (map m rows) cols.
Proof.
  intros B f m kept rows cols. induction kept as [|p kept IH]; intros H N L; [reflexivity|]. cbn [map app] in *.
  inversion N as [|? ? N1 N2]; subst.
  rewrite <- IH; auto. 2:{ intros r q Hq. apply H. now right. }
  change (m (f p) :: map m (map f kept ++ rows)) with (map m (f p :: map f kept ++ rows)).
  rewrite permR_transpose by (cbn [length]; rewrite !app_length, map_length, L; reflexivity).
  rewrite (permR_transpose m (map f kept ++ rows)) by (rewrite !app_length, map_length, L; reflexivity).
  cbn [map permR picks]. rewrite sumf_cons. cbn [fst snd].
  rewrite (H (f p) p) by now left. rewrite Nat.eqb_refl. rewrite sumf_map.
  rewrite (sumf_zero (K := K)); [ring|]. intros q Hq. cbn [fst snd]. rewrite H by now left.
  destruct (Nat.eqb_spec (fst q) (f p)) as [E|E]; [|ring]. exfalso. apply N1. rewrite <- E. rewrite <- (picks_fst (map f kept ++ rows)). now apply in_map.
Qed.

Variable char0 : char_zero K.
Lemma mapM_lookup : forall k l is, NoDup l -> (forall i, In i is -> In (key k i) l) ->
  mapM (lookup (Z.of_nat k) l) is = Ok (map (fun i => posn l (key k i)) is).
Proof.
  intros k l is N H. apply mapM_ok_of. intros i Hi. apply H in Hi. unfold lookup, posn.
  replace (pair_key (Z.of_nat k) i) with (key k i) by (unfold pair_key, key; f_equal; lia).
  apply In_nth_error in Hi as [j Hj]. apply pair_index_spec in Hj; auto. now rewrite Hj.
Qed.
Definition exc1 (k : nat) (w : ap1 K) (sd : N) : list nat := filter (fun i => negb (bit sd i)) (alphas k (a1_ref w)).
Definition exc2 (k : nat) (w : ap1 K) (sd : N) : list nat := filter (fun i => negb (bit (a1_ref w) i)) (alphas k sd).
Definition rows_of (k : nat) (w : ap1 K) sd := map (fun i => posn (a1_refpairs w) (key k i)) (exc1 k w sd).
Definition cols1_of (k : nat) (w : ap1 K) sd := map (fun i => posn (gm_pairs (a1_gem w)) (key k i)) (exc2 k w sd).
Section Value.
Variables (w : ap1 K) (k h : nat).
Hypothesis W : wf_ap1 w k h.
Lemma ref_NoDup : NoDup (a1_refpairs w).
Proof. eapply Permutation_NoDup; [symmetry; apply W|]. apply FinFun.Injective_map_NoDup; [intros x y; apply key_inj|apply alphas_NoDup]. Qed.
Lemma vir_NoDup : NoDup (gm_pairs (a1_gem w)).
Proof. eapply Permutation_NoDup; [symmetry; apply W|]. apply FinFun.Injective_map_NoDup; [intros x y; apply key_inj|apply NoDup_filter, seq_NoDup]. Qed.
Lemma ref_In : forall i, In (key k i) (a1_refpairs w) <-> (i < k)%nat /\ bit (a1_ref w) i = true.
Proof.
  intros i. rewrite <- alphas_In. split; intros H.
  - apply (Permutation_in _ (w1_ref _ _ _ W)), in_map_iff in H as (j & E & Hj). apply key_inj in E. now subst.
  - apply (Permutation_in _ (Permutation_sym (w1_ref _ _ _ W))). now apply in_map.
Qed.
Lemma vir_In : forall i, In (key k i) (gm_pairs (a1_gem w)) <-> (i < k)%nat /\ bit (a1_ref w) i = false.
Proof.
  intros i. split; intros H.
  - apply (Permutation_in _ (w1_vir _ _ _ W)), in_map_iff in H as (j & E & Hj). apply key_inj in E. subst. apply filter_In in Hj as [H1 H2]. apply in_seq in H1. apply negb_true_iff in H2. split; [lia|auto].
  - apply (Permutation_in _ (Permutation_sym (w1_vir _ _ _ W))). apply in_map, filter_In. rewrite in_seq. destruct H as [H ->]. split; [lia|auto].
Qed.
Lemma excitation_value : forall sd, exists ac, excitation w sd = Ok ac /\ fst ac = exc1 k w sd /\ snd ac = exc2 k w sd.
Proof.
  intros sd. unfold excitation. rewrite (w1_nspin _ _ _ W). pose proof (w1_k _ _ _ W) as Hk.
  destruct (split_spin_ok (a1_ref w) (Z.of_nat k)) as (a & b & E & Ha & _); [lia|]. destruct (split_spin_ok sd (Z.of_nat k)) as (a' & b' & E' & Ha' & _); [lia|].
  rewrite E, E'. cbn [bind fst]. eexists. split; [reflexivity|]. rewrite Nat2Z.id in *. split.
  - apply increasing_ext; [apply occ_indices_increasing|apply increasing_filter, alphas_increasing|]. intros i. rewrite diff_orbs_In1, Ha, Ha'. unfold exc1. rewrite filter_In, alphas_In, negb_true_iff.
    destruct (Nat.ltb_spec i k); cbn [andb]; intuition (try lia; try congruence).
  - apply increasing_ext; [apply occ_indices_increasing|apply increasing_filter, alphas_increasing|]. intros i. rewrite diff_orbs_In2, Ha, Ha'. unfold exc2. rewrite filter_In, alphas_In, negb_true_iff.
    destruct (Nat.ltb_spec i k); cbn [andb]; intuition (try lia; try congruence).
Qed.
Definition paired sd : bool := match get_seniority sd (Z.of_nat k) with Ok v => Nat.eqb v 0 | Err _ => false end.
Lemma paired_iff : forall sd, paired sd = true <-> closed_shell k sd.
Proof.
  intros sd. unfold paired. pose proof (w1_k _ _ _ W) as Hk. destruct (C09_spin_seniority sd (Z.of_nat k)) as (na & nb & v & sp & E1 & E2 & _ & _ & _ & _ & _ & _ & _ & _ & _ & Cl); [lia|].
  rewrite E2, Nat.eqb_eq. rewrite Nat2Z.id in Cl. exact Cl.
Qed.
Lemma inds_value : forall sd, ap1_inds w sd = Ok (if (Nat.eqb (length (exc1 k w sd)) (length (exc2 k w sd)) && paired sd)%bool then Some (rows_of k w sd, cols1_of k w sd) else None).
Proof.
  intros sd. unfold ap1_inds. destruct (excitation_value sd) as ([an cr] & E & E1 & E2). cbn [fst snd] in *. subst an cr. rewrite E. cbn [bind fst snd].
  destruct (Nat.eqb (length (exc1 k w sd)) (length (exc2 k w sd))) eqn:El; cbn [negb andb]; auto.
  rewrite (w1_nspin _ _ _ W). unfold paired. pose proof (w1_k _ _ _ W) as Hk. destruct (C09_spin_seniority sd (Z.of_nat k)) as (na & nb & v & sp & _ & E2 & _); [lia|].
  rewrite E2. cbn [bind]. destruct (Nat.eqb v 0); cbn [negb]; auto.
  rewrite mapM_lookup. 3:{ intros i Hi. apply filter_In in Hi as [Hi _]. apply alphas_In in Hi. now apply ref_In. } 2:{ apply ref_NoDup. } cbn [bind].
  rewrite mapM_lookup. 3:{ intros i Hi. apply filter_In in Hi as [Hi B]. apply alphas_In in Hi. apply vir_In. apply negb_true_iff in B. intuition. } 2:{ apply vir_NoDup. }
  reflexivity.
Qed.
Lemma key_map : forall (f : Z * Z -> nat) l, map (fun i => f (key k i)) l = map f (map (key k) l).
Proof. intros. now rewrite map_map. Qed.
Lemma exc1_keys : incl (map (key k) (exc1 k w 0)) (a1_refpairs w) /\ forall sd, incl (map (key k) (exc1 k w sd)) (a1_refpairs w).
Proof.
  assert (X : forall sd, incl (map (key k) (exc1 k w sd)) (a1_refpairs w)); [|split; auto].
  intros sd p Hp. apply in_map_iff in Hp as (i & <- & Hi). apply filter_In in Hi as [Hi _]. apply alphas_In in Hi. now apply ref_In.
Qed.
Lemma exc2_keys : forall sd, incl (map (key k) (exc2 k w sd)) (gm_pairs (a1_gem w)).
Proof. intros sd p Hp. apply in_map_iff in Hp as (i & <- & Hi). apply filter_In in Hi as [Hi B]. apply alphas_In in Hi. apply vir_In. apply negb_true_iff in B. intuition. Qed.
Lemma exc_NoDup : forall sd, NoDup (map (key k) (exc1 k w sd)) /\ NoDup (map (key k) (exc2 k w sd)).
Proof. intros sd. split; (apply FinFun.Injective_map_NoDup; [intros x y; apply key_inj|apply NoDup_filter, alphas_NoDup]). Qed.
Lemma rows_NoDup : forall sd, NoDup (rows_of k w sd).
Proof. intros sd. unfold rows_of. rewrite key_map. apply posn_NoDup; [apply ref_NoDup|apply exc_NoDup|apply exc1_keys]. Qed.
Lemma cols_NoDup : forall sd, NoDup (cols1_of k w sd).
Proof. intros sd. unfold cols1_of. rewrite key_map. apply posn_NoDup; [apply vir_NoDup|apply exc_NoDup|apply exc2_keys]. Qed.
Lemma refpairs_length : length (a1_refpairs w) = h.
Proof. rewrite (Permutation_length (w1_ref _ _ _ W)), map_length. apply W. Qed.
Lemma rows_lt : forall sd r, In r (rows_of k w sd) -> (r < h)%nat.
Proof.
  intros sd r Hr. unfold rows_of in Hr. apply in_map_iff in Hr as (i & <- & Hi). rewrite <- refpairs_length. apply posn_lt; [apply ref_NoDup|].
  apply (proj2 exc1_keys sd). now apply in_map.
Qed.
Lemma cols_lt : forall sd c, In c (cols1_of k w sd) -> (c < norbpair (a1_gem w))%nat.
Proof.
  intros sd c Hc. unfold cols1_of in Hc. apply in_map_iff in Hc as (i & <- & Hi). apply posn_lt; [apply vir_NoDup|]. apply (exc2_keys sd). now apply in_map.
Qed.
Definition E_of := entry (a1_params w) (norbpair (a1_gem w)).
(** value of the overlap: the permanent of the rows and columns of the excitation *)
Lemma ap1_value : forall sd, ap1_overlap w sd = Ok (if (Nat.eqb (length (exc1 k w sd)) (length (exc2 k w sd)) && paired sd)%bool then permR (map E_of (rows_of k w sd)) (cols1_of k w sd) else 0).
Proof.
  intros sd. unfold ap1_overlap. rewrite inds_value. cbn [bind]. destruct (Nat.eqb_spec (length (exc1 k w sd)) (length (exc2 k w sd))) as [El|]; cbn [andb]; auto.
  destruct (paired sd); auto.
  assert (L1 : length (rows_of k w sd) = length (exc1 k w sd)) by (unfold rows_of; now rewrite map_length).
  assert (L2 : length (cols1_of k w sd) = length (exc2 k w sd)) by (unfold cols1_of; now rewrite map_length).
  destruct (Nat.eqb_spec (length (rows_of k w sd)) 0) as [Z1|Z1].
  - assert (Z2 : length (cols1_of k w sd) = 0%nat) by congruence. rewrite Z2. cbn [Nat.eqb andb].
    destruct (rows_of k w sd); [|discriminate]. reflexivity.
  - cbn [andb]. unfold ap1_permanent, compute_permanent.
    rewrite (proj2 (forallb_forall _ (rows_of k w sd))), (proj2 (forallb_forall _ (cols1_of k w sd))).
    + cbn [andb negb]. rewrite (sub_perm_value char0).
      * f_equal. unfold pm. rewrite L1, L2, El, Nat.ltb_irrefl. reflexivity.
      * intros Z0. rewrite Z0 in Z1. now apply Z1.
      * intros Z0. rewrite Z0 in L2. cbn in L2. congruence.
    + intros c Hc. apply Nat.ltb_lt. eapply cols_lt; eauto.
    + intros r Hr. apply Nat.ltb_lt. rewrite (w1_ngem _ _ _ W). eapply rows_lt; eauto.
Qed.
(** ... which is the permanent of the matrix with the identity in the reference columns *)
Lemma ap1_full : forall C sd, ap1_coefficients w C -> length (exc1 k w sd) = length (exc2 k w sd) ->
  permR (map C (seq 0 h)) (map (key k) (alphas k sd)) = permR (map E_of (rows_of k w sd)) (cols1_of k w sd).
Proof.
  intros C sd HC El. set (kept := filter (bit sd) (alphas k (a1_ref w))).
  assert (Kn : NoDup kept) by (apply NoDup_filter, alphas_NoDup).
  assert (P1 : Permutation (alphas k (a1_ref w)) (kept ++ exc1 k w sd)) by apply GemSchemes.filter_perm.
  assert (P2 : Permutation (alphas k sd) (kept ++ exc2 k w sd)).
  { transitivity (filter (bit (a1_ref w)) (alphas k sd) ++ exc2 k w sd); [apply GemSchemes.filter_perm|]. apply Permutation_app_tail. apply NoDup_Permutation; [apply NoDup_filter, alphas_NoDup|auto|].
    intros i. unfold kept. rewrite !filter_In, !alphas_In. tauto. }
  set (f := fun i => posn (a1_refpairs w) (key k i)).
  assert (In_ref : forall i, In i (alphas k (a1_ref w)) -> In (key k i) (a1_refpairs w)) by (intros i Hi; apply ref_In; now apply alphas_In).
  assert (Pr : Permutation (seq 0 h) (map f kept ++ rows_of k w sd)).
  { unfold rows_of. rewrite <- (map_app f kept). symmetry. transitivity (map f (alphas k (a1_ref w))); [apply Permutation_map; now symmetry|].
    apply NoDup_Permutation_bis.
    - unfold f. rewrite (key_map (posn (a1_refpairs w))). apply posn_NoDup; [apply ref_NoDup| |].
      + apply FinFun.Injective_map_NoDup; [intros x y; apply key_inj|apply alphas_NoDup].
      + intros p Hp. apply in_map_iff in Hp as (i & <- & Hi). auto.
    - rewrite seq_length, map_length, (w1_count _ _ _ W). auto.
    - intros r Hr. apply in_map_iff in Hr as (i & <- & Hi). apply in_seq. rewrite <- refpairs_length. split; [lia|]. apply posn_lt; [apply ref_NoDup|auto]. }
  assert (Nr : NoDup (map f kept ++ rows_of k w sd)) by (eapply Permutation_NoDup; [exact Pr|apply seq_NoDup]).
  assert (Lr : length (rows_of k w sd) = length (map (key k) (exc2 k w sd))) by (unfold rows_of; rewrite !map_length; auto).
  assert (Len : h = length (map (key k) (alphas k sd))).
  { rewrite map_length, (Permutation_length P2), app_length, <- El, <- app_length, <- (Permutation_length P1). symmetry. apply W. }
  rewrite (permR_rows_perm C (seq 0 h) _ _ (seq_NoDup _ _) Pr) by (rewrite seq_length; auto).
  rewrite (permR_cols_perm _ (map (key k) (kept ++ exc2 k w sd))).
  3:{ now apply Permutation_map. } 2:{ apply FinFun.Injective_map_NoDup; [intros x y; apply key_inj|apply alphas_NoDup]. }
  rewrite (map_app (key k)).
  set (C' := fun r p => if Nat.ltb r h then C r p else if Nat.eqb r (posn (a1_refpairs w) p) then 1 else 0).
  assert (Bd : forall r, In r (map f kept ++ rows_of k w sd) -> (r < h)%nat).
  { intros r Hr. apply (Permutation_in _ (Permutation_sym Pr)), in_seq in Hr. lia. }
  rewrite (map_ext_in C C').
  2:{ intros r Hr. unfold C'. rewrite (proj2 (Nat.ltb_lt _ _) (Bd r Hr)). reflexivity. }
  assert (X : map f kept = map (posn (a1_refpairs w)) (map (key k) kept)) by (rewrite map_map; reflexivity).
  rewrite X in *. rewrite (ident_block (posn (a1_refpairs w))); auto.
  - unfold cols1_of. rewrite key_map, (permR_map (posn (gm_pairs (a1_gem w)))), (map_map E_of). apply permR_ext.
    assert (Br : forall r, In r (rows_of k w sd) -> (r < h)%nat) by (intros r Hr; apply Bd, in_or_app; now right).
    clear - Br HC W. induction (rows_of k w sd) as [|r l IH]; cbn [map]; constructor; [|apply IH; intros; apply Br; now right].
    intros p Hp. specialize (Br r (or_introl eq_refl)). unfold C'. rewrite (proj2 (Nat.ltb_lt _ _) Br).
    rewrite <- (w1_ngem _ _ _ W) in Br. destruct (HC r Br) as [_ V]. apply (exc2_keys sd) in Hp. rewrite (V _ p (posn_error _ _ vir_NoDup Hp)). reflexivity.
  - intros r p Hp. unfold C'. destruct (Nat.ltb_spec r h) as [L|L]; auto. rewrite <- (w1_ngem _ _ _ W) in L. destruct (HC r L) as [R _].
    apply in_map_iff in Hp as (i & <- & Hi). apply R. apply posn_error; [apply ref_NoDup|]. apply In_ref. now apply filter_In in Hi.
Qed.
Lemma pairs_all : forall p, In p (a1_refpairs w ++ gm_pairs (a1_gem w)) <-> is_diag k p.
Proof.
  intros p. rewrite in_app_iff. split.
  - intros [H|H].
    + apply (Permutation_in _ (w1_ref _ _ _ W)), in_map_iff in H as (i & <- & Hi). apply alphas_In in Hi. exists i. split; [apply Hi|reflexivity].
    + apply (Permutation_in _ (w1_vir _ _ _ W)), in_map_iff in H as (i & <- & Hi). apply filter_In in Hi as [Hi _]. apply in_seq in Hi. exists i. split; [lia|reflexivity].
  - intros (i & Hi & ->). change (Z.of_nat i, Z.of_nat (i + k)) with (key k i). destruct (bit (a1_ref w) i) eqn:B; [left; apply ref_In|right; apply vir_In]; auto.
Qed.
Lemma all_NoDup : NoDup (a1_refpairs w ++ gm_pairs (a1_gem w)).
Proof.
  apply NoDup_app_iff. split; [apply ref_NoDup|]. split; [apply vir_NoDup|]. intros p H1 H2.
  assert (D : is_diag k p) by (apply pairs_all, in_app_iff; now left). destruct D as (i & Hi & ->). change (Z.of_nat i, Z.of_nat (i + k)) with (key k i) in *.
  apply ref_In in H1. apply vir_In in H2. destruct H1, H2. congruence.
Qed.
Lemma exc_lengths : forall sd, (length (alphas k sd) = h <-> length (exc1 k w sd) = length (exc2 k w sd)).
Proof.
  intros sd. set (kept := filter (bit sd) (alphas k (a1_ref w))).
  assert (P1 : Permutation (alphas k (a1_ref w)) (kept ++ exc1 k w sd)) by apply GemSchemes.filter_perm.
  assert (P2 : Permutation (alphas k sd) (kept ++ exc2 k w sd)).
  { transitivity (filter (bit (a1_ref w)) (alphas k sd) ++ exc2 k w sd); [apply GemSchemes.filter_perm|]. apply Permutation_app_tail. apply NoDup_Permutation; [apply NoDup_filter, alphas_NoDup|apply NoDup_filter, alphas_NoDup|].
    intros i. unfold kept. rewrite !filter_In, !alphas_In. tauto. }
  rewrite (Permutation_length P2), <- (w1_count _ _ _ W), (Permutation_length P1), !app_length. lia.
Qed.
(** the coefficient of the determinant in the product of the geminals *)
Lemma ap1_product : forall C sd, ap1_coefficients w C ->
  exists v, ap1_overlap w sd = Ok v /\ gem_product (a1_refpairs w ++ gm_pairs (a1_gem w)) (map C (seq 0 h)) sd = interleave_sign h * v.
Proof.
  intros C sd HC. rewrite ap1_value. eexists. split; [reflexivity|].
  destruct (Nat.eq_dec (length (zocc sd)) (2 * h)) as [Len|Len].
  - destruct (paired sd) eqn:Pd.
    + assert (Cl : closed_shell k sd) by now apply paired_iff. pose proof (closed_count k sd Cl) as Cn.
      assert (La : length (alphas k sd) = h) by lia. assert (El : length (exc1 k w sd) = length (exc2 k w sd)) by now apply exc_lengths.
      rewrite El, Nat.eqb_refl. cbn [andb].
      rewrite (product_good _ 1 [(map (key k) (alphas k sd), pow_m1 (h * (h - 1) / 2))]).
      * rewrite sumf_cons. unfold sumf at 1. cbn [fst snd fold_right]. rewrite (ap1_full C sd HC El). rewrite Z.mul_1_l. unfold interleave_sign, pow_m1. destruct (Nat.odd (h * (h - 1) / 2)); unfold sgnr; cbn; ring.
      * apply all_NoDup.
      * rewrite map_length, seq_length. auto.
      * split; [|split].
        -- intros p [<-|[]]. cbn [fst snd]. split.
           ++ intros p Hp. apply in_map_iff in Hp as (i & <- & Hi). apply pairs_all. apply alphas_In in Hi. exists i. split; [apply Hi|reflexivity].
           ++ exists (h * (h - 1) / 2)%nat. split; [now apply closed_swaps|lia].
        -- intros qs I P. eexists. split; [now left|]. cbn [fst]. apply diag_perm; auto. intros p Hp. apply pairs_all. auto.
        -- repeat constructor.
    + rewrite andb_false_r. rewrite gem_zero; [ring|apply all_NoDup|rewrite map_length, seq_length; auto|].
      intros qs I P. assert (Cl : closed_shell k sd) by (apply (diag_closed k sd qs); auto; intros p Hp; apply pairs_all; auto).
      apply paired_iff in Cl. congruence.
  - rewrite product_words, (sumf_zero (K := K)).
    + destruct (Nat.eqb_spec (length (exc1 k w sd)) (length (exc2 k w sd))) as [El|El]; cbn [andb]; [|ring].
      destruct (paired sd) eqn:Pd; [|ring]. exfalso. apply Len. apply paired_iff in Pd. rewrite (closed_count k sd Pd). f_equal. now apply exc_lengths.
    + intros qs Hq. rewrite cres_zero; [ring|]. intros P. apply Len. apply Permutation_length in P. rewrite <- P, flat_length. f_equal.
      apply words_In in Hq as [Hq _]. rewrite Hq, map_length, seq_length. reflexivity.
Qed.
(** *** derivatives *)
Definition slope (sd : N) (r c : nat) : K :=
  if (Nat.eqb (length (exc1 k w sd)) (length (exc2 k w sd)) && paired sd)%bool then
    if in_dec Nat.eq_dec r (rows_of k w sd) then
      if in_dec Nat.eq_dec c (cols1_of k w sd) then permR (map E_of (without r (rows_of k w sd))) (without c (cols1_of k w sd)) else 0 else 0 else 0.
Definition dslope (sd : N) (d : Z) : K :=
  if (0 <=? d)%Z then slope sd (Z.to_nat (d / Z.of_nat (norbpair (a1_gem w)))) (Z.to_nat (d mod Z.of_nat (norbpair (a1_gem w)))) else 0.
Lemma without_same : forall x l, NoDup l -> (length (without x l) = length l <-> ~ In x l).
Proof.
  intros x l N. split.
  - intros E I. pose proof (without_length x l I N). lia.
  - intros H. now rewrite without_notin.
Qed.
Lemma filter_neg : forall l z, (z < 0)%Z -> filter (fun x => negb (Z.of_nat x =? z)%Z) l = l.
Proof. intros l z H. apply filter_all. intros x _. apply negb_true_iff, Z.eqb_neq. lia. Qed.
Lemma deriv_value : forall sd ds, ap1_overlap_deriv w sd ds = Ok (map (dslope sd) ds).
Proof.
  intros sd ds. unfold ap1_overlap_deriv. rewrite inds_value. cbn [bind]. unfold dslope, slope.
  assert (Zr : zeros (K := K) (length ds) = map (fun _ => 0) ds) by (clear; unfold zeros; induction ds; cbn; f_equal; auto).
  destruct (Nat.eqb_spec (length (exc1 k w sd)) (length (exc2 k w sd))) as [El|]; cbn [andb].
  2:{ rewrite Zr. f_equal. apply map_ext. intros d. destruct (0 <=? d)%Z; auto. }
  destruct (paired sd). 2:{ rewrite Zr. f_equal. apply map_ext. intros d. destruct (0 <=? d)%Z; auto. }
  assert (L1 : length (rows_of k w sd) = length (exc1 k w sd)) by (unfold rows_of; now rewrite map_length).
  assert (L2 : length (cols1_of k w sd) = length (exc2 k w sd)) by (unfold cols1_of; now rewrite map_length).
  pose proof (rows_NoDup sd) as N1. pose proof (cols_NoDup sd) as N2. pose proof (rows_lt sd) as B1. pose proof (cols_lt sd) as B2.
  destruct (Nat.eqb_spec (length (rows_of k w sd)) 0) as [Z1|Z1].
  - assert (Z2 : length (cols1_of k w sd) = 0%nat) by congruence. rewrite Z2. cbn [Nat.eqb andb]. rewrite Zr. f_equal. apply map_ext. intros d.
    destruct (rows_of k w sd); [|discriminate]. destruct (0 <=? d)%Z; auto.
  - cbn [andb]. apply mapM_ok_of. intros d _. unfold ap1_permanent, compute_permanent.
    rewrite (proj2 (forallb_forall _ (rows_of k w sd))) by (intros r Hr; apply Nat.ltb_lt; rewrite (w1_ngem _ _ _ W); auto).
    rewrite (proj2 (forallb_forall _ (cols1_of k w sd))) by (intros r Hr; apply Nat.ltb_lt; auto). cbn [andb negb].
    set (nv := norbpair (a1_gem w)) in *. assert (Nv : (0 < nv)%nat).
    { destruct (cols1_of k w sd) as [|c0 cs] eqn:Ec; [cbn in L2; lia|]. specialize (B2 c0 (or_introl eq_refl)). lia. }
    pose proof (Z.mod_pos_bound d (Z.of_nat nv) ltac:(lia)) as Mb. pose proof (Z.div_mod d (Z.of_nat nv) ltac:(lia)) as Dm.
    destruct (Z.leb_spec 0 d) as [Pd|Pd].
    + assert (Q : (0 <= d / Z.of_nat nv)%Z) by (apply Z.div_pos; lia).
      rewrite (filter_Z (rows_of k w sd) _ (Z.to_nat (d / Z.of_nat nv))) by lia. rewrite (filter_Z (cols1_of k w sd) _ (Z.to_nat (d mod Z.of_nat nv))) by lia.
      set (r := Z.to_nat (d / Z.of_nat nv)). set (c := Z.to_nat (d mod Z.of_nat nv)).
      destruct (in_dec Nat.eq_dec r (rows_of k w sd)) as [Ir|Ir].
      2:{ rewrite (proj2 (Nat.eqb_eq _ _) (proj2 (without_same r _ N1) Ir)). reflexivity. }
      destruct (in_dec Nat.eq_dec c (cols1_of k w sd)) as [Ic|Ic].
      2:{ rewrite (proj2 (Nat.eqb_eq (length (without c _)) _) (proj2 (without_same c _ N2) Ic)), orb_true_r. reflexivity. }
      pose proof (without_length r _ Ir N1) as W1. pose proof (without_length c _ Ic N2) as W2.
      rewrite (proj2 (Nat.eqb_neq (length (without r (rows_of k w sd))) _)) by lia. rewrite (proj2 (Nat.eqb_neq (length (without c (cols1_of k w sd))) _)) by lia. cbn [orb].
      destruct (Nat.eqb_spec (length (without r (rows_of k w sd))) 0) as [Y|Y].
      * rewrite (proj2 (Nat.eqb_eq (length (without c (cols1_of k w sd))) 0)) by lia. cbn [andb].
        destruct (without r (rows_of k w sd)); [|discriminate]. reflexivity.
      * cbn [andb]. rewrite (sub_perm_value char0).
        -- f_equal. unfold pm. replace (length (without c (cols1_of k w sd))) with (length (without r (rows_of k w sd))) by lia. rewrite Nat.ltb_irrefl. reflexivity.
        -- intros Y0. rewrite Y0 in Y. now apply Y.
        -- intros Y0. rewrite Y0 in W2. cbn in W2. lia.
    + rewrite (filter_neg (rows_of k w sd)) by nia. rewrite Nat.eqb_refl. reflexivity.
Qed.
Lemma dslope_range : forall sd d, ~ (0 <= d < Z.of_nat (length (a1_params w)))%Z -> dslope sd d = 0.
Proof.
  intros sd d H. unfold dslope. destruct (Z.leb_spec 0 d) as [P|P]; auto. unfold slope. destruct (_ && _)%bool; auto.
  destruct (in_dec _ _ _) as [I|]; auto. destruct (in_dec _ _ _) as [J|]; auto. exfalso. apply rows_lt in I. apply cols_lt in J.
  rewrite (w1_len _ _ _ W) in H. apply H. set (nv := norbpair (a1_gem w)) in *.
  assert (Nv : (0 < nv)%nat) by lia. pose proof (Z.div_mod d (Z.of_nat nv) ltac:(lia)) as Dm. pose proof (Z.mod_pos_bound d (Z.of_nat nv) ltac:(lia)).
  assert (Q : (0 <= d / Z.of_nat nv)%Z) by (apply Z.div_pos; lia). nia.
Qed.
End Value.
Lemma wf_entry : forall w k h i v, wf_ap1 (K := K) w k h -> wf_ap1 (a1_with_entry w i v) k h.
Proof.
  intros w k h i v W. destruct W. constructor; auto. unfold a1_params, a1_with_entry, with_entry. cbn [a1_gem gm_params norbpair gm_pairs]. rewrite upd_length'. auto.
Qed.
Lemma slope_affine : forall w k h sd i t, wf_ap1 (K := K) w k h -> (i < length (a1_params w))%nat ->
  exists v, ap1_overlap w sd = Ok v /\ ap1_overlap (a1_with_entry w i (nth i (a1_params w) 0 + t)) sd = Ok (v + t * dslope w k sd (Z.of_nat i)).
Proof.
  intros w k h sd i t W Hi. rewrite (ap1_value w k h W). eexists. split; [reflexivity|].
  set (w' := a1_with_entry w i (nth i (a1_params w) 0 + t)). assert (W' : wf_ap1 w' k h) by now apply wf_entry.
  rewrite (ap1_value w' k h W'). change (exc1 k w' sd) with (exc1 k w sd). change (exc2 k w' sd) with (exc2 k w sd).
  change (rows_of k w' sd) with (rows_of k w sd). change (cols1_of k w' sd) with (cols1_of k w sd). f_equal.
  unfold dslope. rewrite (proj2 (Z.leb_le _ _)) by lia. unfold slope. destruct (_ && _)%bool; [|ring].
  set (nv := norbpair (a1_gem w)). rewrite (w1_len _ _ _ W) in Hi. fold nv in Hi.
  assert (Nv : (0 < nv)%nat) by (destruct nv; [rewrite Nat.mul_0_r in Hi; lia|lia]).
  rewrite <- Nat2Z.inj_div, <- Nat2Z.inj_mod, !Nat2Z.id. set (r := (i / nv)%nat). set (c := (i mod nv)%nat).
  assert (Ei : i = (r * nv + c)%nat) by (apply div_mod_nat; auto). assert (Hc : (c < nv)%nat) by (apply Nat.mod_upper_bound; lia).
  transitivity (permR (map (bump (E_of w) r c t) (rows_of k w sd)) (cols1_of k w sd)).
  - apply permR_ext. rewrite <- Forall2_map_iff'. intros a Ha b Hb. apply (cols_lt w k h W) in Hb. fold nv in Hb. unfold E_of, entry, bump.
    change (norbpair (a1_gem w')) with nv. change (a1_params w') with (upd (a1_params w) i (nth i (a1_params w) 0 + t)). fold nv.
    rewrite nth_upd by (rewrite (w1_len _ _ _ W); auto). destruct (Nat.eqb_spec i (a * nv + b)) as [E|E].
    + assert (a = r) by nia. assert (b = c) by nia. subst a b. rewrite !Nat.eqb_refl. cbn [andb]. now rewrite <- Ei.
    + destruct (Nat.eqb_spec a r), (Nat.eqb_spec b c); cbn [andb]; try reflexivity. subst a b. congruence.
  - rewrite permR_bump; [ring|apply (rows_NoDup w k h W)|apply (cols_NoDup w k h W)].
Qed.
End Main.
