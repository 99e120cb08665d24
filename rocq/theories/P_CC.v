(** Properties C46 and C47: the excitation operators of coupled-cluster wavefunctions, their overlaps
    and derivatives. *)
From Coq Require Import List ZArith NArith Arith Bool Lia Permutation Sorted QArith Qcanon.
From Verif Require Import Py BitSpec BitLemmas Slater SlaterBits SlaterBits2 BicliqueLemmas GeneralLemmas P_Slater1 P_Slater2 PermSpec FockLemmas Alg WfnCI CILemmas GemSpec P_Geminal P_CI
  SignLemmas CC CCEx CCRows CCGen CCSpec CCExp CCLemmas CCMain CCDeriv.
Import ListNotations.

(** ** C46 *)
Section C46.
Context {K : CRing}.
Local Open Scope cr_scope.
Variables (c : ccclass) (nelec nspin : Z) (ra : ranksarg) (indices : option (list (list Z))) (refwfn : refarg) (ps : ccparams K)
  (given : bool) (refresh : Z) (w : cc K).
Hypothesis New : new_cc c nelec nspin ra indices refwfn ps given refresh = Ok w.

(** get_ind and get_exop are inverse to each other between the operators and 0 .. nparams-1 *)
Theorem C46_bijection :
  (forall e i, get_ind (cc_exops w) e = Ok i <-> get_exop (cc_exops w) (Z.of_nat i) = Ok e) /\
  (forall e, (exists i, get_ind (cc_exops w) e = Ok i) <-> In e (map fst (cc_exops w))) /\
  (forall e x, get_ind (cc_exops w) e = Err x -> x = ValueError) /\
  (forall i, (exists e, get_exop (cc_exops w) i = Ok e) <-> (0 <= i < Z.of_nat (length (cc_params w)))%Z) /\
  (forall i x, get_exop (cc_exops w) i = Err x -> x = ValueError) /\
  NoDup (map fst (cc_exops w)) /\ map snd (cc_exops w) = seq 0%nat (length (cc_params w)).
Proof.
  destruct (new_cc_built _ _ _ _ _ _ _ _ _ _ New) as (g & B). destruct (built_exops _ _ _ _ _ _ _ _ _ _ B) as (_ & N & E).
  pose proof (built_length _ _ _ _ _ _ _ _ _ _ B) as L. unfold keys_of in *.
  assert (S : map snd (cc_exops w) = seq 0%nat (length (cc_params w))).
  { rewrite E, L. apply combine_snd'. now rewrite seq_length. }
  assert (Ns : NoDup (map snd (cc_exops w))) by (rewrite S; apply seq_NoDup).
  assert (GI : forall e i, get_ind (cc_exops w) e = Ok i <-> In (e, i) (cc_exops w)).
  { intros e i. rewrite <- dict_get_In by exact N. unfold get_ind. destruct (dict_get (cc_exops w) e) as [j|]; split; intros X; try discriminate.
    - apply Ok_inj in X. now subst.
    - injection X as ->. reflexivity. }
  assert (GE : forall e i, get_exop (cc_exops w) (Z.of_nat i) = Ok e <-> In (e, i) (cc_exops w)).
  { intros e i. rewrite get_exop_In by exact Ns. split; [intros (j & Hj & X); apply Nat2Z.inj in X; now subst|]. intros X. now exists i. }
  split; [intros; now rewrite GI, GE|]. split; [|split; [|split; [|split; [|split; [exact N|exact S]]]]].
  - intros e. split.
    + intros [i X]. apply GI in X. now apply (in_map fst) in X.
    + intros X. apply in_map_iff in X as ([e' i] & <- & X). exists i. now apply GI.
  - intros e x. unfold get_ind. destruct (dict_get (cc_exops w) e); [discriminate|]. intros X. now injection X.
  - intros i. split.
    + intros [e X]. apply get_exop_In in X as (j & Hj & <-); [|exact Ns]. apply (in_map snd) in Hj. rewrite S in Hj. apply in_seq in Hj. cbn [snd] in Hj. lia.
    + intros X. assert (Y : In (Z.to_nat i) (map snd (cc_exops w))) by (rewrite S; apply in_seq; lia).
      apply in_map_iff in Y as ([e j] & Ej & Y). cbn [snd] in Ej. subst j. exists e. apply get_exop_In; [exact Ns|]. exists (Z.to_nat i). split; [exact Y|lia].
  - apply get_exop_kind.
Qed.
(** the ranks in use *)
Theorem C46_ranks : forall r, In r (cc_ranks w) <->
  match c with
  | CCSingles => r = 1%Z
  | _ => match ra with RanksNone => (1 <= r <= nelec)%Z | RanksInt n => (1 <= r <= n)%Z | RanksList l => In r l end
  end.
Proof.
  intros r. destruct (new_cc_built _ _ _ _ _ _ _ _ _ _ New) as (g & B). destruct (assign_ranks_ok _ _ _ (b_ranks _ _ _ _ _ _ _ _ _ _ B)) as (_ & _ & _ & H).
  rewrite H. destruct c; try reflexivity. cbn. intuition congruence.
Qed.
(** StandardCC and CCS: from the occupied to the virtual orbitals of the ground determinant, also if
    another reference is given *)
Theorem C46_standard : c = CCStandard \/ c = CCSingles -> exists g, ground nelec nspin = Ok g /\
  forall e, In e (map fst (cc_exops w)) <-> exists ann cre, exop_shape (cc_ranks w) e ann cre /\
    (forall z, In z ann -> (0 <= z)%Z /\ bit g (Z.to_nat z) = true) /\
    (forall z, In z cre -> (0 <= z < nspin)%Z /\ bit g (Z.to_nat z) = false).
Proof.
  intros Hc. destruct (new_cc_built _ _ _ _ _ _ _ _ _ _ New) as (g & B). exists g. split; [now apply (b_ground _ _ _ _ _ _ _ _ _ _ B)|].
  intros e. change (map fst (cc_exops w)) with (keys_of w). rewrite (built_key _ _ _ _ _ _ _ _ _ _ B).
  assert (E : key_source c nspin g indices = (zoccs g, fun _ => filter (fun i => negb (memz i (zoccs g))) (orbitals nspin))) by (destruct Hc as [-> | ->]; reflexivity).
  rewrite E. cbn [fst snd].
  assert (V : forall z, In z (filter (fun i => negb (memz i (zoccs g))) (orbitals nspin)) <-> (0 <= z < nspin)%Z /\ bit g (Z.to_nat z) = false).
  { intros z. rewrite filter_In, orbitals_In, negb_true_iff. split; intros [H1 H2]; split; auto.
    - destruct (bit g (Z.to_nat z)) eqn:X; auto. assert (Y : memz z (zoccs g) = true) by (apply memz_In, zoccs_In; split; [lia|auto]). congruence.
    - apply not_true_iff_false. intros X. apply memz_In, zoccs_In in X. destruct X. congruence. }
  split; intros (ann & cre & S & I1 & I2); exists ann, cre; (split; [auto|split]); intros z Hz.
  - now apply zoccs_In, I1.
  - now apply V, I2.
  - now apply zoccs_In, I1.
  - now apply V, I2.
Qed.
(** GeneralizedCC and BaseCC without index lists: any orbitals, the two halves disjoint *)
Theorem C46_generalized : c = CCGeneralized \/ (c = CCBase /\ indices = None) ->
  forall e, In e (map fst (cc_exops w)) <-> exists ann cre, exop_shape (cc_ranks w) e ann cre /\
    (forall z, In z ann \/ In z cre -> (0 <= z < nspin)%Z) /\ (forall z, In z ann -> ~ In z cre).
Proof.
  intros Hc e. destruct (new_cc_built _ _ _ _ _ _ _ _ _ _ New) as (g & B).
  change (map fst (cc_exops w)) with (keys_of w). rewrite (built_key _ _ _ _ _ _ _ _ _ _ B).
  assert (Hi : indices = None).
  { destruct (b_keys _ _ _ _ _ _ _ _ _ _ B) as (keys & X & _). apply exop_keys_eq in X as (_ & X & _). destruct Hc as [->|[_ ->]]; [|reflexivity]. apply X. discriminate. }
  assert (E : key_source c nspin g indices = (orbitals nspin, fun ann => filter (fun i => negb (memz i ann)) (orbitals nspin))) by (rewrite Hi; destruct Hc as [->|[-> _]]; reflexivity).
  rewrite E. cbn [fst snd]. split.
  - intros (ann & cre & S & I1 & I2). exists ann, cre. split; [auto|]. split.
    + intros z [Hz|Hz]; [now apply orbitals_In, I1|]. apply I2, filter_In in Hz as [Hz _]. now apply orbitals_In in Hz.
    + intros z Hz Hz'. apply I2, filter_In in Hz' as [_ X]. rewrite (proj2 (memz_In _ _) Hz) in X. discriminate.
  - intros (ann & cre & S & I1 & I2). exists ann, cre. split; [auto|]. split.
    + intros z Hz. apply orbitals_In, I1. auto.
    + intros z Hz. apply filter_In. split; [apply orbitals_In, I1; auto|]. apply negb_true_iff, not_true_iff_false. intros X. apply memz_In in X. now apply (I2 z).
Qed.
(** BaseCC with index lists *)
Theorem C46_indices : forall i0 i1, indices = Some [i0; i1] -> c = CCBase /\
  forall e, In e (map fst (cc_exops w)) <-> exists ann cre, exop_shape (cc_ranks w) e ann cre /\ incl ann i0 /\ incl cre i1.
Proof.
  intros i0 i1 Hi. destruct (new_cc_built _ _ _ _ _ _ _ _ _ _ New) as (g & B).
  assert (Hc : c = CCBase).
  { destruct (b_keys _ _ _ _ _ _ _ _ _ _ B) as (keys & X & _). apply exop_keys_eq in X as (_ & X & _). destruct c; auto; rewrite X in Hi by discriminate; discriminate. }
  split; [exact Hc|]. intros e. change (map fst (cc_exops w)) with (keys_of w). rewrite (built_key _ _ _ _ _ _ _ _ _ _ B). rewrite Hi, Hc. cbn [key_source fst snd].
  assert (Q : forall l m, incl l (sorted_set m) <-> incl l m) by (intros l m; split; intros H z Hz; apply sorted_set_In; auto; apply (proj1 (sorted_set_In _ _)); rewrite ?sorted_set_In; auto).
  split; intros (ann & cre & S & I1 & I2); exists ann, cre; (split; [auto|split]); intros z Hz.
  - apply (proj1 (sorted_set_In _ _)). auto.
  - apply (proj1 (sorted_set_In _ _)). auto.
  - apply (proj2 (sorted_set_In _ _)). auto.
  - apply (proj2 (sorted_set_In _ _)). auto.
Qed.
(** parameters taken from another wavefunction: each operator keeps its amplitude, operators that the
    other one lacks get zero, operators that only the other one has are dropped *)
Theorem C46_copy : forall c' ra' indices' refwfn' ps' given' refresh' nelec' nspin' (other : cc K),
  new_cc c' nelec' nspin' ra' indices' refwfn' ps' given' refresh' = Ok other ->
  (nelec' <> nelec \/ nspin' <> nspin -> cc_assign_params w (CPWfn other) = Err ValueError) /\
  (nelec' = nelec -> nspin' = nspin -> exists w', cc_assign_params w (CPWfn other) = Ok w' /\
     length (cc_params w') = length (cc_params w) /\
     forall e i, get_ind (cc_exops w) e = Ok i -> nth i (cc_params w') 0 =
       match get_ind (cc_exops other) e with Ok j => nth j (cc_params other) 0 | Err _ => 0 end).
Proof.
  intros c' ra' indices' refwfn' ps' given' refresh' nelec' nspin' other New'.
  pose proof C46_bijection as (G1 & G2 & _ & _ & _ & N & S).
  destruct (new_cc_built _ _ _ _ _ _ _ _ _ _ New) as (g & B). destruct (new_cc_built _ _ _ _ _ _ _ _ _ _ New') as (g' & B').
  destruct (built_exops _ _ _ _ _ _ _ _ _ _ B) as (_ & _ & E). destruct (built_exops _ _ _ _ _ _ _ _ _ _ B') as (_ & N' & E').
  pose proof (built_length _ _ _ _ _ _ _ _ _ _ B) as L. pose proof (built_length _ _ _ _ _ _ _ _ _ _ B') as L'.
  unfold cc_assign_params. rewrite (b_ne _ _ _ _ _ _ _ _ _ _ B), (b_ns _ _ _ _ _ _ _ _ _ _ B), (b_ne _ _ _ _ _ _ _ _ _ _ B'), (b_ns _ _ _ _ _ _ _ _ _ _ B').
  split.
  - intros [X|X].
    + destruct (Z.eqb_spec nelec nelec'); [congruence|]. reflexivity.
    + destruct (Z.eqb_spec nelec nelec'); [|reflexivity]. destruct (Z.eqb_spec nspin nspin'); [congruence|]. reflexivity.
  - intros -> ->. rewrite !Z.eqb_refl. cbn [negb].
    assert (Bd : forall e i, get_ind (cc_exops w) e = Ok i -> (i < length (cc_params w))%nat).
    { intros e i X. unfold get_ind in X. destruct (dict_get (cc_exops w) e) as [j|] eqn:Ej; [|discriminate]. apply Ok_inj in X. subst j.
      apply dict_get_In in Ej; [|exact N]. apply (in_map snd) in Ej. rewrite S in Ej. apply in_seq in Ej. cbn [snd] in Ej. lia. }
    assert (Inj : forall e e' i, get_ind (cc_exops w) e = Ok i -> get_ind (cc_exops w) e' = Ok i -> e = e').
    { intros e e' i X X'. apply G1 in X, X'. congruence. }
    assert (Cp : forall items params, length params = length (cc_params w) -> (forall e j, In (e, j) items -> (j < length (cc_params other))%nat) -> NoDup (map fst items) ->
       exists out, copy_exops (cc_exops w) items (cc_params other) params = Ok out /\ length out = length params /\
         forall e i, get_ind (cc_exops w) e = Ok i -> nth i out 0 = match dict_get items e with Some j => nth j (cc_params other) 0 | None => nth i params 0 end).
    { induction items as [|[e j] items IH]; intros params Lp Hj Nd; [exists params; repeat split|]. cbn [map fst] in Nd. inversion Nd; subst.
      assert (Hj' : forall e' j', In (e', j') items -> (j' < length (cc_params other))%nat) by (intros; eapply Hj; right; eauto).
      assert (Dn : dict_get items e = None).
      { destruct (dict_get items e) as [j'|] eqn:X; auto. apply dict_get_In in X; auto. exfalso. apply H1. now apply (in_map fst) in X. }
      cbn [copy_exops]. destruct (get_ind (cc_exops w) e) as [i0|x] eqn:Ei.
      - destruct (nth_error (cc_params other) j) as [v|] eqn:Ev; [|apply nth_error_None in Ev; specialize (Hj e j (or_introl eq_refl)); lia].
        assert (Li : (i0 < length params)%nat) by (rewrite Lp; eauto). rewrite (proj2 (Nat.ltb_lt _ _) Li).
        destruct (IH (upd params i0 v)) as (out & Eo & Lo & Ho); auto; [now rewrite upd_length|].
        exists out. split; [exact Eo|]. split; [now rewrite Lo, upd_length|]. intros e' i Hi. rewrite (Ho e' i Hi). cbn [dict_get]. unfold key_eqb.
        destruct (list_eq_dec Z.eq_dec e' e) as [->|Ne].
        + rewrite Dn. rewrite Ei in Hi. apply Ok_inj in Hi. subst i. rewrite nth_upd_eq by auto. symmetry. now apply nth_error_nth.
        + destruct (dict_get items e'); [reflexivity|]. apply nth_upd_neq. intros ->. apply Ne. now apply (Inj e' e i).
      - destruct (IH params) as (out & Eo & Lo & Ho); auto. exists out. split; [exact Eo|]. split; [exact Lo|]. intros e' i Hi. rewrite (Ho e' i Hi). cbn [dict_get]. unfold key_eqb.
        destruct (list_eq_dec Z.eq_dec e' e) as [->|Ne]; [congruence|reflexivity]. }
    destruct (Cp (cc_exops other) (repeat 0 (length (cc_exops w)))) as (out & Eo & Lo & Ho).
    + rewrite repeat_length. rewrite L. unfold keys_of. now rewrite map_length.
    + intros e j Hj. rewrite E' in Hj. apply combine_seq_In in Hj as [_ Hj]. rewrite L'. apply nth_error_Some. rewrite Nat.sub_0_r in Hj. congruence.
    + exact N'.
    + rewrite Eo. cbn [bind]. eexists. split; [reflexivity|]. cbn [with_params cc_params]. split.
      * rewrite Lo, repeat_length, L. unfold keys_of. now rewrite map_length.
      * intros e i Hi. rewrite (Ho e i Hi). unfold get_ind. destruct (dict_get (cc_exops other) e); [reflexivity|].
        apply nth_repeat.
Qed.
End C46.
Print Assumptions C46_bijection.
Print Assumptions C46_standard.
Print Assumptions C46_generalized.
Print Assumptions C46_indices.
Print Assumptions C46_copy.
Example C46_ex : exists w, ex_cc CCStandard RefNone RanksNone 14 = Ok w /\
  get_ind (cc_exops w) [0; 3; 1; 4]%Z = Ok 9%nat /\ get_exop (cc_exops w) 9 = Ok [0; 3; 1; 4]%Z /\
  get_ind (cc_exops w) [1; 0]%Z = Err ValueError /\ get_exop (cc_exops w) 14 = Err ValueError /\ get_exop (cc_exops w) (-1) = Err ValueError.
Proof. eexists. split; [vm_compute; reflexivity|]. vm_compute. repeat split. Qed.
Example C46_copy_ex : exists w o w', ex_cc CCStandard RefNone RanksNone 14 = Ok w /\ ex_cc CCStandard RefNone (RanksList [2]%Z) 6 = Ok o /\
  cc_assign_params w (CPWfn o) = Ok w' /\ cc_params w' = [0; 0; 0; 0; 0; 0; 0; 0; 1; 2; 3; 4; 5; 6]%Z.
Proof. do 3 eexists. split; [vm_compute; reflexivity|]. split; [vm_compute; reflexivity|]. split; vm_compute; reflexivity. Qed.

(** ** C47 *)
Section C47_errors.
Context {K : CRing}.
Local Open Scope cr_scope.
Variables (c : ccclass) (nelec nspin : Z) (ra : ranksarg) (indices : option (list (list Z))) (refwfn : refarg) (ps : ccparams K)
  (given : bool) (refresh : Z) (w : cc K).
Hypothesis New : new_cc c nelec nspin ra indices refwfn ps given refresh = Ok w.
(** Findings: CCS, a CI reference and given exop_combinations make every overlap fail (other than that
    with the reference determinant) *)
Theorem C47_singles_refuted : c = CCSingles -> forall ref sd, cc_ref w = RSd ref -> sd <> ref ->
  cc_overlap w sd = Err AttributeError \/ cc_overlap w sd = Err ValueError.
Proof.
  intros -> ref sd Hr Hsd. destruct (new_cc_built _ _ _ _ _ _ _ _ _ _ New) as (g & B). unfold cc_overlap, cc_olp, with_table. rewrite Hr.
  apply N.eqb_neq in Hsd. rewrite Hsd. unfold excitation_of. destruct (diff_state ref sd) as (b & Eb). rewrite sign_excite_eq, Eb. cbn [bind].
  rewrite (b_class _ _ _ _ _ _ _ _ _ _ B). destruct (cc_combs w); [|now left]. destruct (forallb _ _); [now left|now right].
Qed.
Theorem C47_ci_reference_refuted : forall sd, cc_ref w = RCI -> cc_overlap w sd = Err AttributeError.
Proof. intros sd Hr. unfold cc_overlap, cc_olp, with_table. now rewrite Hr. Qed.
Theorem C47_given_combinations_refuted : given = true -> forall ref sd, cc_ref w = RSd ref -> sd <> ref -> cc_overlap w sd = Err AttributeError.
Proof.
  intros Hg ref sd Hr Hsd. destruct (new_cc_built _ _ _ _ _ _ _ _ _ _ New) as (g & B). unfold cc_overlap, cc_olp, with_table. rewrite Hr.
  apply N.eqb_neq in Hsd. rewrite Hsd. unfold excitation_of. destruct (diff_state ref sd) as (b & Eb). rewrite sign_excite_eq, Eb. cbn [bind].
  pose proof (b_combs _ _ _ _ _ _ _ _ _ _ B) as E. rewrite Hg in E. unfold get_multi. rewrite E. now destruct (cc_class w).
Qed.
End C47_errors.
Print Assumptions C47_singles_refuted.
Print Assumptions C47_ci_reference_refuted.
Print Assumptions C47_given_combinations_refuted.

Section C47_deriv.
Context {K : CRing}.
Local Open Scope cr_scope.
Add Ring K_ring59 : (rth K).
Variables (c : ccclass) (nelec nspin : Z) (ra : ranksarg) (indices : option (list (list Z))) (refwfn : refarg) (ps : ccparams K)
  (refresh : Z) (w : cc K) (ref sd : N).
Hypothesis New : new_cc c nelec nspin ra indices refwfn ps false refresh = Ok w.
Hypothesis Class : c <> CCSingles.
Hypothesis Ref : cc_ref w = RSd ref.
Hypothesis Electrons : (total_occ (Some ref) <= total_occ (Some sd))%nat.
Definition set_amp (w : cc K) (i : nat) (x : K) : cc K := with_params w (upd (cc_params w) i x).
Lemma dcc_formulas : sd <> ref -> exists rr s, formulas w ref sd rr s.
Proof.
  intros Ne. destruct (new_cc_built _ _ _ _ _ _ _ _ _ _ New) as (g & B). destruct (built_ready _ _ _ _ _ _ _ _ _ _ B Class Ref) as [R T].
  apply have_formulas; auto. now apply anns_length.
Qed.
Lemma with_same : forall w : cc K, with_params w (cc_params w) = w.
Proof. intros []. reflexivity. Qed.
Lemma deriv_ref : sd = ref -> forall P, cc_overlap (with_params w P) sd = Ok 1 /\ exists w', cc_olp_deriv (with_params w P) sd = Ok (repeat 0 (length P), w') /\
  exists w2, cc_olp_hessian (with_params w P) sd = Ok (repeat (repeat 0 (length P)) (length P), w2).
Proof.
  intros -> P. unfold cc_overlap, cc_olp, cc_olp_deriv, cc_olp_hessian, with_table. cbn [with_params cc_ref cc_params]. rewrite Ref, N.eqb_refl. cbn. eauto.
Qed.
(** the overlap is affine in each amplitude and the derivative is its slope *)
Theorem C47_derivative : exists v D, cc_overlap w sd = Ok v /\ length D = length (cc_params w) /\
  (forall i x, (i < length (cc_params w))%nat -> cc_overlap (set_amp w i x) sd = Ok (v + (x - nth i (cc_params w) 0) * nth i D 0)) /\
  (forall ds is, Forall2 (selects (length (cc_params w))) ds is -> cc_overlap_deriv w sd ds = Ok (map (fun i => nth i D 0) is)) /\
  (forall k, (forall i, ~ selects (length (cc_params w)) k i) -> cc_overlap_deriv w sd [k] = Err IndexError).
Proof.
  assert (Q : exists v D w', cc_overlap w sd = Ok v /\ length D = length (cc_params w) /\
    (forall i x, (i < length (cc_params w))%nat -> cc_overlap (set_amp w i x) sd = Ok (v + (x - nth i (cc_params w) 0) * nth i D 0)) /\
    cc_olp_deriv w sd = Ok (D, w')).
  { destruct (N.eq_dec sd ref) as [E|Ne].
    - destruct (deriv_ref E (cc_params w)) as (E1 & w' & E2 & _). rewrite with_same in E1, E2. exists 1. exists (repeat 0 (length (cc_params w))). exists w'.
      split; [auto|]. split; [apply repeat_length|]. split; [|auto]. intros i x Hi. unfold set_amp. rewrite (proj1 (deriv_ref E _)), nth_repeat. f_equal. ring.
    - destruct (dcc_formulas Ne) as (rr & s & [Fv Fs _ Fg]). pose proof (Fv _ eq_refl) as V. destruct (Fs _ eq_refl) as (w' & S). rewrite with_same in V, S.
      eexists. exists (map (fun dd => s * sumf (rslope w ref sd (cc_params w) dd) rr) (seq 0%nat (length (cc_params w)))). exists w'.
      split; [exact V|]. split; [now rewrite map_length, seq_length|]. split; [|exact S].
      intros i x Hi. unfold set_amp. rewrite Fv by apply upd_length. f_equal.
      assert (NE : nth i (map (fun dd => s * sumf (rslope w ref sd (cc_params w) dd) rr) (seq 0%nat (length (cc_params w)))) 0 = s * sumf (rslope w ref sd (cc_params w) i) rr).
      { rewrite (nth_indep _ 0 (s * sumf (rslope w ref sd (cc_params w) 0%nat) rr)) by (now rewrite map_length, seq_length).
        rewrite (map_nth (fun dd => s * sumf (rslope w ref sd (cc_params w) dd) rr)), seq_nth by auto. reflexivity. }
      rewrite NE.
      rewrite (sumf_ext _ (fun r => rval w (anns sd ref) (cres sd ref) r + (x - nth i (cc_params w) 0) * rslope w ref sd (cc_params w) i r)).
      + rewrite sumf_add, sumf_mul_l. ring.
      + intros r Hr. destruct (Fg r Hr) as [G1 G2]. destruct (new_cc_built _ _ _ _ _ _ _ _ _ _ New) as (g & B). destruct (built_ready _ _ _ _ _ _ _ _ _ _ B Class Ref) as [R _].
        rewrite (rval_upd w ref sd R (proj2 (anns_length _ _) Electrons) (cc_params w) i x r G1 G2 Hi). now rewrite with_same. }
  destruct Q as (v & D & w' & E1 & L & H & E2). exists v, D. split; [exact E1|]. split; [exact L|]. split; [exact H|].
  unfold cc_overlap_deriv. rewrite E2. cbn [bind fst]. rewrite L. split.
  - induction 1 as [|k i ds is Hk H' IH]; [reflexivity|]. cbn [mapM map].
    rewrite (proj1 (np_index_ok _ _ _) Hk). cbn [bind]. rewrite IH. reflexivity.
  - intros k Hk. cbn [mapM]. destruct (np_index (length (cc_params w)) k) as [i|x] eqn:E; [exfalso; apply (Hk i); now apply np_index_ok|].
    unfold np_index in E. destruct (_ && _)%bool; [discriminate|]. injection E as <-. reflexivity.
Qed.
(** second derivatives: slopes of the first derivatives; the diagonal is zero *)
Theorem C47_hessian : exists H, cc_overlap_hessian w sd = Ok H /\
  length H = length (cc_params w) /\ (forall row, In row H -> length row = length (cc_params w)) /\
  (forall i, (i < length (cc_params w))%nat -> nth i (nth i H []) 0 = 0) /\
  (forall i j, (i < length (cc_params w))%nat -> (j < length (cc_params w))%nat -> nth i (nth j H []) 0 = nth j (nth i H []) 0) /\
  (forall i j x, (i < length (cc_params w))%nat -> (j < length (cc_params w))%nat -> exists D0 D1,
     cc_overlap_deriv w sd [Z.of_nat i] = Ok [D0] /\ cc_overlap_deriv (set_amp w j x) sd [Z.of_nat i] = Ok [D1] /\
     D1 = D0 + (x - nth j (cc_params w) 0) * nth j (nth i H []) 0).
Proof.
  assert (One : forall (w0 w' : cc K) D i, cc_olp_deriv w0 sd = Ok (D, w') -> (i < length D)%nat -> cc_overlap_deriv w0 sd [Z.of_nat i] = Ok [nth i D 0]).
  { intros w0 w' D i E Hi. unfold cc_overlap_deriv. rewrite E. cbn [bind fst mapM]. rewrite (proj1 (np_index_ok _ _ _) (conj Hi (or_introl eq_refl))). reflexivity. }
  destruct (N.eq_dec sd ref) as [E|Ne].
  - destruct (deriv_ref E (cc_params w)) as (_ & w' & E2 & w2 & E3). rewrite with_same in E2, E3. unfold cc_overlap_hessian. rewrite E3. cbn [bind fst].
    eexists. split; [reflexivity|]. split; [apply repeat_length|]. split; [intros row Hr; apply repeat_spec in Hr; subst; apply repeat_length|].
    assert (Z0 : forall i j, nth i (nth j (repeat (repeat 0 (length (cc_params w))) (length (cc_params w))) []) 0 = (0 : K)).
    { intros i j. destruct (Nat.lt_ge_cases j (length (cc_params w))) as [Hj|Hj].
      - rewrite (nth_indep _ [] (repeat 0 (length (cc_params w)))) by now rewrite repeat_length. now rewrite !nth_repeat.
      - rewrite (nth_overflow _ []) by now rewrite repeat_length. now destruct i. }
    split; [auto|]. split; [intros; now rewrite !Z0|]. intros i j x Hi Hj. exists 0, 0. split; [|split].
    + rewrite (One w _ _ i E2) by now rewrite repeat_length. now rewrite nth_repeat.
    + destruct (deriv_ref E (upd (cc_params w) j x)) as (_ & w3 & E4 & _). fold (set_amp w j x) in E4. rewrite (One _ _ _ i E4) by now rewrite repeat_length, upd_length. now rewrite nth_repeat.
    + rewrite Z0. ring.
  - destruct (dcc_formulas Ne) as (rr & s & [Fv Fs Fc Fg]). destruct (Fs _ eq_refl) as (w' & S). destruct (Fc _ eq_refl) as (w2 & C). rewrite with_same in S, C.
    unfold cc_overlap_hessian. rewrite C. cbn [bind fst]. set (n := length (cc_params w)) in *. eexists. split; [reflexivity|].
    assert (Nt : forall i j, (i < n)%nat -> (j < n)%nat -> nth j (nth i (map (fun x => map (fun y => s * sumf (rcurv w ref sd (cc_params w) x y) rr) (seq 0%nat n)) (seq 0%nat n)) []) 0
       = s * sumf (rcurv w ref sd (cc_params w) i j) rr).
    { intros i j Hi Hj. rewrite (nth_indep _ [] (map (fun y => s * sumf (rcurv w ref sd (cc_params w) 0%nat y) rr) (seq 0%nat n))) by now rewrite map_length, seq_length.
      rewrite (map_nth (fun x => map (fun y => s * sumf (rcurv w ref sd (cc_params w) x y) rr) (seq 0%nat n))), seq_nth by auto. cbn [Nat.add].
      rewrite (nth_indep _ 0 (s * sumf (rcurv w ref sd (cc_params w) i 0%nat) rr)) by now rewrite map_length, seq_length.
      rewrite (map_nth (fun y => s * sumf (rcurv w ref sd (cc_params w) i y) rr)), seq_nth by auto. reflexivity. }
    destruct (new_cc_built _ _ _ _ _ _ _ _ _ _ New) as (g & B). destruct (built_ready _ _ _ _ _ _ _ _ _ _ B Class Ref) as [R _].
    assert (Sl : forall P i, length P = n -> (i < n)%nat -> nth i (map (fun dd => s * sumf (rslope w ref sd P dd) rr) (seq 0%nat (length P))) 0 = s * sumf (rslope w ref sd P i) rr).
    { intros P i L Hi. rewrite (nth_indep _ 0 (s * sumf (rslope w ref sd P 0%nat) rr)) by (rewrite map_length, seq_length; lia).
      rewrite (map_nth (fun dd => s * sumf (rslope w ref sd P dd) rr)), seq_nth by lia. reflexivity. }
    split; [now rewrite map_length, seq_length|]. split; [intros row Hr; apply in_map_iff in Hr as (x & <- & _); now rewrite map_length, seq_length|].
    split; [|split].
    + intros i Hi. rewrite Nt by auto. rewrite (sumf_zero (rcurv w ref sd (cc_params w) i i)); [ring|]. intros r _. unfold rcurv. now rewrite Nat.eqb_refl.
    + intros i j Hi Hj. rewrite !Nt by auto. f_equal. apply sumf_ext. intros r Hr. apply rcurv_sym.
    + intros i j x Hi Hj. destruct (Fs (upd (cc_params w) j x)) as (w3 & S3); [apply upd_length|]. fold (set_amp w j x) in S3.
      exists (s * sumf (rslope w ref sd (cc_params w) i) rr), (s * sumf (rslope w ref sd (upd (cc_params w) j x) i) rr). split; [|split].
      * rewrite (One w _ _ i S) by now rewrite map_length, seq_length. do 2 f_equal. now apply (Sl (cc_params w)).
      * rewrite (One _ _ _ i S3) by (now rewrite map_length, seq_length, upd_length). rewrite Sl; auto. apply upd_length.
      * rewrite Nt by auto. rewrite (sumf_ext (rslope w ref sd (upd (cc_params w) j x) i) (fun r => rslope w ref sd (cc_params w) i r + (x - nth j (cc_params w) 0) * rcurv w ref sd (cc_params w) i j r)).
        -- rewrite sumf_add, sumf_mul_l. ring.
        -- intros r Hr. destruct (Fg r Hr) as [G1 G2]. now apply (rslope_upd w ref sd R (proj2 (anns_length _ _) Electrons)).
Qed.
End C47_deriv.
Print Assumptions C47_derivative.
Print Assumptions C47_hessian.

Section C47_exp.
Context {F : CField}.
Local Open Scope cr_scope.
Variables (c : ccclass) (nelec nspin : Z) (ra : ranksarg) (indices : option (list (list Z))) (refwfn : refarg) (ps : ccparams F)
  (refresh : Z) (w : cc F) (ref : N).
Hypothesis CZ : GemSpec.char_zero F.
Hypothesis New : new_cc c nelec nspin ra indices refwfn ps false refresh = Ok w.
Hypothesis Class : c <> CCSingles.
Hypothesis Ref : cc_ref w = RSd ref.
(** the overlap is the coefficient of the determinant in exp(T)|ref>, T the amplitude-weighted sum of
    the excitation operators; the series may be cut off at any order not below the electrons of ref *)
Theorem C47_overlap : separated (map fst (cc_exops w)) -> forall sd n, (total_occ (Some ref) <= total_occ (Some sd))%nat -> (total_occ (Some ref) <= n)%nat ->
  cc_overlap w sd = Ok (exp_coeff n (map (fun ei => (nth (snd ei) (cc_params w) 0, excitation (fst ei))) (cc_exops w)) ref sd).
Proof.
  intros Sep sd n Hs Hn. destruct (new_cc_built _ _ _ _ _ _ _ _ _ _ New) as (g & B). destruct (built_ready _ _ _ _ _ _ _ _ _ _ B Class Ref) as [R T].
  apply (ready_overlap CZ w ref sd n R); auto.
  - now apply anns_length.
  - apply (built_good _ _ _ _ _ _ _ _ _ _ B).
  - etransitivity; [apply anns_bound|exact Hn].
Qed.
(** which is the case for the operators of StandardCC ... *)
Theorem C47_standard : c = CCStandard -> forall sd n, (total_occ (Some ref) <= total_occ (Some sd))%nat -> (total_occ (Some ref) <= n)%nat ->
  cc_overlap w sd = Ok (exp_coeff n (map (fun ei => (nth (snd ei) (cc_params w) 0, excitation (fst ei))) (cc_exops w)) ref sd).
Proof.
  intros Hc. apply C47_overlap. destruct (C46_standard _ _ _ _ _ _ _ _ _ _ New (or_introl Hc)) as (g & _ & H).
  intros e e' z He He' Hz Hz'. apply H in He as (a1 & c1 & S1 & A1 & _), He' as (a2 & c2 & S2 & _ & C2).
  destruct (shape_halves _ _ _ _ S1) as [X1 _], (shape_halves _ _ _ _ S2) as [_ X2]. unfold annihilators, creators in X1, X2.
  rewrite X1 in Hz. rewrite X2 in Hz'. apply A1 in Hz. apply C2 in Hz'. destruct Hz, Hz'. congruence.
Qed.
(** ... and for operators of BaseCC from one list of orbitals to a disjoint one *)
Theorem C47_indices : forall i0 i1, indices = Some [i0; i1] -> (forall z, In z i0 -> ~ In z i1) ->
  forall sd n, (total_occ (Some ref) <= total_occ (Some sd))%nat -> (total_occ (Some ref) <= n)%nat ->
  cc_overlap w sd = Ok (exp_coeff n (map (fun ei => (nth (snd ei) (cc_params w) 0, excitation (fst ei))) (cc_exops w)) ref sd).
Proof.
  intros i0 i1 Hi D. apply C47_overlap. destruct (C46_indices _ _ _ _ _ _ _ _ _ _ New _ _ Hi) as [_ H].
  intros e e' z He He' Hz Hz'. apply H in He as (a1 & c1 & S1 & A1 & _), He' as (a2 & c2 & S2 & _ & C2).
  destruct (shape_halves _ _ _ _ S1) as [X1 _], (shape_halves _ _ _ _ S2) as [_ X2]. unfold annihilators, creators in X1, X2.
  rewrite X1 in Hz. rewrite X2 in Hz'. apply (D z); auto.
Qed.
End C47_exp.
Print Assumptions C47_overlap.
Print Assumptions C47_standard.
Print Assumptions C47_indices.

(** Findings: with operators among all orbitals (the default of BaseCC, and GeneralizedCC) the overlap is
    not the coefficient of the exponential *)
Theorem C47_generalized_refuted :
  match ex_q CCGeneralized 1 2 RanksNone None [2; 3]%Z with
  | Ok w => cc_ref w = RSd 1 /\ same_q (cc_overlap w 1) (Ok (1%cr : fring Qc_field)) = true /\
     forall n, In n [2; 3; 4; 5; 6]%nat ->
       same_q (cc_overlap w 1) (Ok (exp_coeff (F := Qc_field) n (map (fun ei => (nth (snd ei) (cc_params w) 0%cr, excitation (fst ei))) (cc_exops w)) 1 1)) = false
  | Err _ => False
  end.
Proof.
  assert (H : match ex_q CCGeneralized 1 2 RanksNone None [2; 3]%Z with
    | Ok w => (match cc_ref w with RSd s => N.eqb s 1 | RCI => false end && same_q (cc_overlap w 1) (Ok (1%cr : fring Qc_field)) &&
       forallb (fun n => negb (same_q (cc_overlap w 1)
          (Ok (exp_coeff (F := Qc_field) n (map (fun ei => (nth (snd ei) (cc_params w) 0%cr, excitation (fst ei))) (cc_exops w)) 1 1)))) [2; 3; 4; 5; 6]%nat)%bool
    | Err _ => false
    end = true) by (vm_compute; reflexivity).
  destruct (ex_q CCGeneralized 1 2 RanksNone None [2; 3]%Z) as [w|]; [|discriminate].
  apply andb_prop in H as [H H3]. apply andb_prop in H as [H1 H2]. split; [|split].
  - destruct (cc_ref w); [|discriminate]. apply N.eqb_eq in H1. now subst.
  - exact H2.
  - intros n Hn. rewrite forallb_forall in H3. apply H3 in Hn. now apply negb_true_iff in Hn.
Qed.
(** with a determinant of fewer electrons the overlap fails or has a value other than zero *)
Theorem C47_electrons_refuted : ex_cc_value (ex_cc CCStandard RefNone RanksNone 14) 1 = Err KeyError /\
  ex_cc_value (ex_cc CCStandard RefNone (RanksInt 1) 8) 2 = Ok 1%Z /\ ex_cc_value (ex_cc CCStandard RefNone (RanksInt 1) 8) 4 = Ok 2%Z.
Proof. repeat split; vm_compute; reflexivity. Qed.
(** values with two electrons in three spatial orbitals, reference orbitals 0 and 3 *)
Example C47_ex : map (ex_cc_value (ex_cc CCStandard RefNone RanksNone 14)) [9; 10; 18; 36; 3; 11]%N = map Ok [1; 1; -18; -21; 5; 0]%Z /\
  ex_cc_deriv (ex_cc CCStandard RefNone RanksNone 14) 18 (map Z.of_nat (seq 0 14)) = Ok [7; 0; -5; 0; -3; 0; 1; 0; 0; -1; 0; 0; 0; 0]%Z /\
  ex_cc_deriv (ex_cc CCStandard RefNone RanksNone 14) 18 [-14; 14]%Z = Err IndexError.
Proof. repeat split; vm_compute; reflexivity. Qed.
Example C47_exp_ex :
  match ex_q CCStandard 2 6 RanksNone None (map Z.of_nat (seq 1 14)) with
  | Ok w => forallb (fun p => same_q (Ok (exp_coeff (F := Qc_field) 2 (map (fun ei => (nth (snd ei) (cc_params w) 0%cr, excitation (fst ei))) (cc_exops w)) 9 (fst p)))
                           (Ok (Qcanon.Q2Qc (QArith_base.inject_Z (snd p)))))
              [(9%N, 1); (10%N, 1); (18%N, -18); (36%N, -21); (3%N, 5); (11%N, 0)]%Z
  | Err _ => false
  end = true.
Proof. vm_compute. reflexivity. Qed.
