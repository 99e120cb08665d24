(** Property C74: SeniorityCC overlaps as coefficients of an exponential of guarded excitation operators,
    their derivatives, and which wavefunctions can be built. *)
From Coq Require Import List ZArith NArith Arith Bool Lia Permutation Sorted QArith Qcanon.
From Verif Require Import Py BitSpec BitLemmas Slater SlaterBits SlaterBits2 BicliqueLemmas GeneralLemmas P_Slater1 P_Slater2 Fock FockLemmas FockInner Alg WfnCI CILemmas GemSpec P_Geminal P_CI
  SignLemmas CC CCEx CCRows CCGen CCSpec CCFock CCExp CCLemmas CCMain CCDeriv CCRows2 P_CC SenCC SenSpec SenRows SenFock SenMain SenEx PermSpec.
Import ListNotations.

Section New.
Context {K : CRing}.
Local Open Scope cr_scope.
Variables (nelec nspin : Z) (ra : ranksarg) (indices : option (list (list Z))) (refwfn : senref) (ps : ccparams K) (given : bool) (refresh : Z).
(** the wavefunction is that of BaseCC with an even number of electrons and another reference *)
Theorem C74_accepts : forall s,
  new_sen nelec nspin ra indices refwfn ps given refresh = Ok s <->
  exists w r, new_cc CCBase nelec nspin ra indices RefNone ps given refresh = Ok w /\ (nelec mod 2 = 0)%Z /\
    sn_cc s = with_ref w r /\ sn_combs s = (if given then None else Some []) /\
    match refwfn with
    | SRNone => exists g, ground nelec nspin = Ok g /\ r = RSd g
    | SRSd sd => Z.of_nat (total_occ (Some sd)) = nelec /\ r = RSd sd
    | SRCI ne ns s => ne = nelec /\ ns = nspin /\ s = Some 0%Z /\ r = RCI
    end.
Proof.
  intros s. unfold new_sen, assign_nelec.
  assert (Ap : forall w, new_cc CCBase nelec nspin ra indices RefNone ps given refresh = Ok w -> (0 < nelec)%Z).
  { intros w H. destruct (new_cc_built _ _ _ _ _ _ _ _ _ _ H) as (g & B). apply (b_nelec _ _ _ _ _ _ _ _ _ _ B). }
  assert (RF : forall r, sen_assign_refwfn nelec nspin refwfn = Ok r <-> match refwfn with
    | SRNone => exists g, ground nelec nspin = Ok g /\ r = RSd g
    | SRSd sd => Z.of_nat (total_occ (Some sd)) = nelec /\ r = RSd sd
    | SRCI ne ns s => ne = nelec /\ ns = nspin /\ s = Some 0%Z /\ r = RCI end).
  { intros r. unfold sen_assign_refwfn. destruct refwfn as [|sd|ne ns o].
    - destruct (ground nelec nspin) as [g|x]; cbn [bind]; split.
      + intros H. apply Ok_inj in H. eauto.
      + intros (g' & H & ->). apply Ok_inj in H. now subst.
      + discriminate.
      + intros (g' & H & _). discriminate.
    - destruct (Z.eqb_spec (Z.of_nat (total_occ (Some sd))) nelec); cbn [negb]; split; try discriminate.
      + intros H. apply Ok_inj in H. auto.
      + intros [_ ->]. reflexivity.
      + intros [H _]. contradiction.
    - destruct (Z.eqb_spec ne nelec); cbn [negb]; [|split; [discriminate|intros (H & _); contradiction]].
      destruct (Z.eqb_spec ns nspin); cbn [negb]; [|split; [discriminate|intros (_ & H & _); contradiction]].
      destruct o as [[|p|p]|]; split; try discriminate; try (intros (_ & _ & H & _); discriminate).
      + intros H. apply Ok_inj in H. auto.
      + intros (_ & _ & _ & ->). reflexivity. }
  split.
  - destruct (nelec <=? 0)%Z eqn:Ep; [discriminate|]. cbn [bind]. destruct (Z.eqb_spec (nelec mod 2) 0) as [E2|]; [|discriminate]. cbn [negb].
    destruct (new_cc CCBase nelec nspin ra indices RefNone ps given refresh) as [w|] eqn:Ew; [|discriminate]. cbn [bind].
    destruct (sen_assign_refwfn nelec nspin refwfn) as [r|] eqn:Er; [|discriminate]. cbn [bind]. intros H. apply Ok_inj in H. subst s.
    exists w, r. split; [reflexivity|]. split; [auto|]. split; [reflexivity|]. split; [reflexivity|]. now apply RF.
  - intros (w & r & Ew & E2 & Es & Ec & Hr). apply RF in Hr. pose proof (Ap w Ew) as Hp.
    rewrite (proj2 (Z.leb_gt _ _) Hp). cbn [bind]. rewrite E2, Ew, Hr. cbn. destruct s. cbn in Es, Ec. now subst.
Qed.
Theorem C74_refuses :
  ((0 < nelec)%Z -> (nelec mod 2 <> 0)%Z -> new_sen nelec nspin ra indices refwfn ps given refresh = Err ValueError) /\
  (forall w, new_cc CCBase nelec nspin ra indices RefNone ps given refresh = Ok w ->
    match refwfn with
    | SRNone => False
    | SRSd sd => Z.of_nat (total_occ (Some sd)) <> nelec
    | SRCI ne ns s => ne <> nelec \/ ns <> nspin \/ s <> Some 0%Z
    end -> new_sen nelec nspin ra indices refwfn ps given refresh = Err ValueError).
Proof.
  unfold new_sen, assign_nelec. split.
  - intros Hp H2. rewrite (proj2 (Z.leb_gt _ _) Hp). cbn [bind]. apply Z.eqb_neq in H2. now rewrite H2.
  - intros w Ew H. destruct (new_cc_built _ _ _ _ _ _ _ _ _ _ Ew) as (g & B). pose proof (b_nelec _ _ _ _ _ _ _ _ _ _ B) as Hp.
    rewrite (proj2 (Z.leb_gt _ _) Hp). cbn [bind]. destruct (nelec mod 2 =? 0)%Z; [|reflexivity]. cbn [negb]. rewrite Ew. cbn [bind].
    unfold sen_assign_refwfn. destruct refwfn as [|sd|ne ns o]; [contradiction| |].
    + destruct (Z.eqb_spec (Z.of_nat (total_occ (Some sd))) nelec); [contradiction|]. reflexivity.
    + destruct (Z.eqb_spec ne nelec); [|reflexivity]. destruct (Z.eqb_spec ns nspin); [|reflexivity]. cbn [negb].
      destruct o as [[|p|p]|]; try reflexivity. destruct H as [H|[H|H]]; congruence.
Qed.
End New.
Print Assumptions C74_accepts.
Print Assumptions C74_refuses.

Section Built.
Context {K : CRing}.
Local Open Scope cr_scope.
Variables (nelec nspin : Z) (ra : ranksarg) (indices : option (list (list Z))) (refwfn : senref) (ps : ccparams K) (refresh : Z) (s : sen K).
Lemma sen_ready : forall given ref, new_sen nelec nspin ra indices refwfn ps given refresh = Ok s -> cc_ref (sn_cc s) = RSd ref -> ready (sn_cc s) ref /\
  cc_nspin (sn_cc s) = nspin /\ (2 * (nspin / 2) = nspin)%Z /\ (forall e, In e (map fst (cc_exops (sn_cc s))) -> good_key (cc_ranks (sn_cc s)) e) /\
  sn_combs s = (if given then None else Some []).
Proof.
  intros given ref New Ref. apply C74_accepts in New as (w & r & Ew & _ & Es & Ec & _). destruct (new_cc_built _ _ _ _ _ _ _ _ _ _ Ew) as (g & B).
  destruct (built_ranks _ _ _ _ _ _ _ _ _ _ B) as [R1 R2]. destruct (built_exops _ _ _ _ _ _ _ _ _ _ B) as (_ & E1 & E2).
  rewrite Es in *. split; [|split; [|split; [|split]]].
  - constructor; auto.
    + cbn [with_ref cc_class]. rewrite (b_class _ _ _ _ _ _ _ _ _ _ B). discriminate.
    + cbn [with_ref cc_ranks]. intros x H. apply R1 in H. lia.
    + apply (built_length _ _ _ _ _ _ _ _ _ _ B).
  - apply (b_ns _ _ _ _ _ _ _ _ _ _ B).
  - destruct (b_nspin _ _ _ _ _ _ _ _ _ _ B) as [_ H]. pose proof (Z.div_mod nspin 2). lia.
  - apply (built_good _ _ _ _ _ _ _ _ _ _ B).
  - exact Ec.
Qed.
(** Findings: a CI reference makes every overlap fail, given exop_combinations all overlaps but that with the
    reference, and the derivative at the reference (a plain float) cannot be indexed *)
Theorem C74_ci_reference_refuted : forall given ne ns o, new_sen nelec nspin ra indices (SRCI ne ns o) ps given refresh = Ok s ->
  forall sd ds, sen_overlap s sd = Err AttributeError /\ sen_overlap_deriv s sd ds = Err AttributeError.
Proof.
  intros given ne ns o New sd ds. apply C74_accepts in New as (w & r & _ & _ & Es & _ & _ & _ & _ & Hr). unfold sen_overlap, sen_olp, sen_overlap_deriv, sen_olp_deriv.
  rewrite Es. cbn [with_ref cc_ref]. rewrite Hr. split; reflexivity.
Qed.
Theorem C74_given_combinations_refuted : new_sen nelec nspin ra indices refwfn ps true refresh = Ok s ->
  forall ref sd ds, cc_ref (sn_cc s) = RSd ref -> sd <> ref -> sen_overlap s sd = Err AttributeError /\ sen_overlap_deriv s sd ds = Err AttributeError.
Proof.
  intros New ref sd ds Ref Ne. destruct (sen_ready true ref New Ref) as (_ & _ & _ & _ & Ec). unfold sen_overlap, sen_olp, sen_overlap_deriv, sen_olp_deriv.
  rewrite Ref. apply N.eqb_neq in Ne. rewrite Ne. cbn [excitation_of]. unfold sen_table. rewrite Ec. split; reflexivity.
Qed.
Theorem C74_reference : forall given ref, new_sen nelec nspin ra indices refwfn ps given refresh = Ok s -> cc_ref (sn_cc s) = RSd ref -> sen_overlap s ref = Ok 1.
Proof. intros given ref New Ref. unfold sen_overlap, sen_olp. rewrite Ref, N.eqb_refl. reflexivity. Qed.
Theorem C74_reference_derivative_refuted : forall given ref, new_sen nelec nspin ra indices refwfn ps given refresh = Ok s -> cc_ref (sn_cc s) = RSd ref ->
  forall ds, sen_overlap_deriv s ref ds = Err TypeError.
Proof. intros given ref New Ref ds. unfold sen_overlap_deriv, sen_olp_deriv. rewrite Ref, N.eqb_refl. reflexivity. Qed.
End Built.
Print Assumptions C74_ci_reference_refuted.
Print Assumptions C74_given_combinations_refuted.
Print Assumptions C74_reference.
Print Assumptions C74_reference_derivative_refuted.

Section Deriv.
Context {K : CRing}.
Local Open Scope cr_scope.
Add Ring K_ring138 : (rth K).
Variables (nelec nspin : Z) (ra : ranksarg) (indices : option (list (list Z))) (refwfn : senref) (ps : ccparams K) (refresh : Z) (s : sen K) (ref sd : N).
Hypothesis New : new_sen nelec nspin ra indices refwfn ps false refresh = Ok s.
Hypothesis Ref : cc_ref (sn_cc s) = RSd ref.
Hypothesis Electrons : (total_occ (Some ref) <= total_occ (Some sd))%nat.
Hypothesis Wr : within nspin ref.
Hypothesis Ws : within nspin sd.
(** away from the reference the overlap is affine in each amplitude and the derivative is its slope *)
Theorem C74_derivative : sd <> ref -> exists v D, sen_overlap s sd = Ok v /\ length D = length (cc_params (sn_cc s)) /\
  (forall i x, (i < length (cc_params (sn_cc s)))%nat ->
     sen_overlap (sen_with_params s (upd (cc_params (sn_cc s)) i x)) sd = Ok (v + (x - nth i (cc_params (sn_cc s)) 0) * nth i D 0)) /\
  (forall ds is, Forall2 (selects (length (cc_params (sn_cc s)))) ds is -> sen_overlap_deriv s sd ds = Ok (map (fun i => nth i D 0) is)) /\
  (forall k, (forall i, ~ selects (length (cc_params (sn_cc s))) k i) -> sen_overlap_deriv s sd [k] = Err IndexError).
Proof.
  intros Ne. destruct (sen_ready _ _ _ _ _ _ _ _ _ _ New Ref) as (R & Ns & N2 & _ & Ec). pose proof (proj2 (anns_length _ _) Electrons) as L.
  assert (T : stable s ref sd) by (exists []; split; [exact Ec|discriminate]).
  assert (Wr' : within (2 * (cc_nspin (sn_cc s) / 2)) ref) by (now rewrite Ns, N2). assert (Ws' : within (2 * (cc_nspin (sn_cc s) / 2)) sd) by (now rewrite Ns, N2).
  destruct (stable_rows s ref sd R L T) as (Lr & parts & s' & E & _ & _ & _ & _ & G).
  set (n := length (cc_params (sn_cc s))) in *. set (P := cc_params (sn_cc s)) in *.
  exists (sumf (srow s ref sd P) Lr), (map (fun dd => sumf (sslope s ref sd P dd) Lr) (seq 0%nat n)).
  assert (Ln : length (map (fun dd => sumf (sslope s ref sd P dd) Lr) (seq 0%nat n)) = n) by now rewrite map_length, seq_length.
  split; [exact (sen_sum s ref sd R L Wr' Ws' Ne Lr s' E G)|]. split; [exact Ln|]. split; [|split].
  - intros i x Hi. set (s1 := sen_with_params s (upd P i x)).
    assert (T1 : stable s1 ref sd) by (exists []; split; [exact Ec|discriminate]).
    assert (R1 : ready (sn_cc s1) ref) by (apply ready_params; [exact R|apply upd_length]).
    rewrite (sen_sum s1 ref sd R1 L Wr' Ws' Ne Lr (sen_with_params s' (upd P i x)) (table_params _ _ _ _ _ _ E) G). f_equal.
    assert (Nd : nth i (map (fun dd => sumf (sslope s ref sd P dd) Lr) (seq 0%nat n)) 0 = sumf (sslope s ref sd P i) Lr).
    { rewrite (nth_indep _ 0 (sumf (sslope s ref sd P 0%nat) Lr)) by (rewrite Ln; exact Hi).
      rewrite (map_nth (fun dd => sumf (sslope s ref sd P dd) Lr)), seq_nth by exact Hi. reflexivity. }
    rewrite Nd.
    transitivity (sumf (fun r => srow s ref sd P r + (x - nth i P 0) * sslope s ref sd P i r) Lr).
    + apply sumf_ext. intros r Hr. destruct (G r Hr) as [G1 G2]. exact (srow_upd s ref sd R L i x r G1 G2 Hi).
    + rewrite sumf_add, sumf_mul_l. reflexivity.
  - unfold sen_overlap_deriv. rewrite (sen_slope_sum s ref sd R Wr' Ws' Ne Lr s' E G). cbn [bind fst]. fold P. fold n. rewrite Ln.
    induction 1 as [|k i ds is Hk H' IH]; [reflexivity|]. cbn [mapM map]. rewrite (proj1 (np_index_ok _ _ _) Hk). cbn [bind]. rewrite IH. reflexivity.
  - intros k Hk. unfold sen_overlap_deriv. rewrite (sen_slope_sum s ref sd R Wr' Ws' Ne Lr s' E G). cbn [bind fst mapM]. fold P. fold n. rewrite Ln.
    destruct (np_index n k) as [i|x] eqn:Ei; [exfalso; apply (Hk i); now apply np_index_ok|].
    unfold np_index in Ei. destruct (_ && _)%bool; [discriminate|]. injection Ei as <-. reflexivity.
Qed.
End Deriv.
Print Assumptions C74_derivative.

Section Exp.
Context {F : CField}.
Local Open Scope cr_scope.
Add Ring K_ring139 : (rth F).
Variables (nelec nspin : Z) (ra : ranksarg) (indices : option (list (list Z))) (refwfn : senref) (ps : ccparams F) (refresh : Z) (s : sen F) (ref : N).
Hypothesis CZ : GemSpec.char_zero F.
Hypothesis New : new_sen nelec nspin ra indices refwfn ps false refresh = Ok s.
Hypothesis Ref : cc_ref (sn_cc s) = RSd ref.
Hypothesis Wr : within nspin ref.
(** the overlap is the coefficient of the determinant in exp(T)|ref>, T the amplitude-weighted sum of the excitation
    operators, each guarded: it acts only if the partners of the orbitals it empties are occupied and those of
    the orbitals it fills are empty.  The series may be cut off at any order not below the electrons of ref *)
Theorem C74_overlap : separated (map fst (cc_exops (sn_cc s))) -> forall sd n, within nspin sd -> (total_occ (Some ref) <= total_occ (Some sd))%nat ->
  (total_occ (Some ref) <= n)%nat -> sen_overlap s sd =
  Ok (exp_coeff n (map (fun ei => (nth (snd ei) (cc_params (sn_cc s)) 0, guarded (nspin / 2) (fst ei))) (cc_exops (sn_cc s))) ref sd).
Proof.
  intros Sep sd n Ws El Hn. destruct (sen_ready _ _ _ _ _ _ _ _ _ _ New Ref) as (R & Ns & N2 & Good & Ec). pose proof (proj2 (anns_length sd ref) El) as L.
  assert (T : stable s ref sd) by (exists []; split; [exact Ec|discriminate]).
  assert (Hn' : (length (anns sd ref) <= n)%nat) by (etransitivity; [apply anns_bound|exact Hn]).
  assert (Wr' : within (2 * (nspin / 2)) ref) by (now rewrite N2). assert (Ws' : within (2 * (nspin / 2)) sd) by (now rewrite N2).
  pose proof (exp_srows CZ (cc_exops (sn_cc s)) (cc_ranks (sn_cc s)) (fun i => nth i (cc_params (sn_cc s)) 0) ref sd (nspin / 2) (r_pos _ _ R) (r_keys _ _ R) Good Sep L Wr' Ws') as X.
  destruct (N.eq_dec sd ref) as [->|Ne].
  - rewrite (C74_reference _ _ _ _ _ _ _ _ _ _ New Ref). f_equal. symmetry.
    assert (E : anns ref ref = [] /\ cres ref ref = []).
    { unfold anns, cres. split.
      - destruct (snd (diff_orbs ref ref)) as [|i l] eqn:Ei; [reflexivity|]. assert (H : In i (snd (diff_orbs ref ref))) by (rewrite Ei; now left). apply diff_orbs_In2 in H. destruct H. congruence.
      - destruct (fst (diff_orbs ref ref)) as [|i l] eqn:Ei; [reflexivity|]. assert (H : In i (fst (diff_orbs ref ref))) by (rewrite Ei; now left). apply diff_orbs_In1 in H. destruct H. congruence. }
    destruct E as [Ea Ec'].
    destruct (parts_exist (cc_ranks (sn_cc s)) (anns ref ref) (cres ref ref) (r_pos _ _ R) (r_nd _ _ R) L) as (parts & _ & Hp).
    rewrite (X parts Hp n Hn').
    set (RR := flat_map (part_rows (anns ref ref) (cres ref ref)) (rev parts)).
    assert (H1 : forall r, In r RR -> r = []).
    { intros r Hr. apply (rows_sound _ _ _ (anns_SS _ _) (cres_SS _ _) (r_pos _ _ R) L parts Hp) in Hr. apply row_len in Hr; [|exact (r_pos _ _ R)].
      fold (anns ref ref) in Hr. rewrite Ea in Hr. destruct r; [reflexivity|cbn in Hr; lia]. }
    assert (H2 : In [] RR).
    { destruct (rows_complete (cc_ranks (sn_cc s)) (anns ref ref) (cres ref ref) (anns_SS _ _) (cres_SS _ _) (r_pos _ _ R) parts Hp []) as (r & Hr & P).
      - rewrite Ea, Ec'. split; [constructor|]. split; constructor.
      - apply Permutation_nil in P. subst r. exact Hr. }
    assert (H3 : RR = [[]]).
    { pose proof (rows_distinct _ _ _ (anns_SS ref ref) (cres_SS ref ref) (r_pos _ _ R) L parts Hp) as D. fold RR in D.
      destruct RR as [|r l]; [destruct H2|]. rewrite (H1 r (or_introl eq_refl)) in *. destruct l as [|r' l]; [reflexivity|]. exfalso.
      inversion D; subst. rewrite Forall_forall in H3. apply (H3 r'); [now left|]. rewrite (H1 r'); [constructor|]. right. now left. }
    rewrite H3. cbn [filter row_ok forallb map]. rewrite sumf_cons. unfold sval, word_of, gops, melem, applys, braket. cbn [map flat_map fold_left prodf fold_right sumf].
    rewrite N.eqb_refl. change (sgnr 1) with (1 : F). ring.
  - destruct (stable_rows s ref sd R L T) as (Lr & parts & s' & E & Hp & Pm & _ & _ & G).
    assert (Wr2 : within (2 * (cc_nspin (sn_cc s) / 2)) ref) by (now rewrite Ns). assert (Ws2 : within (2 * (cc_nspin (sn_cc s) / 2)) sd) by (now rewrite Ns).
    rewrite (sen_sum s ref sd R L Wr2 Ws2 Ne Lr s' E G). f_equal. rewrite (X parts Hp n Hn'). rewrite <- (sumf_perm _ _ _ Pm).
    apply sumf_ext. intros r Hr. unfold srow, sval, gsign, inds. rewrite word_keys, Ns. unfold word_of. rewrite !prodf_map. cbn [snd]. ring.
Qed.
(** operators from one list of orbitals to a disjoint one *)
Theorem C74_indices : forall i0 i1, indices = Some [i0; i1] -> (forall z, In z i0 -> ~ In z i1) ->
  forall sd n, within nspin sd -> (total_occ (Some ref) <= total_occ (Some sd))%nat -> (total_occ (Some ref) <= n)%nat -> sen_overlap s sd =
  Ok (exp_coeff n (map (fun ei => (nth (snd ei) (cc_params (sn_cc s)) 0, guarded (nspin / 2) (fst ei))) (cc_exops (sn_cc s))) ref sd).
Proof.
  intros i0 i1 Hi D. apply C74_overlap. pose proof New as New'. apply C74_accepts in New' as (w & r & Ew & _ & Es & _). rewrite Es. cbn [with_ref cc_exops].
  destruct (C46_indices _ _ _ _ _ _ _ _ _ _ Ew _ _ Hi) as [_ H].
  intros e e' z He He' Hz Hz'. apply H in He as (a1 & c1 & S1 & A1 & _), He' as (a2 & c2 & S2 & _ & C2).
  destruct (shape_halves _ _ _ _ S1) as [X1 _], (shape_halves _ _ _ _ S2) as [_ X2]. unfold annihilators, creators in X1, X2.
  rewrite X1 in Hz. rewrite X2 in Hz'. apply (D z); auto.
Qed.
End Exp.
Print Assumptions C74_overlap.
Print Assumptions C74_indices.

(** the stored tables are not observable: after any overlaps, derivatives and new parameters, values are those
    of a new wavefunction with the current parameters *)
Section History.
Context {K : CRing}.
Local Open Scope cr_scope.
Variables (nelec nspin : Z) (ra : ranksarg) (indices : option (list (list Z))) (refwfn : senref) (ps : ccparams K) (refresh : Z) (s : sen K).
Hypothesis New : new_sen nelec nspin ra indices refwfn ps false refresh = Ok s.
Variable ref : N.
Hypothesis Ref : cc_ref (sn_cc s) = RSd ref.
Lemma key_inj : forall sd sd', anns sd ref ++ cres sd ref = anns sd' ref ++ cres sd' ref -> anns sd ref = anns sd' ref /\ cres sd ref = cres sd' ref.
Proof.
  assert (Fa : forall sd, filter (fun z => bit ref (Z.to_nat z)) (anns sd ref ++ cres sd ref) = anns sd ref).
  { intros sd. rewrite filter_app, filter_true, filter_false, app_nil_r; [reflexivity| |]; intros z Hz; [apply c_spec in Hz|apply a_spec in Hz]; tauto. }
  intros sd sd' H. assert (Ha : anns sd ref = anns sd' ref) by (rewrite <- (Fa sd), <- (Fa sd'); now rewrite H).
  split; [exact Ha|]. rewrite Ha in H. now apply app_inv_head in H.
Qed.
Definition tables_ok (s' : sen K) : Prop := exists P combs, sn_cc s' = with_params (sn_cc s) P /\ sn_combs s' = Some combs /\
  forall sd t, dict_get combs (anns sd ref ++ cres sd ref) = Some t -> sen_gen (cc_exops (sn_cc s)) (cc_ranks (sn_cc s)) (anns sd ref) (cres sd ref) = Ok t.
Lemma tables_step : forall s' sd t s'', tables_ok s' -> sen_table s' (anns sd ref) (cres sd ref) = Ok (t, s'') -> tables_ok s''.
Proof.
  intros s' sd t s'' (P & combs & E1 & E2 & H). unfold sen_table. rewrite E2. destruct (dict_get combs (anns sd ref ++ cres sd ref)) as [t0|] eqn:Ed.
  - intros X. injection X as <- <-. exists P, combs. auto.
  - rewrite E1. cbn [with_params cc_exops cc_ranks cc_refresh]. destruct (sen_gen (cc_exops (sn_cc s)) (cc_ranks (sn_cc s)) (anns sd ref) (cres sd ref)) as [t1|] eqn:Eg; [|discriminate].
    cbn [bind]. intros X. injection X as <- <-. eexists P, _. split; [reflexivity|]. split; [reflexivity|].
    intros sd' t' Hd. destruct (list_eq_dec Z.eq_dec (anns sd' ref ++ cres sd' ref) (anns sd ref ++ cres sd ref)) as [Ek|Nk].
    + rewrite Ek, dict_get_set_eq in Hd. injection Hd as <-. apply key_inj in Ek as [-> ->]. exact Eg.
    + rewrite dict_get_set_neq in Hd by exact Nk. destruct (_ && _)%bool; [discriminate|]. now apply H.
Qed.
Lemma tables_later : forall s', later s s' -> tables_ok s'.
Proof.
  induction 1 as [|s' sd v s'' H IH E|s' sd v s'' H IH E|s' P H IH L].
  - destruct (sen_ready _ _ _ _ _ _ _ _ _ _ New Ref) as (_ & _ & _ & _ & Ec). exists (cc_params (sn_cc s)), []. split; [destruct s as [[] ?]; reflexivity|]. split; [exact Ec|discriminate].
  - unfold sen_olp in E. pose proof IH as (P & combs & E1 & _). rewrite E1 in E at 1. cbn [with_params cc_ref] in E. rewrite Ref in E.
    destruct (N.eqb sd ref); [injection E as _ <-; exact IH|]. cbn [excitation_of] in E.
    change (map Z.of_nat (snd (diff_orbs sd ref))) with (anns sd ref) in E. change (map Z.of_nat (fst (diff_orbs sd ref))) with (cres sd ref) in E.
    destruct (sen_table s' (anns sd ref) (cres sd ref)) as [[t s1]|] eqn:Et; [|discriminate]. cbn [bind fst snd] in E.
    destruct (mapM _ t); [|discriminate]. cbn [bind] in E. injection E as _ <-. now apply (tables_step s' sd t).
  - unfold sen_olp_deriv in E. pose proof IH as (P & combs & E1 & _). rewrite E1 in E at 1. cbn [with_params cc_ref] in E. rewrite Ref in E.
    destruct (N.eqb sd ref); [injection E as _ <-; exact IH|]. cbn [excitation_of] in E.
    change (map Z.of_nat (snd (diff_orbs sd ref))) with (anns sd ref) in E. change (map Z.of_nat (fst (diff_orbs sd ref))) with (cres sd ref) in E.
    destruct (sen_table s' (anns sd ref) (cres sd ref)) as [[t s1]|] eqn:Et; [|discriminate]. cbn [bind fst snd] in E.
    destruct (mapM _ t); [|discriminate]. cbn [bind] in E. injection E as _ <-. now apply (tables_step s' sd t).
  - destruct IH as (P' & combs & E1 & E2 & G). exists P, combs. unfold sen_with_params. cbn [sn_cc sn_combs]. rewrite E1. auto.
Qed.
Theorem C74_history : forall s', later s s' -> forall sd ds,
  sen_overlap s' sd = sen_overlap (sen_with_params s (cc_params (sn_cc s'))) sd /\
  sen_overlap_deriv s' sd ds = sen_overlap_deriv (sen_with_params s (cc_params (sn_cc s'))) sd ds.
Proof.
  intros s' H sd ds. destruct (tables_later s' H) as (P & combs & E1 & E2 & G). destruct (sen_ready _ _ _ _ _ _ _ _ _ _ New Ref) as (_ & _ & _ & _ & Ec).
  assert (Q : sn_cc (sen_with_params s (cc_params (sn_cc s'))) = sn_cc s') by (unfold sen_with_params; cbn [sn_cc]; rewrite E1; reflexivity).
  assert (Tb : match sen_table s' (anns sd ref) (cres sd ref), sen_table (sen_with_params s (cc_params (sn_cc s'))) (anns sd ref) (cres sd ref) with
    | Ok p, Ok q => fst p = fst q | Err x, Err y => x = y | _, _ => False end).
  { unfold sen_table. rewrite E2, Q. unfold sen_with_params. cbn [sn_combs]. rewrite Ec. cbn [dict_get length]. rewrite E1. cbn [with_params cc_exops cc_ranks].
    destruct (dict_get combs (anns sd ref ++ cres sd ref)) as [t|] eqn:Ed.
    - rewrite (G sd t Ed). reflexivity.
    - destruct (sen_gen _ _ _ _); reflexivity. }
  set (s2 := sen_with_params s (cc_params (sn_cc s'))) in *. unfold sen_overlap, sen_overlap_deriv, sen_olp, sen_olp_deriv. rewrite Q.
  assert (Rf : cc_ref (sn_cc s') = RSd ref) by (rewrite E1; exact Ref). rewrite Rf. destruct (N.eqb sd ref); [split; reflexivity|]. cbn [excitation_of].
  change (map Z.of_nat (snd (diff_orbs sd ref))) with (anns sd ref). change (map Z.of_nat (fst (diff_orbs sd ref))) with (cres sd ref).
  destruct (sen_table s' (anns sd ref) (cres sd ref)) as [[t1 s3]|x], (sen_table s2 (anns sd ref) (cres sd ref)) as [[t2 s4]|y]; try contradiction; cbn [bind fst snd] in *.
  - subst t2. split; destruct (mapM _ t1); reflexivity.
  - subst y. split; reflexivity.
Qed.
End History.
Print Assumptions C74_history.

(** Findings: with operators among all orbitals (the default) the overlap is not the coefficient of the exponential
    of the guarded operators *)
Theorem C74_default_refuted :
  match ex_senq 2 4 (RanksList [2%Z]) None [2; 3; 5; 7; 11; 13]%Z with
  | Ok s => cc_ref (sn_cc s) = RSd 5 /\
     forall n, In n [2; 3; 4]%nat -> same_q (sen_overlap s 5)
       (Ok (exp_coeff (F := Qc_field) n (map (fun ei => (nth (snd ei) (cc_params (sn_cc s)) 0%cr, guarded 2 (fst ei))) (cc_exops (sn_cc s))) 5 5)) = false
  | Err _ => False
  end.
Proof.
  assert (H : match ex_senq 2 4 (RanksList [2%Z]) None [2; 3; 5; 7; 11; 13]%Z with
    | Ok s => (match cc_ref (sn_cc s) with RSd s => N.eqb s 5 | RCI => false end && forallb (fun n => negb (same_q (sen_overlap s 5)
       (Ok (exp_coeff (F := Qc_field) n (map (fun ei => (nth (snd ei) (cc_params (sn_cc s)) 0%cr, guarded 2 (fst ei))) (cc_exops (sn_cc s))) 5 5)))) [2; 3; 4]%nat)%bool
    | Err _ => false
    end = true) by (vm_compute; reflexivity).
  destruct (ex_senq 2 4 (RanksList [2%Z]) None [2; 3; 5; 7; 11; 13]%Z) as [s|]; [|discriminate].
  apply andb_prop in H as [H1 H3]. split.
  - destruct (cc_ref (sn_cc s)); [|discriminate]. apply N.eqb_eq in H1. now subst.
  - intros n Hn. rewrite forallb_forall in H3. apply H3 in Hn. now apply negb_true_iff in Hn.
Qed.
Print Assumptions C74_default_refuted.

(** ** Examples *)
Open Scope Z_scope.
(** four electrons in four spatial orbitals, operators from the occupied to the virtual orbitals, amplitudes 1, 2, ... *)
Example ex_sen_values :
  let s := ex_sen 4 8 (RanksList [1; 2]) (Some [[0; 1; 4; 5]; [2; 3; 6; 7]]) SRNone (map Z.of_nat (seq 1 52)) in
  map (ex_sen_value s) [51; 204; 102; 85; 170; 150; 105; 5]%N = [Ok 1; Ok 2214; Ok (-24); Ok (-42); Ok (-27); Ok 67; Ok 42; Ok 0] /\
  ex_sen_deriv s 204 [23; -1; 0; 44] = Ok [45; 0; 0; 24] /\ ex_sen_deriv s 204 [52] = Err IndexError /\ ex_sen_deriv s 51 [0] = Err TypeError.
Proof. vm_compute. repeat split; reflexivity. Qed.
(** the guard: a single excitation of one electron of a pair is kept, that of both electrons one after the other is not *)
Example ex_sen_guard :
  let s := ex_sen 2 4 (RanksList [1]) (Some [[0; 2]; [1; 3]]) SRNone [2; 3; 5; 7] in
  map (ex_sen_value s) [5; 6; 9; 10]%N = [Ok 1; Ok 2; Ok 7; Ok 0].
Proof. vm_compute. reflexivity. Qed.
Example ex_sen_refusals :
  ex_sen_value (ex_sen 3 8 RanksNone None SRNone []) 7 = Err ValueError /\
  ex_sen_value (ex_sen 2 4 (RanksList [1]) (Some [[0; 2]; [1; 3]]) (SRSd 7) [2; 3; 5; 7]) 7 = Err ValueError /\
  ex_sen_value (ex_sen 2 4 (RanksList [1]) (Some [[0; 2]; [1; 3]]) (SRCI 2 4 None) [2; 3; 5; 7]) 7 = Err ValueError /\
  ex_sen_value (ex_sen 2 4 (RanksList [1]) (Some [[0; 2]; [1; 3]]) (SRCI 2 4 (Some 0)) [2; 3; 5; 7]) 5 = Err AttributeError /\
  ex_sen_value (ex_sen 2 4 (RanksList [1]) (Some [[0; 2]; [1; 3]]) (SRSd 6) [2; 3; 5; 7]) 6 = Ok 1.
Proof. vm_compute. repeat split; reflexivity. Qed.
