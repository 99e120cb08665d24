(** C62: the pair coupled-cluster wavefunctions (PCCD and the classes derived from it) *)
From Coq Require Import List ZArith NArith Arith Bool Lia Permutation Sorted QArith_base Qcanon.
From Verif Require Import Py BitSpec BitLemmas Slater SlaterBits SlaterBits2 SignSpec SignLemmas Graphs GraphSpec MatchSpec MathTools PermLemmas SdLemmas Combos
  GeneralLemmas BicliqueLemmas P_Slater1 P_Slater2 Fock FockLemmas FockInner Alg GemSpec WfnCI CILemmas CC CCRows CCRows2 CCGen CCSpec CCFock CCExp CCLemmas CCMain CCDeriv
  CCEx CCCacheSpec P_CI P_CCCache P_CC CC PermSpec Pccd PccdSpec PccdRows PccdMain PccdExp PccdNew PccdTop PccdEx.
Import ListNotations.
Local Open Scope nat_scope.

Section C62.
Context {K : CRing}.
Local Open Scope cr_scope.
Add Ring K_ring81 : (rth K).
Variables (c : pclass) (nelec nspin : Z) (ranks : ranksarg) (indices : option (list (list Z))) (refwfn : option N) (ps : ccparams K) (refresh : Z).

(** an object is made only for the default ranks, an even number of electrons, operators restricted by
    [indices] only in the two set classes, and a reference that has the electrons in pairs *)
Theorem C62_arguments : forall given p, new_pcc c nelec nspin ranks indices refwfn ps given refresh = Ok p ->
  ranks = RanksNone /\ (0 < nelec <= nspin)%Z /\ Z.Even nelec /\ Z.Even nspin /\
  (indices = None \/ ((c = PSetD \/ c = PSetSD) /\ exists l0 l1, indices = Some [l0; l1])) /\
  exists ref, cc_ref (p_cc p) = RSd ref /\ has_electrons ref (Z.to_nat nelec) /\
    match refwfn with None => ground nelec nspin = Ok ref | Some sd => sd = ref end.
Proof.
  intros given p New. destruct (new_pcc_built _ _ _ _ _ _ _ _ _ _ New) as (g & ref & B). destruct (pb_nelec _ _ _ _ _ _ _ _ _ _ B) as [Pe Ee].
  destruct (proj2 (proj2 (C04_ground nelec nspin)) g (pb_ground _ _ _ _ _ _ _ _ _ _ B)) as (Hg & _).
  split; [exact (pb_none _ _ _ _ _ _ _ _ _ _ B)|]. destruct (ground_value _ _ _ (pb_ground _ _ _ _ _ _ _ _ _ _ B)) as (Bg & En & _). split; [exact Bg|].
  split; [exists (nelec / 2)%Z; clear - Ee; Z.div_mod_to_equations; lia|]. split; [exact En|]. split.
  - pose proof (pb_exops _ _ _ _ _ _ _ _ _ _ B) as X. destruct indices as [l|]; [right|now left]. unfold stock, pair_exops in X. destruct c; try discriminate; (split; [auto|]).
    + destruct (two_sets _ l) as [s|] eqn:E; [|discriminate]. apply two_sets_ok in E as (l0 & l1 & -> & _). eauto.
    + destruct (two_sets _ l) as [s|] eqn:E; [|discriminate]. apply two_sets_ok in E as (l0 & l1 & -> & _). eauto.
  - exists ref. split; [apply (pb_cc _ _ _ _ _ _ _ _ _ _ B)|]. pose proof (pb_ref _ _ _ _ _ _ _ _ _ _ B) as R. destruct refwfn as [sd|].
    + unfold pair_reference in R. destruct (Z.eqb_spec (Z.of_nat (total_occ (Some sd))) nelec) as [E|]; [|discriminate]. cbn [negb] in R. destruct (_ && _)%bool; [|discriminate]. apply Ok_inj in R. subst ref.
      split; [|reflexivity]. destruct (total_occ_has sd) as (l & N & I & L). exists l. split; [auto|]. split; [auto|]. lia.
    + cbn [pair_reference] in R. split; [|exact R]. rewrite (pb_ground _ _ _ _ _ _ _ _ _ _ B) in R. apply Ok_inj in R. now subst.
Qed.
(** the classes with quadruples need four electrons *)
Theorem C62_quadruples_electrons : forall given p, new_pcc c nelec nspin ranks indices refwfn ps given refresh = Ok p ->
  c = PQuad \/ c = PTripQuad \/ c = PTrip2Quad -> (4 <= nelec)%Z.
Proof.
  intros given p New Hc. destruct (C62_arguments given p New) as (_ & _ & [k Ek] & _). unfold new_pcc in New.
  destruct (assign_nelec CIGeneral nelec) as [ne|] eqn:En; [|discriminate]. cbn [bind] in New.
  assert (ne = nelec) by (unfold assign_nelec in En; destruct (_ <=? _)%Z in En; [discriminate|]; cbn in En; congruence). subst ne.
  destruct (negb _) in New; [discriminate|]. destruct (assign_nspin nspin); [|discriminate]. cbn [bind] in New.
  destruct (pair_ranks c nelec RanksNone) eqn:Er; [|discriminate]. clear New. unfold pair_ranks in Er.
  destruct Hc as [->|[->| ->]]; (destruct (Z.leb_spec nelec 3); [discriminate|lia]).
Qed.

Variables (p : pcc K) (ref : N).
Hypothesis New : new_pcc c nelec nspin ranks indices refwfn ps false refresh = Ok p.
Hypothesis Ref : cc_ref (p_cc p) = RSd ref.
(** the orbitals of a given reference are orbitals of the wavefunction (the code does not check this) *)
Hypothesis Fits : forall i, bit ref i = true -> (Z.of_nat i < nspin)%Z.

(** the operators: those of the ground state determinant for the first seven classes, those of the
    reference for the other four; numbered without gaps *)
Theorem C62_operators : exists g, ground nelec nspin = Ok g /\
  NoDup (map fst (cc_exops (p_cc p))) /\
  cc_exops (p_cc p) = combine (map fst (cc_exops (p_cc p))) (seq 0%nat (length (cc_exops (p_cc p)))) /\
  forall e, In e (map fst (cc_exops (p_cc p))) <->
    operator_of nspin match c with PSen0 | PQuad | PTripQuad | PTrip2Quad => ref | _ => g end c indices e.
Proof.
  destruct (new_pcc_built _ _ _ _ _ _ _ _ _ _ New) as (g & ref' & B). assert (ref' = ref) as -> by (destruct (pb_cc _ _ _ _ _ _ _ _ _ _ B) as (_ & E & _); congruence).
  exists g. split; [exact (pb_ground _ _ _ _ _ _ _ _ _ _ B)|]. destruct (built_keys _ _ _ _ _ _ _ _ _ B Fits) as (N & E & I & _). split; [exact N|]. split.
  - rewrite E at 1. unfold keys_of. now rewrite map_length.
  - intros e. rewrite I. destruct c; reflexivity.
Qed.
(** as many amplitudes as operators, unless the operators are restricted *)
Theorem C62_sizes : indices = None -> (ground nelec nspin = Ok ref \/ (c <> PSen0 /\ c <> PQuad /\ c <> PTripQuad /\ c <> PTrip2Quad)) ->
  length (cc_params (p_cc p)) = length (cc_exops (p_cc p)).
Proof.
  intros Hi H. destruct (new_pcc_built _ _ _ _ _ _ _ _ _ _ New) as (g & ref' & B). assert (ref' = ref) as -> by (destruct (pb_cc _ _ _ _ _ _ _ _ _ _ B) as (_ & E & _); congruence).
  destruct (pb_params _ _ _ _ _ _ _ _ _ _ B) as (d & Ed & ->). pose proof (pb_exops _ _ _ _ _ _ _ _ _ _ B) as X. rewrite Hi in X.
  assert (E : (if pairlike c then g else ref) = g).
  { destruct H as [H|H].
    - rewrite (pb_ground _ _ _ _ _ _ _ _ _ _ B) in H. apply Ok_inj in H. subst g. destruct (pairlike c); reflexivity.
    - destruct c; try reflexivity; exfalso; decompose [and] H; congruence. }
  rewrite E, Ed in X. apply Ok_inj in X. now subst.
Qed.
(** the list used by the filter is current *)
Hypothesis Current : c = PSen0 \/ c = PQuad \/ c = PTripQuad \/ c = PTrip2Quad -> ground nelec nspin = Ok ref.
Hypothesis Sizes : length (cc_params (p_cc p)) = length (cc_exops (p_cc p)).
Lemma c62_ready : exists g, pbuilt c nelec nspin ranks indices refwfn false p g ref /\ pready p ref /\ ptab p ref.
Proof.
  destruct (new_pcc_built _ _ _ _ _ _ _ _ _ _ New) as (g & ref' & B). assert (ref' = ref) as -> by (destruct (pb_cc _ _ _ _ _ _ _ _ _ _ B) as (_ & E & _); congruence).
  exists g. split; [exact B|]. apply (built_pready _ _ _ _ _ _ _ _ _ B Fits); [|exact Sizes]. intros Pc. pose proof (pb_ground _ _ _ _ _ _ _ _ _ _ B) as E.
  rewrite Current in E; [now apply Ok_inj in E|]. destruct c; try discriminate; auto.
Qed.
Section Deriv.
Variable sd : N.
Hypothesis Electrons : (total_occ (Some ref) <= total_occ (Some sd))%nat.
(** the derivative is the slope of the overlap, which is affine in every amplitude; index selection *)
Theorem C62_derivative : exists v D, pair_overlap p sd = Ok v /\ length D = length (cc_params (p_cc p)) /\
  (forall i x p', (i < length (cc_params (p_cc p)))%nat -> pair_assign_params p (CPArray (upd (cc_params (p_cc p)) i x)) = Ok p' ->
     pair_overlap p' sd = Ok (v + (x - nth i (cc_params (p_cc p)) 0) * nth i D 0)) /\
  (forall ds is, Forall2 (selects (length (cc_params (p_cc p)))) ds is -> pair_overlap_deriv p sd ds = Ok (map (fun i => nth i D 0) is)) /\
  (forall k, (forall i, ~ selects (length (cc_params (p_cc p))) k i) -> pair_overlap_deriv p sd [k] = Err IndexError).
Proof.
  destruct c62_ready as (g & B & R & T). pose proof (pr_ready _ _ R) as Rr. set (w := p_cc p) in *.
  assert (As : forall l p', pair_assign_params p (CPArray l) = Ok p' -> p' = set_params p l).
  { intros l p' H. unfold pair_assign_params, cc_assign_params in H. destruct (Nat.eqb _ _); [|discriminate]. cbn [bind] in H. apply Ok_inj in H. now subst. }
  assert (Q : exists v D p', pair_overlap p sd = Ok v /\ length D = length (cc_params w) /\
    (forall i x, (i < length (cc_params w))%nat -> pair_overlap (set_params p (upd (cc_params w) i x)) sd = Ok (v + (x - nth i (cc_params w) 0) * nth i D 0)) /\
    pair_olp_deriv p sd = Ok (D, p')).
  { destruct (N.eq_dec sd ref) as [E|Ne].
    - exists 1. exists (repeat 0 (length (cc_params w))). exists p.
      assert (V : forall P, pair_overlap (set_params p P) sd = Ok 1) by (intros P; unfold pair_overlap, pair_olp, pair_table, set_params; cbn [with_cc p_cc with_params cc_ref]; fold w; rewrite Ref, E, N.eqb_refl; reflexivity).
      split; [rewrite <- (set_same p); apply V|]. split; [apply repeat_length|]. split.
      + intros i x Hi. rewrite V, nth_repeat. f_equal. ring.
      + unfold pair_olp_deriv, pair_table. fold w. rewrite Ref, E, N.eqb_refl. reflexivity.
    - destruct (have_pformulas p ref sd R T (proj2 (anns_length _ _) Electrons) Ne) as (parts & b & _ & _ & [Fv Fs Fg]). 
      set (rr := filter (okc p) _) in *. set (s := sgnr (sgn b)) in *. clearbody rr s. pose proof (Fv _ eq_refl) as V. destruct (Fs _ eq_refl) as (w' & S). rewrite set_same in V, S. fold w in V, S.
      eexists. exists (map (fun dd => s * sumf (rslope w ref sd (cc_params w) dd) rr) (seq 0%nat (length (cc_params w)))). exists w'.
      split; [exact V|]. split; [now rewrite map_length, seq_length|]. split; [|exact S].
      intros i x Hi. rewrite Fv by apply upd_length. fold w. f_equal.
      assert (NE : nth i (map (fun dd => s * sumf (rslope w ref sd (cc_params w) dd) rr) (seq 0%nat (length (cc_params w)))) 0 = s * sumf (rslope w ref sd (cc_params w) i) rr).
      { rewrite (nth_indep _ 0 (s * sumf (rslope w ref sd (cc_params w) 0%nat) rr)) by (now rewrite map_length, seq_length).
        rewrite (map_nth (fun dd => s * sumf (rslope w ref sd (cc_params w) dd) rr)), seq_nth by auto. reflexivity. }
      rewrite NE.
      rewrite (sumf_ext _ (fun r => rval w (anns sd ref) (cres sd ref) r + (x - nth i (cc_params w) 0) * rslope w ref sd (cc_params w) i r)).
      + rewrite (sumf_ext (rval (with_params w (cc_params w)) (anns sd ref) (cres sd ref)) (rval w (anns sd ref) (cres sd ref))) by (intros; now rewrite with_same).
        rewrite sumf_add, sumf_mul_l. ring.
      + intros r Hr. destruct (Fg r Hr) as [G1 G2].
        rewrite (rval_upd w ref sd Rr (proj2 (anns_length _ _) Electrons) (cc_params w) i x r G1 G2 Hi). now rewrite with_same. }
  destruct Q as (v & D & p' & E1 & L & H & E2). exists v, D. split; [exact E1|]. split; [exact L|]. split; [intros i x q Hi Hq; apply As in Hq; subst q; now apply H|].
  unfold pair_overlap_deriv. rewrite E2. cbn [bind fst]. rewrite L. split.
  - induction 1 as [|k i ds is Hk H' IH]; [reflexivity|]. cbn [mapM map].
    rewrite (proj1 (np_index_ok _ _ _) Hk). cbn [bind]. rewrite IH. reflexivity.
  - intros k Hk. cbn [mapM]. destruct (np_index (length (cc_params w)) k) as [i|x] eqn:E; [exfalso; apply (Hk i); now apply np_index_ok|].
    unfold np_index in E. destruct (_ && _)%bool; [discriminate|]. injection E as <-. reflexivity.
Qed.
End Deriv.
(** a sequence of calls returns what each call returns on a new object with the same amplitudes: the
    stored tables, which _olp and _olp_deriv filter in different ways, do not show *)
Theorem C62_history : forall h, Forall (reaches ref) h -> pair_run p h = pair_plain p h.
Proof.
  destruct c62_ready as (g & B & R & T). clear Current Sizes.
  cut (forall h P c1, Forall (reaches ref) h -> ptab (with_cc p (with_combs (p_cc p) c1)) ref -> length P = length (cc_params (p_cc p)) ->
     pair_run (with_cc p (with_combs (with_params (p_cc p) P) c1)) h = pair_plain (set_params p P) h).
  { intros H h Hh. specialize (H h (cc_params (p_cc p)) (cc_combs (p_cc p)) Hh). rewrite set_same in H. rewrite with_same, (with_combs_same _ _ eq_refl) in H.
    replace (with_cc p (p_cc p)) with p in H by (destruct p; reflexivity). now apply H. }
  clear New. induction h as [|q h IH]; intros P c1 Hh T1 LP; [reflexivity|]. apply Forall_inv in Hh as Hq. apply Forall_inv_tail in Hh.
  set (p1 := with_cc p (with_combs (p_cc p) c1)).
  assert (R1 : pready p1 ref) by (destruct R as [[] R2 R3]; constructor; [constructor|..]; auto).
  assert (Step : forall sd A (f : cc K -> multi -> res A) x scale, (forall w c m, f (with_combs w c) m = f w m) -> (total_occ (Some ref) <= total_occ (Some sd))%nat ->
    forall occs, occs = (fun sd _ => zoccs sd) \/ occs = (fun _ ref => zoccs ref) ->
    exists r, (do z <- pair_table (set_params p P) sd occs x f scale; Ok (fst z)) = r /\
      match r with
      | Ok v => exists c2, pair_table (with_cc p (with_combs (with_params (p_cc p) P) c1)) sd occs x f scale = Ok (v, with_cc p (with_combs (with_params (p_cc p) P) c2)) /\
                 ptab (with_cc p (with_combs (p_cc p) c2)) ref
      | Err e => pair_table (with_cc p (with_combs (with_params (p_cc p) P) c1)) sd occs x f scale = Err e
      end).
  { intros sd A f x scale Hf He occs Ho. destruct (N.eq_dec sd ref) as [E|Ne].
    - exists (Ok x). unfold pair_table. cbn [set_params with_cc p_cc with_params with_combs cc_ref]. rewrite Ref, E, N.eqb_refl. split; [reflexivity|]. exists c1. auto.
    - apply anns_length in He. destruct (pair_table_eq p ref sd R T He Ne) as (m & parts & b & w' & _ & _ & _ & Sg & (c2 & ->) & _ & (m0 & G & Km) & E1 & E2).
      destruct (pair_table_eq p1 ref sd R1 T1 He Ne) as (m' & parts' & b' & w' & _ & _ & _ & Sg' & (c3 & ->) & T3 & (m0' & G' & Km') & E1' & E2').
      cbn [p1 with_cc p_cc p_ops with_combs cc_exops cc_ranks cc_nspin] in G', Km'. rewrite G in G'. apply Ok_inj in G'. subst m0'. rewrite Km in Km'. apply Ok_inj in Km'. subst m'.
      rewrite Sg in Sg'. apply Ok_inj in Sg'. rewrite <- Sg' in E1', E2'. clear Sg Sg' G Km.
      assert (Hf2 : forall c, f (with_params (with_combs (p_cc p) c) P) m = f (with_params (p_cc p) P) m) by (intros c0; exact (Hf (with_params (p_cc p) P) c0 m)).
      exists (do v <- f (with_params (p_cc p) P) m; Ok (scale (sgnr (sgn b)) v)). split.
      + destruct Ho as [-> | ->]; rewrite ?E1, ?E2, Hf2; destruct (f (with_params (p_cc p) P) m); reflexivity.
      + assert (X : pair_table (with_cc p (with_combs (with_params (p_cc p) P) c1)) sd occs x f scale = do v <- f (with_params (p_cc p) P) m; Ok (scale (sgnr (sgn b)) v, with_cc p (with_combs (with_params (p_cc p) P) c3))).
        { specialize (E1' P A x f scale). specialize (E2' P A x f scale). change (set_params p1 P) with (with_cc p (with_combs (with_params (p_cc p) P) c1)) in E1', E2'.
          destruct Ho as [-> | ->]; rewrite ?E1', ?E2'; unfold p1; cbn [with_cc p_cc]; rewrite <- (Hf2 c3); reflexivity. }
        rewrite X. destruct (f (with_params (p_cc p) P) m) as [v|e]; cbn [bind]; [|reflexivity]. exists c3. split; [reflexivity|exact T3]. }
  destruct q as [sd|sd ds|l]; cbn [pair_run pair_plain].
  - unfold pair_overlap, pair_olp. destruct (Step sd K amplitudes 1 (fun s v => s * v) (fun _ _ _ => eq_refl) Hq _ (or_introl eq_refl)) as (r & E & H). rewrite E. destruct r as [v|e].
    + destruct H as (c2 & H & T2). rewrite H. f_equal. now apply IH.
    + rewrite H. f_equal. now apply IH.
  - unfold pair_overlap_deriv, pair_olp_deriv. cbn [with_cc with_combs with_params set_params p_cc cc_params].
    destruct (Step sd (list K) amplitudes_deriv (repeat 0 (length P)) (fun s v => map (fun x => s * x) v) (fun _ _ _ => eq_refl) Hq _ (or_intror eq_refl)) as (r & E & H).
    cbn [with_cc with_combs with_params set_params p_cc cc_params] in E, H. destruct r as [v|e].
    + destruct H as (c2 & H & T2). rewrite H. destruct (pair_table _ sd (fun _ ref => zoccs ref) _ _ _) as [[v' p']|] in E |- *; [|discriminate]. cbn [bind fst] in E. apply Ok_inj in E. subst v'.
      cbn [bind fst]. f_equal. now apply IH.
    + rewrite H. destruct (pair_table _ sd (fun _ ref => zoccs ref) _ _ _) as [[v' p']|] in E |- *; [discriminate|]. cbn [bind] in *. injection E as ->. f_equal. now apply IH.
  - unfold pair_assign_params, cc_assign_params. cbn [with_cc with_combs with_params set_params p_cc cc_params cc_exops cc_ref cc_class cc_nelec cc_nspin cc_ranks cc_refresh cc_combs].
    destruct (Nat.eqb _ _) eqn:El; cbn [bind]; [|f_equal; now apply IH]. f_equal. apply (IH l c1); auto. apply Nat.eqb_eq in El. rewrite (r_params _ _ (pr_ready _ _ R)). unfold keys_of. rewrite map_length. exact El.
Qed.
End C62.

Section C62_overlap.
Context {F : CField}.
Local Open Scope cr_scope.
Add Ring K_ring82 : (rth F).
Variables (c : pclass) (nelec nspin : Z) (ranks : ranksarg) (indices : option (list (list Z))) (refwfn : option N) (ps : ccparams F) (refresh : Z)
  (p : pcc F) (ref : N).
Hypothesis New : new_pcc c nelec nspin ranks indices refwfn ps false refresh = Ok p.
Hypothesis Ref : cc_ref (p_cc p) = RSd ref.
Hypothesis Fits : forall i, bit ref i = true -> (Z.of_nat i < nspin)%Z.
Hypothesis Current : c = PSen0 \/ c = PQuad \/ c = PTripQuad \/ c = PTrip2Quad -> ground nelec nspin = Ok ref.
Hypothesis Sizes : length (cc_params (p_cc p)) = length (cc_exops (p_cc p)).
Hypothesis CZ : char_zero F.
(** operators with their amplitudes, those whose two halves are not in increasing order left out *)
Let T (P : list F) (l : list (list Z * nat)) : list (F * list Z) := map (fun ei => (nth (snd ei) P 0, fst ei)) (filter (fun ei => ordered (fst ei)) l).
Lemma f62_ready : exists g, pbuilt c nelec nspin ranks indices refwfn false p g ref /\ (pairlike c = false -> ref = g) /\ pready p ref /\ ptab p ref /\ cc_nspin (p_cc p) = nspin /\
  (forall e, In e (keys_of (p_cc p)) -> ordered e = true -> good_key (cc_ranks (p_cc p)) e) /\ separated (keys_of (p_cc p)).
Proof.
  destruct (c62_ready _ _ _ _ _ _ _ _ _ _ New Ref Fits Current Sizes) as (g & B & R & Tb). exists g. split; [auto|].
  assert (Cu : pairlike c = false -> ref = g).
  { intros Pc. pose proof (pb_ground _ _ _ _ _ _ _ _ _ _ B) as E. rewrite Current in E; [now apply Ok_inj in E|]. destruct c; try discriminate; auto. }
  split; [auto|]. split; [auto|]. split; [auto|]. split; [apply (pb_cc _ _ _ _ _ _ _ _ _ _ B)|]. split.
  - eapply built_ordered; eauto.
  - eapply built_separated; eauto.
Qed.
Lemma set_overlap : forall P sd n, length P = length (cc_params (p_cc p)) -> (total_occ (Some ref) <= total_occ (Some sd))%nat -> (total_occ (Some ref) <= n)%nat ->
  pair_overlap (set_params p P) sd = Ok (restricted_exp (compatible (nspin / 2)) n (T P (cc_exops (p_cc p))) ref sd).
Proof.
  intros P sd n L H Hn. destruct f62_ready as (g & B & Cu & R & Tb & En & G & S). clear Current Sizes. apply anns_length in H.
  rewrite (top_restricted (set_params p P) ref (set_ready p ref P R L) (set_tab p ref P Tb) G S CZ sd n H); [|pose proof (anns_bound sd ref); lia].
  cbn [set_params with_cc p_cc with_params cc_nspin]. rewrite En. reflexivity.
Qed.
(** the overlap: the exponential restricted to products in which no single excitation empties one
    orbital of a pair whose other orbital is emptied too *)
Theorem C62_overlap : forall sd n, (total_occ (Some ref) <= total_occ (Some sd))%nat -> (total_occ (Some ref) <= n)%nat ->
  pair_overlap p sd = Ok (restricted_exp (compatible (nspin / 2)) n
    (map (fun ei => (nth (snd ei) (cc_params (p_cc p)) 0, fst ei)) (filter (fun ei => ordered (fst ei)) (cc_exops (p_cc p)))) ref sd).
Proof. intros sd n H Hn. rewrite <- (set_same p) at 1. now apply set_overlap. Qed.
(** without [indices] and without quadruple excitations all operators are in order *)
Theorem C62_ordered : indices = None -> c <> PQuad -> c <> PTripQuad -> c <> PTrip2Quad ->
  filter (fun ei => ordered (fst ei)) (cc_exops (p_cc p)) = cc_exops (p_cc p).
Proof.
  intros Ei C1 C2 C3. destruct f62_ready as (g & B & Cu & R & Tb & En & G & S). destruct (built_keys _ _ _ _ _ _ _ _ _ B Fits) as (_ & _ & I & _).
  assert (O : forall e, In e (keys_of (p_cc p)) -> ordered e = true).
  { intros e He. apply I in He. set (base := if pairlike c then g else ref) in *. clearbody base. pose proof (pb_even _ _ _ _ _ _ _ _ _ B) as Ev.
    clear - He Ei C1 C2 C3 Ev. subst indices.
    assert (S1 : forall Q : Z -> Z -> Prop, single base Q e -> ordered e = true) by (intros Q (x & v & -> & _); reflexivity).
    assert (S2 : forall Q : Z -> Z -> Prop, (forall x y, Q x y -> (x < y)%Z) -> from_pair nspin base Q e -> ordered e = true).
    { intros Q HQ (i & x & y & -> & [Oi _] & Ai & Hq). apply HQ in Hq. unfold alpha in Ai. unfold ordered, emptied. cbn [length Nat.div Nat.divmod fst firstn skipn increasingb].
      rewrite !andb_true_iff. repeat split; apply Z.ltb_lt; lia. }
    assert (P1 : forall x y, (vacant nspin base x /\ alpha nspin x /\ y = (x + nspin / 2)%Z) -> (x < y)%Z).
    { intros x y ([B1 _] & A & ->). unfold alpha in A. lia. }
    assert (P2 : forall x y, to_two nspin base x y -> (x < y)%Z) by (intros x y (_ & _ & L); exact L).
    assert (P3 : forall x y, set0 nspin base None x /\ set1 nspin base None y -> (x < y)%Z) by (intros x y ((_ & A) & (_ & B)); unfold alpha in *; lia).
    destruct c; cbn [operator_of] in He; try congruence; unfold pair_to_pair in He;
      solve [ exact (S2 _ P1 He) | exact (S2 _ P2 He) | exact (S2 _ P3 He) | destruct He as [He|He]; first [exact (S1 _ He) | exact (S2 _ P1 He) | exact (S2 _ P2 He) | exact (S2 _ P3 He)]]. }
  clear - O. unfold keys_of in O. induction (cc_exops (p_cc p)) as [|x l IH]; [reflexivity|]. cbn [filter]. rewrite (O (fst x)) by (left; reflexivity). f_equal. apply IH. intros e He. apply O. now right.
Qed.
(** the amplitude of an operator that is not in order never matters *)
Theorem C62_unordered : forall e i x p' sd, In (e, i) (cc_exops (p_cc p)) -> ordered e = false ->
  pair_assign_params p (CPArray (upd (cc_params (p_cc p)) i x)) = Ok p' -> (total_occ (Some ref) <= total_occ (Some sd))%nat -> pair_overlap p' sd = pair_overlap p sd.
Proof.
  intros e i x p' sd Hi O A H. unfold pair_assign_params, cc_assign_params in A. destruct (Nat.eqb _ _); [|discriminate]. cbn [bind] in A. apply Ok_inj in A. subst p'.
  change (pair_overlap (set_params p (upd (cc_params (p_cc p)) i x)) sd = pair_overlap p sd). transitivity (pair_overlap (set_params p (cc_params (p_cc p))) sd); [|now rewrite set_same].
  rewrite (set_overlap (upd (cc_params (p_cc p)) i x) sd _ (upd_length _ _ _) H (le_n _)), (set_overlap (cc_params (p_cc p)) sd _ eq_refl H (le_n _)). do 2 f_equal. unfold T. apply map_ext_in. intros [e' j] Hj. apply filter_In in Hj as [Hj Oj]. cbn [fst snd] in *. f_equal.
  apply nth_upd_neq. intros <-. destruct f62_ready as (g & B & Cu & R & _). pose proof (r_exops _ _ (pr_ready _ _ R)) as E. rewrite E in Hi, Hj.
  apply combine_seq_In in Hi as [_ Hi]. apply combine_seq_In in Hj as [_ Hj]. assert (e = e') by congruence. congruence.
Qed.
(** in particular no quadruple excitation of two pairs contributes, in the three classes that have them *)
Theorem C62_quadruples_refuted : c = PQuad \/ c = PTripQuad \/ c = PTrip2Quad -> forall e, two_pairs nspin ref e ->
  exists i, In (e, i) (cc_exops (p_cc p)) /\ forall x p' sd, pair_assign_params p (CPArray (upd (cc_params (p_cc p)) i x)) = Ok p' ->
    (total_occ (Some ref) <= total_occ (Some sd))%nat -> pair_overlap p' sd = pair_overlap p sd.
Proof.
  intros Hc e He. destruct f62_ready as (g & B & Cu & R & Tb & En & G & S). destruct (built_keys _ _ _ _ _ _ _ _ _ B Fits) as (_ & _ & I & _).
  assert (Hk : In e (keys_of (p_cc p))) by (apply I; destruct Hc as [Hc|[Hc|Hc]]; rewrite Hc; cbn [pairlike operator_of]; auto).
  apply in_map_iff in Hk as ([e' i] & Ee & Hi). cbn [fst] in Ee. subst e'. exists i. split; [auto|]. intros x p' sd A H. eapply C62_unordered; eauto.
  destruct He as (a & b & u & v & -> & [Oa _] & _ & L & Ab & _). unfold alpha in Ab. unfold ordered, emptied. cbn [length Nat.div Nat.divmod fst firstn skipn increasingb].
  apply andb_false_iff. left. apply andb_false_iff. right. apply andb_false_iff. left. apply Z.ltb_ge. lia.
Qed.
(** the classes with doubles only: the plain exponential *)
Theorem C62_doubles : c = PPair \/ c = PGD \/ c = PSetD -> forall sd n, (total_occ (Some ref) <= total_occ (Some sd))%nat -> (total_occ (Some ref) <= n)%nat ->
  pair_overlap p sd = Ok (exp_coeff n (map (fun ei => (nth (snd ei) (cc_params (p_cc p)) 0, excitation (fst ei))) (filter (fun ei => ordered (fst ei)) (cc_exops (p_cc p)))) ref sd).
Proof.
  intros Hc sd n H Hn. destruct f62_ready as (g & B & Cu & R & Tb & En & G & S). destruct (built_keys _ _ _ _ _ _ _ _ _ B Fits) as (_ & _ & I & _). apply anns_length in H.
  apply (top_plain p ref R Tb G S CZ); [|exact H|pose proof (anns_bound sd ref); lia]. intros e He. apply in_map_iff in He as (x & <- & Hx). apply filter_In in Hx as [Hx _].
  apply (in_map fst) in Hx. apply I in Hx. destruct Hc as [Hc|[Hc|Hc]]; rewrite Hc in Hx; cbn [operator_of] in Hx; destruct Hx as (i & x0 & y & -> & _); discriminate.
Qed.
Lemma f62_one : c <> PQuad -> c <> PTripQuad -> c <> PTrip2Quad -> forall e, In e (keys_of (p_cc p)) -> from_one (nspin / 2) e.
Proof.
  intros C1 C2 C3 e He. destruct f62_ready as (g & B & Cu & R & Tb & En & G & S). destruct (built_keys _ _ _ _ _ _ _ _ _ B Fits) as (_ & _ & I & _). apply I in He.
  pose proof (occ_base _ _ _ _ _ _ _ _ _ B Fits) as Ob. set (base := if pairlike c then g else ref) in *. clearbody base. pose proof (pb_even _ _ _ _ _ _ _ _ _ B) as Ev.
  clear - He C1 C2 C3 Ev Ob.
  assert (S1 : forall Q : Z -> Z -> Prop, single base Q e -> from_one (nspin / 2) e).
  { intros Q (x & v & -> & O & _). left. exists x, v. split; auto. apply Ob in O as [O _]. lia. }
  assert (S2 : forall Q : Z -> Z -> Prop, from_pair nspin base Q e -> from_one (nspin / 2) e).
  { intros Q (i & x & y & -> & [O _] & A & _). right. exists i, x, y. split; auto. }
  destruct c; cbn [operator_of] in He; try congruence; unfold pair_to_pair in He; solve [exact (S2 _ He) | destruct He as [He|He]; [exact (S1 _ He)|exact (S2 _ He)]].
Qed.
(** the eight classes with single excitations and excitations of one pair: a product over the spatial
    orbitals of one plus all operators, singles and doubles, that empty orbitals of that spatial orbital *)
Theorem C62_product : c <> PQuad -> c <> PTripQuad -> c <> PTrip2Quad -> forall sd, (total_occ (Some ref) <= total_occ (Some sd))%nat ->
  pair_overlap p sd = Ok (coeff sd (product_state (map (fun i => excitations (map (fun ei : list Z * nat => (nth (snd ei) (cc_params (p_cc p)) 0, fst ei))
    (filter (fun ei => (spatial (nspin / 2) (hd 0%Z (fst ei)) =? i)%Z) (filter (fun ei => ordered (fst ei)) (cc_exops (p_cc p)))))) (map Z.of_nat (seq 0 (Z.to_nat (nspin / 2))))) ref)).
Proof.
  intros C1 C2 C3 sd H. destruct f62_ready as (g & B & Cu & R & Tb & En & G & S). apply anns_length in H.
  rewrite (top_product p ref R Tb G S); [rewrite En; reflexivity| |exact H]. intros e He. rewrite En. apply (f62_one C1 C2 C3). apply in_map_iff in He as (x & <- & Hx).
  apply filter_In in Hx as [Hx _]. now apply in_map.
Qed.
(** PCCD: the product of the docstring, with the amplitude of opposite sign *)
Theorem C62_documented : c = PPair -> forall sd, (total_occ (Some ref) <= total_occ (Some sd))%nat ->
  pair_overlap p sd = Ok (coeff sd (product_state (map (fun i => map (fun ei : list Z * nat => (- nth (snd ei) (cc_params (p_cc p)) 0, documented (fst ei)))
    (filter (fun ei => (hd 0%Z (fst ei) =? i)%Z) (cc_exops (p_cc p)))) (map Z.of_nat (seq 0 (Z.to_nat (nspin / 2))))) ref)).
Proof.
  intros Hc sd H. rewrite C62_product by (rewrite ?Hc; auto; discriminate). do 2 f_equal. unfold product_state.
  destruct f62_ready as (g & B & Cu & R & Tb & En & G & S). destruct (built_keys _ _ _ _ _ _ _ _ _ B Fits) as (_ & _ & I & J).
  assert (Ei : indices = None) by (destruct J as [J|(J & _)]; [exact J|rewrite Hc in J; discriminate]).
  rewrite C62_ordered by (auto; rewrite Hc; discriminate). pose proof (pb_even _ _ _ _ _ _ _ _ _ B) as Ev.
  assert (Op : forall e, In e (keys_of (p_cc p)) -> exists i a, e = [i; i + nspin / 2; a; a + nspin / 2]%Z /\ (0 <= i < nspin / 2)%Z /\ (0 <= a < nspin / 2)%Z).
  { intros e He. apply I in He. rewrite Hc in He. destruct He as (i & x & y & -> & [Oi _] & Ai & [Vx _] & Ax & ->). unfold alpha in *. exists i, x. split; [reflexivity|]. split; [split; assumption|split; [apply Vx|assumption]]. }
  clear - Op. generalize [(1 : F, ref)]. induction (map Z.of_nat (seq 0 (Z.to_nat (nspin / 2)))) as [|i l IH]; intros v; [reflexivity|]. cbn [map fold_left]. rewrite IH. f_equal.
  clear IH. unfold one_plus. f_equal. unfold apply_sum, excitations. rewrite !map_map. unfold keys_of in Op.
  induction (cc_exops (p_cc p)) as [|[e k] d IHd]; [reflexivity|]. cbn [filter fst].
  assert (IHd' := IHd (fun e He => Op e (or_intror He))). clear IHd. destruct (Op e (or_introl eq_refl)) as (i0 & a & -> & B1 & B2). cbn [hd].
  assert (Es : spatial (nspin / 2) i0 = i0) by (unfold spatial; destruct (Z.ltb_spec i0 (nspin / 2)); lia). rewrite Es. destruct (i0 =? i)%Z; [|exact IHd'].
  cbn [map flat_map fst snd]. f_equal; [|exact IHd']. clear IHd' Op. unfold apply_ops. induction v as [|[y n] v IHv]; [reflexivity|]. cbn [flat_map snd fst map].
  rewrite !map_app. f_equal; [|exact IHv]. unfold documented, excitation. cbn [length Nat.div Nat.divmod fst firstn skipn map app]. set (A := Z.to_nat a). set (B := Z.to_nat (a + nspin / 2)).
  assert (Nab : A <> B) by (unfold A, B; lia). clearbody A B. change [Ann (Z.to_nat i0); Ann (Z.to_nat (i0 + nspin / 2)); Cre A; Cre B] with ([Ann (Z.to_nat i0); Ann (Z.to_nat (i0 + nspin / 2))] ++ [Cre A; Cre B]).
  change [Ann (Z.to_nat i0); Ann (Z.to_nat (i0 + nspin / 2)); Cre B; Cre A] with ([Ann (Z.to_nat i0); Ann (Z.to_nat (i0 + nspin / 2))] ++ [Cre B; Cre A]).
  rewrite !applys_app. destruct (applys _ (Some (false, n))) as [[b m]|]; [|reflexivity].
  assert (Sw : applys [Cre A; Cre B] (Some (b, m)) = xor_ket true (applys [Cre B; Cre A] (Some (b, m)))) by (rewrite !applys_cons; apply (apply1_swap true true B A); auto). rewrite Sw.
  destruct (applys [Cre B; Cre A] (Some (b, m))) as [[b' m']|]; [|reflexivity]. destruct b'; cbn [xor_ket xorb map fst snd]; (apply f_equal2; [apply f_equal2; [|reflexivity]|reflexivity]); unfold sgn, sgnr; cbn; ring.
Qed.
End C62_overlap.
Print Assumptions C62_arguments.
Print Assumptions C62_quadruples_electrons.
Print Assumptions C62_operators.
Print Assumptions C62_sizes.
Print Assumptions C62_derivative.
Print Assumptions C62_history.
Print Assumptions C62_overlap.
Print Assumptions C62_ordered.
Print Assumptions C62_unordered.
Print Assumptions C62_quadruples_refuted.
Print Assumptions C62_doubles.
Print Assumptions C62_product.
Print Assumptions C62_documented.

(** ** witnesses *)
Section C62_given.
Context {K : CRing}.
(** with exop_combinations passed, nothing is stored and every overlap but that of the reference fails *)
Theorem C62_given_refuted : forall c nelec nspin ranks indices refwfn (ps : ccparams K) refresh p ref sd,
  new_pcc c nelec nspin ranks indices refwfn ps true refresh = Ok p -> cc_ref (p_cc p) = RSd ref -> sd <> ref -> pair_overlap p sd = Err AttributeError.
Proof.
  intros c nelec nspin ranks indices refwfn ps refresh p ref sd New Hr Hsd. destruct (new_pcc_built _ _ _ _ _ _ _ _ _ _ New) as (g & ref' & B).
  unfold pair_overlap, pair_olp, pair_table. rewrite Hr. apply N.eqb_neq in Hsd. rewrite Hsd. unfold excitation_of. destruct (diff_state ref sd) as (b & Eb). rewrite sign_excite_eq, Eb. cbn [bind].
  pose proof (pb_combs _ _ _ _ _ _ _ _ _ _ B) as E. cbn in E. unfold get_multi. now rewrite E.
Qed.
End C62_given.
Print Assumptions C62_given_refuted.
(** PCCD with two electrons in three spatial orbitals: the docstring has the opposite sign *)
Theorem C62_documented_refuted : match ex_pair_q PPair 2 6 None 2 with
  | Ok p => same_q (pair_overlap p 18) (Ok (ex_documented p (Q2Qc (inject_Z 1)) 6 9 18 : fring Qc_field)) = false /\
      same_q (pair_overlap p 18) (Ok (ex_documented p (Q2Qc (inject_Z (-1))) 6 9 18 : fring Qc_field)) = true
  | Err _ => False
  end.
Proof. vm_compute. split; reflexivity. Qed.
(** CCSDsen0 with two electrons in two spatial orbitals: the product of the docstring contains the
    product of two single excitations, the overlap does not, whatever the sign of the pair excitation *)
Theorem C62_sen0_refuted : match ex_pair_q PSen0 2 4 None 5 with
  | Ok p => same_q (pair_overlap p 10) (Ok (ex_sen0_documented p (Q2Qc (inject_Z 1)) 4 5 10 : fring Qc_field)) = false /\
      same_q (pair_overlap p 10) (Ok (ex_sen0_documented p (Q2Qc (inject_Z (-1))) 4 5 10 : fring Qc_field)) = false
  | Err _ => False
  end.
Proof. vm_compute. split; reflexivity. Qed.
(** the first seven classes keep the operators of the ground state determinant when the reference is
    another determinant: no pair of the reference moves *)
Theorem C62_reference_refuted : ex_pair_ops (ex_pair PPair 2 6 None (Some 18%N) 2) = Ok [[0; 3; 1; 4]; [0; 3; 2; 5]]%Z /\
  map (ex_pair_value (ex_pair PPair 2 6 None (Some 18%N) 2)) [18; 9; 36]%N = [Ok 1; Ok 0; Ok 0]%Z.
Proof. split; vm_compute; reflexivity. Qed.
(** the other four classes have the operators of the reference, but the filter looks them up in the list
    of the ground state determinant: the overlap with an excited determinant is lost *)
Theorem C62_stale_refuted : ex_pair_ops (ex_pair PSen0 4 6 None (Some 45%N) 10) = Ok [[0; 1]; [0; 4]; [2; 1]; [2; 4]; [3; 1]; [3; 4]; [5; 1]; [5; 4]; [0; 3; 1; 4]; [2; 5; 1; 4]]%Z /\
  melem 43 (excitation [2; 1]%Z) 45 = 1%Z /\ melem 46 (excitation [0; 1]%Z) 45 = 1%Z /\
  map (ex_pair_value (ex_pair PSen0 4 6 None (Some 45%N) 10)) [46; 43]%N = [Ok 2; Ok 0]%Z.
Proof. repeat split; vm_compute; reflexivity. Qed.
(** orbitals chosen by [indices]: the number of amplitudes is that of the default operators, and an
    operator whose orbitals are not in order is lost *)
Theorem C62_indices_refuted : let p := ex_pair PSetD 2 6 (Some [[1; 2; 6]; [4; 5; 7]]%Z) None 4 in
  ex_pair_ops p = Ok [[0; 3; 1; 4]; [0; 3; 1; 5]; [0; 3; 1; 7]; [0; 3; 2; 4]; [0; 3; 2; 5]; [0; 3; 2; 7]; [0; 3; 6; 4]; [0; 3; 6; 5]; [0; 3; 6; 7]]%Z /\
  map (ex_pair_value p) [18; 36; 132; 80]%N = [Ok (-2); Err IndexError; Err IndexError; Ok 0]%Z /\
  ex_pair_ops (ex_pair PSetD 2 6 (Some [[4; 5]; [1; 2]]%Z) None 4) = Ok [[0; 3; 4; 1]; [0; 3; 4; 2]; [0; 3; 5; 1]; [0; 3; 5; 2]]%Z /\
  ex_pair_value (ex_pair PSetD 2 6 (Some [[4; 5]; [1; 2]]%Z) None 4) 18 = Ok 0%Z /\
  ex_pair_ops (ex_pair PSetSD 2 6 (Some [[1]; [4]]%Z) None 8) = Ok [[0; 1]; [3; 4]; [0; 3; 1; 4]; [0; 3; 1; 5]; [0; 3; 2; 4]; [0; 3; 2; 5]]%Z.
Proof. repeat split; vm_compute; reflexivity. Qed.
(** ** examples *)
(** all hypotheses of the theorems hold, and the values are not trivial *)
Example C62_pair_ex : ex_pair_ops (ex_pair PPair 4 8 None None 4) = Ok [[0; 4; 2; 6]; [0; 4; 3; 7]; [1; 5; 2; 6]; [1; 5; 3; 7]]%Z /\
  map (ex_pair_value (ex_pair PPair 4 8 None None 4)) [51; 204; 102; 85; 83]%N = [Ok 1; Ok 22; Ok (-2); Ok (-4); Ok 0]%Z /\
  ex_pair_deriv (ex_pair PPair 4 8 None None 4) 204 [0; 1; 2; 3; -1]%Z = Ok [5; 4; 3; 2; 2]%Z /\
  ex_pair_deriv (ex_pair PPair 4 8 None None 4) 204 [4]%Z = Err IndexError.
Proof. repeat split; vm_compute; reflexivity. Qed.
Example C62_sen0_ex : ex_pair_ops (ex_pair PSen0 2 4 None None 5) = Ok [[0; 1]; [0; 3]; [2; 1]; [2; 3]; [0; 2; 1; 3]]%Z /\
  map (ex_pair_value (ex_pair PSen0 2 4 None None 5)) [5; 6; 12; 9; 10]%N = [Ok 1; Ok 2; Ok (-3); Ok 5; Ok (-6)]%Z /\
  ex_pair_deriv (ex_pair PSen0 2 4 None None 5) 10 [0; 3; 4]%Z = Ok [0; 0; -1]%Z.
Proof. repeat split; vm_compute; reflexivity. Qed.
(** AP1roGSDspin with four electrons: singles of different spatial orbitals are multiplied *)
Example C62_spin_ex : map (ex_pair_value (ex_pair PSpin 4 8 None None 12)) [51; 204; 60; 53; 54; 102]%N = [Ok 1; Ok 262; Ok (-2); Ok 4; Ok (-2); Ok (-10)]%Z.
Proof. vm_compute. reflexivity. Qed.
(** an amplitude of a quadruple excitation of CCSDQ does not matter *)
Example C62_quadruples_ex : (do l <- ex_pair_ops (ex_pair PQuad 4 8 None None 53); Ok (skipn 51 l)) = Ok [[4; 5; 6; 7]; [0; 4; 1; 5; 2; 6; 3; 7]]%Z /\
  ex_pair_value (ex_pair PQuad 4 8 None None 53) 204 = Ok 2206%Z /\
  ex_pair_value (ex_pair_set (ex_pair PQuad 4 8 None None 53) 52 1000) 204 = Ok 2206%Z.
Proof. repeat split; vm_compute; reflexivity. Qed.
(** the products of the theorem in numbers: a determinant with two factors *)
Example C62_product_ex : match ex_pair_q PPair 4 8 None 4 with
  | Ok p => same_q (pair_overlap p 204) (Ok (ex_documented p (Q2Qc (inject_Z (-1))) 8 51 204 : fring Qc_field)) = true
  | Err _ => False
  end.
Proof. vm_compute. reflexivity. Qed.
(** overlaps, derivatives and changed amplitudes on one object *)
Example C62_history_ex : match ex_pair PSen0 2 4 None None 5 with
  | Ok p => pair_run p [PDeriv 10 [4]%Z; POverlap 10; PParams (K := Z_ring) [1; 1; 1; 1; 7]%Z; POverlap 10; PParams (K := Z_ring) [1]%Z; PDeriv 10 [-1]%Z; POverlap 9] =
      [RDeriv (K := Z_ring) (Ok [-1]); RValue (K := Z_ring) (Ok (-6)); RDone (Ok tt); RValue (K := Z_ring) (Ok (-7)); RDone (Err ValueError); RDeriv (K := Z_ring) (Ok [-1]); RValue (K := Z_ring) (Ok 1)]%Z
  | Err _ => False
  end.
Proof. vm_compute. reflexivity. Qed.
