(** Overlaps of pair coupled-cluster wavefunctions: the sums over rows as restricted exponentials and products *)
From Coq Require Import List ZArith NArith Arith Bool Lia Permutation Sorted.
From Verif Require Import Py BitSpec BitLemmas Slater SlaterBits SlaterBits2 SignSpec SignLemmas Graphs GraphSpec MatchSpec MathTools PermLemmas SdLemmas Combos
  GeneralLemmas BicliqueLemmas P_Slater1 P_Slater2 Fock FockLemmas FockInner Alg GemSpec WfnCI CILemmas CC CCRows CCRows2 CCGen CCSpec CCFock CCExp CCLemmas CCMain CCDeriv
  CCEx CCCacheSpec P_CCCache P_CC Pccd PccdSpec PccdRows PccdMain PccdExp PccdNew.
Import ListNotations.
Local Open Scope nat_scope.

Section From.
Variable ns : Z.
(** operators that empty one orbital or a pair *)
Definition from_one (e : list Z) : Prop := (exists z v, e = [z; v] /\ (0 <= z < 2 * ns)%Z) \/ (exists i x y, e = [i; i + ns; x; y]%Z /\ (0 <= i < ns)%Z).
Definition origin (e : list Z) : Z := spatial ns (hd 0%Z e).
Lemma from_one_ann : forall e z, from_one e -> In z (annihilators e) -> (0 <= z < 2 * ns)%Z /\ spatial ns z = origin e /\ (length e <> 2%nat -> In (partner ns z) (annihilators e)).
Proof.
  intros e z [(x & v & -> & B)|(i & x & y & -> & B)] H; unfold origin, spatial; cbn in H; cbn [hd length annihilators firstn Nat.div Nat.divmod fst In].
  - destruct H as [<-|[]]. split; [auto|]. split; [auto|]. lia.
  - unfold partner. destruct H as [<-|[<-|[]]].
    + split; [lia|]. split; [auto|]. intros _. destruct (Z.ltb_spec i ns); lia.
    + split; [lia|]. destruct (Z.ltb_spec (i + ns) ns); destruct (Z.ltb_spec i ns); try lia.
Qed.
Lemma from_one_hd : forall e, from_one e -> exists z, In z (annihilators e) /\ spatial ns z = origin e.
Proof. intros e [(x & v & -> & B)|(i & x & y & -> & B)]; unfold origin; cbn; eauto. Qed.
Lemma same_spatial : forall x y, (0 <= x < 2 * ns)%Z -> (0 <= y < 2 * ns)%Z -> spatial ns x = spatial ns y <-> x = y \/ y = partner ns x.
Proof. intros x y Bx By. unfold spatial, partner. destruct (Z.ltb_spec x ns), (Z.ltb_spec y ns); lia. Qed.
End From.

Section Top.
Context {F : CField}.
Local Open Scope cr_scope.
Add Ring K_ring80 : (rth F).
Variables (p : pcc F) (ref : N).
Hypothesis R : pready p ref.
Hypothesis Tb : ptab p ref.
Let w := p_cc p.
Let ns : Z := (cc_nspin w / 2)%Z.
Let d : exops := in_order (cc_exops w).
Let amp (i : nat) : F := nth i (cc_params w) 0.
Hypothesis Good : forall e, In e (keys_of w) -> ordered e = true -> good_key (cc_ranks w) e.
Hypothesis Sep : separated (keys_of w).
Lemma d_In : forall ei, In ei d <-> In ei (cc_exops w) /\ ordered (fst ei) = true.
Proof. intros ei. apply filter_In. Qed.
Lemma d_keys : NoDup (map fst d).
Proof. apply in_order_keys. exact (r_keys _ _ (pr_ready _ _ R)). Qed.
Lemma d_good : forall e, In e (map fst d) -> good_key (cc_ranks w) e.
Proof. intros e He. apply in_map_iff in He as ([e' i] & <- & He). apply d_In in He as [H1 H2]. apply Good; auto. unfold keys_of. now apply in_map. Qed.
Lemma d_sep : separated (map fst d).
Proof. intros e e' z He He'. apply in_map_iff in He as (x & <- & He), He' as (y & <- & He'). apply d_In in He as [H1 _], He' as [H2 _]. apply Sep; unfold keys_of; now apply in_map. Qed.

Definition rows_of (sd : N) (parts : list (list Z)) : list row :=
  filter (fun r => compatible ns (map cat r)) (filter (row_ok d) (flat_map (part_rows (anns sd ref) (cres sd ref)) (rev parts))).
(** the overlap is the sum of the words of the rows *)
Lemma overlap_words : forall sd, (length (anns sd ref) <= length (cres sd ref))%nat ->
  exists parts, parts_ok (cc_ranks w) (anns sd ref) parts /\ pair_overlap p sd = Ok (sumf (fun r => wval amp ref sd (word_of d r)) (rows_of sd parts)).
Proof.
  intros sd L. pose proof (pr_ready _ _ R) as Rr. destruct (N.eq_dec sd ref) as [->|Ne].
  - unfold pair_overlap, pair_olp, pair_table. rewrite (r_ref _ _ Rr), N.eqb_refl. cbn [bind fst].
    assert (E : anns ref ref = [] /\ cres ref ref = []).
    { unfold anns, cres. split.
      - destruct (snd (diff_orbs ref ref)) as [|i l] eqn:Ei; [reflexivity|]. assert (H : In i (snd (diff_orbs ref ref))) by (rewrite Ei; now left). apply diff_orbs_In2 in H. destruct H. congruence.
      - destruct (fst (diff_orbs ref ref)) as [|i l] eqn:Ei; [reflexivity|]. assert (H : In i (fst (diff_orbs ref ref))) by (rewrite Ei; now left). apply diff_orbs_In1 in H. destruct H. congruence. }
    destruct E as [Ea Ec].
    destruct (parts_exist (cc_ranks w) (anns ref ref) (cres ref ref) (r_pos _ _ Rr) (r_nd _ _ Rr) L) as (parts & _ & Hp). exists parts. split; [exact Hp|]. f_equal. unfold rows_of.
    set (RR := flat_map (part_rows (anns ref ref) (cres ref ref)) (rev parts)).
    assert (H1 : forall r, In r RR -> r = []).
    { intros r Hr. apply (rows_sound _ _ _ (anns_SS _ _) (cres_SS _ _) (r_pos _ _ Rr) L parts Hp) in Hr. apply row_len in Hr; [|exact (r_pos _ _ Rr)].
      fold (anns ref ref) in Hr. rewrite Ea in Hr. destruct r; [reflexivity|cbn in Hr; lia]. }
    assert (H2 : In [] RR).
    { destruct (rows_complete (cc_ranks w) (anns ref ref) (cres ref ref) (anns_SS _ _) (cres_SS _ _) (r_pos _ _ Rr) parts Hp []) as (r & Hr & P).
      - rewrite Ea, Ec. split; [constructor|]. split; constructor.
      - apply Permutation_nil in P. subst r. exact Hr. }
    assert (H3 : RR = [[]]).
    { pose proof (rows_distinct _ _ _ (anns_SS ref ref) (cres_SS ref ref) (r_pos _ _ Rr) L parts Hp) as D. fold RR in D.
      destruct RR as [|r l]; [destruct H2|]. rewrite (H1 r (or_introl eq_refl)) in *. destruct l as [|r' l]; [reflexivity|]. exfalso.
      inversion D; subst. rewrite Forall_forall in H3. apply (H3 r'); [now left|]. rewrite (H1 r'); [constructor|]. right. now left. }
    rewrite H3. cbn [filter row_ok forallb map compatible]. rewrite sumf_cons. unfold wval, wops, word_of, melem, applys, braket. cbn [map flat_map fold_left prodf fold_right sumf].
    rewrite N.eqb_refl. change (sgnr 1) with (1 : F). ring.
  - destruct (have_pformulas p ref sd R Tb L Ne) as (parts & b & Hp & Eb & [Fv _ Fg]). exists parts. split; [exact Hp|].
    specialize (Fv _ eq_refl). rewrite set_same in Fv. rewrite Fv. f_equal. clear Fv.
    assert (Er : rows_of sd parts = filter (okc p) (filter (row_ok (cc_exops (p_cc p))) (flat_map (part_rows (anns sd ref) (cres sd ref)) (rev parts)))).
    { unfold rows_of. f_equal. apply filter_ext_in. intros r Hr. apply (rows_sound _ _ _ (anns_SS _ _) (cres_SS _ _) (r_pos _ _ Rr) L parts Hp) in Hr.
      apply (in_order_row _ _ _ _ _ (r_keys _ _ Rr) Hr). }
    rewrite Er, <- sumf_mul_l. apply sumf_ext. intros r Hr. apply Fg in Hr as [Hr Hk].
    destruct (in_order_row (cc_exops (p_cc p)) _ _ _ _ (r_keys _ _ Rr) Hr) as (_ & Ew & _). unfold d, w. rewrite Ew.
    destruct (row_melem (F := F) (cc_exops (p_cc p)) (cc_ranks (p_cc p)) (fun i => nth i (cc_params (p_cc p)) 0) ref sd r (sgn b) Hr Eb) as (k & Ek & Em).
    fold (anns sd ref) in Ek. fold (cres sd ref) in Ek. unfold rval, wval. cbn [with_params cc_params cc_exops]. rewrite Em, Ek. unfold word_of. rewrite !prodf_map. cbn [snd].
    set (q := prodf _ r). change (prodf (fun x => amp (ind_of (cc_exops (p_cc p)) (cat x))) r) with q.
    assert (Es : (sgnr (pow_m1 k * sgn b) : F) = sgnr (pow_m1 k) * sgnr (sgn b)) by (unfold pow_m1; destruct (Nat.odd k), b; cbn; ring).
    rewrite Es. ring.
Qed.
Hypothesis CZ : char_zero F.
Lemma top_restricted : forall sd n, (length (anns sd ref) <= length (cres sd ref))%nat -> (length (anns sd ref) <= n)%nat ->
  pair_overlap p sd = Ok (restricted_exp (compatible ns) n (map (fun ei : list Z * nat => (amp (snd ei), fst ei)) d) ref sd).
Proof.
  intros sd n L Hn. destruct (overlap_words sd L) as (parts & Hp & ->). f_equal. symmetry.
  apply (rexp_rows d (cc_ranks w) amp ref sd (r_pos _ _ (pr_ready _ _ R)) d_keys d_good d_sep L parts Hp (compatible ns) (compatible_perm ns) CZ n Hn).
Qed.
(** without single excitations nothing is left out *)
Lemma top_plain : (forall e, In e (map fst d) -> length e <> 2%nat) -> forall sd n, (length (anns sd ref) <= length (cres sd ref))%nat -> (length (anns sd ref) <= n)%nat ->
  pair_overlap p sd = Ok (exp_coeff n (map (fun ei : list Z * nat => (amp (snd ei), excitation (fst ei))) d) ref sd).
Proof.
  intros N2 sd n L Hn. destruct (overlap_words sd L) as (parts & Hp & ->). f_equal. symmetry.
  change (exp_coeff n (map (fun ei : list Z * nat => (amp (snd ei), excitation (fst ei))) d) ref sd) with (exp_coeff n (map (fun ei : list Z * nat => (amp (snd ei), eops (fst ei))) d) ref sd).
  rewrite (exp_rows CZ d (cc_ranks w) amp ref sd (r_pos _ _ (pr_ready _ _ R)) d_keys d_good d_sep L parts Hp n Hn). f_equal. unfold rows_of. symmetry.
  fold (anns sd ref) (cres sd ref). set (X := filter (row_ok d) _). assert (HX : forall r, In r X -> compatible ns (map cat r) = true).
  { intros r Hr. apply filter_In in Hr as [_ Hr]. apply compatible_iff. intros e e' He _ Le. exfalso. unfold row_ok in Hr. rewrite forallb_forall in Hr. apply Hr in He. unfold known in He.
    destruct (dict_get d e) as [i|] eqn:Ei; [|discriminate]. apply dict_get_In in Ei; [|apply d_keys]. apply (N2 e); auto. apply in_map_iff. exists (e, i). auto. }
  clearbody X. induction X as [|r X IH]; [reflexivity|]. cbn [filter]. rewrite (HX r) by now left. f_equal. apply IH. intros r' Hr'. apply HX. now right.
Qed.
Hypothesis One : forall e, In e (map fst d) -> from_one ns e.
Lemma compatible_key : forall u, incl u d -> NoDup (flat_map annihilators (map fst u)) -> compatible ns (map fst u) = true <-> NoDup (map (fun ei => origin ns (fst ei)) u).
Proof.
  intros u I N. assert (Iu : forall e, In e (map fst u) -> from_one ns e) by (intros e He; apply One; apply in_map_iff in He as (x & <- & Hx); apply in_map; auto). split.
  - rewrite compatible_iff. clear I. induction u as [|[e i] u IH]; intros C; [constructor|]. cbn [map flat_map fst] in *. apply NoDup_app_iff in N as (N1 & N2 & D). constructor.
    + intros X. apply in_map_iff in X as ([e' i'] & E & He'). cbn [fst] in E. assert (He : In e' (map fst u)) by (apply in_map_iff; exists (e', i'); auto).
      assert (Dis : forall z, In z (annihilators e) -> ~ In z (annihilators e')) by (intros z H1 H2; apply (D z H1); apply in_flat_map; eauto).
      assert (F1 := Iu e (or_introl eq_refl)). assert (F2 := Iu e' (or_intror He)).
      destruct (from_one_hd ns e F1) as (z & Hz & Ez). destruct (from_one_hd ns e' F2) as (z' & Hz' & Ez').
      destruct (from_one_ann ns e z F1 Hz) as (B & _ & Pz). destruct (from_one_ann ns e' z' F2 Hz') as (B' & _ & Pz').
      assert (S : spatial ns z = spatial ns z') by congruence. apply same_spatial in S; auto. destruct S as [<-|S]; [apply (Dis z); auto|]. subst z'.
      destruct (Nat.eq_dec (length e) 2) as [L|L]; [|apply (Dis (partner ns z)); auto]. destruct (single_ann e L) as (z0 & v0 & E0 & A0 & H0).
      rewrite A0 in Hz. destruct Hz as [Hz|[]]. subst z0. apply (C e e'); auto; [now left|right; auto|]. now rewrite H0.
    + apply IH; [exact N2|intros q Hq; apply Iu; now right|intros e1 e2 H1 H2; apply C; now right].
  - intros Nk. apply compatible_iff. intros e e' He He' L X. pose proof (Iu e He) as F1. pose proof (Iu e' He') as F2. destruct (single_ann e L) as (z & v & E0 & A0 & H0). rewrite H0 in X.
    assert (Bz : (0 <= z < 2 * ns)%Z) by (apply (from_one_ann ns e z F1); rewrite A0; now left). destruct (from_one_ann ns e' _ F2 X) as (Bp & Sp & _).
    assert (E : origin ns e = origin ns e').
    { rewrite <- Sp. unfold origin at 1. rewrite E0. cbn [hd]. apply same_spatial; auto. }
    apply in_map_iff in He as ([e1 i1] & E1 & He), He' as ([e2 i2] & E2 & He'). cbn [fst] in E1, E2. subst e1 e2.
    assert (Eq : (e, i1) = (e', i2)).
    { clear - Nk He He' E. induction u as [|q u IH]; [destruct He|]. cbn [map] in Nk. inversion Nk; subst. destruct He as [->|He], He' as [->|He']; auto.
      - exfalso. apply H1. apply in_map_iff. exists (e', i2). cbn [fst]. auto.
      - exfalso. apply H1. apply in_map_iff. exists (e, i1). cbn [fst]. auto. }
    injection Eq as <- _. rewrite A0 in X. destruct X as [X|[]]. destruct (partner_involutive ns z Bz) as (_ & _ & Ne). congruence.
Qed.
Lemma top_product : forall sd, (length (anns sd ref) <= length (cres sd ref))%nat ->
  pair_overlap p sd = Ok (coeff sd (product_state (map (fun i => excitations (map (fun ei : list Z * nat => (amp (snd ei), fst ei)) (filter (fun ei => Z.eqb (origin ns (fst ei)) i) d))) (orbitals ns)) ref)).
Proof.
  intros sd L. destruct (overlap_words sd L) as (parts & Hp & ->). f_equal. symmetry.
  erewrite map_ext; [eapply (product_rows d (cc_ranks w) amp ref sd (r_pos _ _ (pr_ready _ _ R)) d_keys d_good d_sep L parts Hp (compatible ns) (compatible_perm ns) (origin ns) compatible_key (orbitals ns))|].
  - apply SS_NoDup, orbitals_SS.
  - intros e He. apply orbitals_In. apply One in He. destruct (from_one_hd ns e He) as (z & Hz & <-). destruct (from_one_ann ns e z He Hz) as (B & _). unfold spatial. destruct (Z.ltb_spec z ns); lia.
  - intros i. unfold excitations. rewrite map_map. reflexivity.
Qed.
End Top.
