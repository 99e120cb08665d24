(** Overlaps of coupled-cluster wavefunctions and their derivatives as sums over rows *)
From Coq Require Import List ZArith NArith Arith Bool Lia Permutation Sorted.
From Verif Require Import Py BitSpec BitLemmas Slater SlaterBits SlaterBits2 SignSpec SignLemmas Graphs MatchSpec MathTools PermLemmas SdLemmas Combos
  GeneralLemmas BicliqueLemmas P_Slater1 P_Slater2 Fock FockLemmas FockInner Alg WfnCI CILemmas CC CCRows CCRows2 CCGen CCSpec CCFock CCExp CCLemmas.
Import ListNotations.
Local Open Scope nat_scope.

Definition anns (sd ref : N) : list Z := map Z.of_nat (snd (diff_orbs sd ref)).
Definition cres (sd ref : N) : list Z := map Z.of_nat (fst (diff_orbs sd ref)).
Lemma anns_SS : forall sd ref, StronglySorted Z.lt (anns sd ref).
Proof. intros. apply SS_of_nat. apply C05_sorted. Qed.
Lemma cres_SS : forall sd ref, StronglySorted Z.lt (cres sd ref).
Proof. intros. apply SS_of_nat. apply C05_sorted. Qed.
Lemma anns_length : forall sd ref, length (anns sd ref) <= length (cres sd ref) <-> total_occ (Some ref) <= total_occ (Some sd).
Proof.
  intros sd ref. unfold anns, cres. rewrite !map_length, !total_occ_length.
  rewrite (Permutation_length (diff_orbs_perm1 sd ref)), (Permutation_length (diff_orbs_perm2 sd ref)), !app_length. lia.
Qed.
Lemma anns_bound : forall sd ref, length (anns sd ref) <= total_occ (Some ref).
Proof.
  intros sd ref. unfold anns. rewrite map_length, total_occ_length, (Permutation_length (diff_orbs_perm2 sd ref)), app_length. lia.
Qed.

Lemma dict_get_set_eq : forall {V} (d : list (list Z * V)) k v, dict_get (dict_set d k v) k = Some v.
Proof.
  intros V d k v. induction d as [|[k' v'] d IH]; cbn [dict_set dict_get].
  - unfold key_eqb. destruct (list_eq_dec Z.eq_dec k k); [reflexivity|congruence].
  - destruct (key_eqb k k') eqn:E; cbn [dict_get]; rewrite E; auto.
Qed.
Lemma dict_get_set_neq : forall {V} (d : list (list Z * V)) k k' v, k' <> k -> dict_get (dict_set d k v) k' = dict_get d k'.
Proof.
  intros V d k k' v N. induction d as [|[k1 v1] d IH]; cbn [dict_set dict_get].
  - unfold key_eqb. destruct (list_eq_dec Z.eq_dec k' k); [congruence|reflexivity].
  - destruct (key_eqb k k1) eqn:E; cbn [dict_get]; [|now rewrite IH]. unfold key_eqb in *.
    destruct (list_eq_dec Z.eq_dec k k1) as [->|]; [|discriminate]. destruct (list_eq_dec Z.eq_dec k' k1); [congruence|reflexivity].
Qed.

Section Main.
Context {K : CRing}.
Local Open Scope cr_scope.
Add Ring K_ring56 : (rth K).

Lemma with_combs_same : forall (w : cc K) c, cc_combs w = c -> with_combs w c = w.
Proof. intros [] c0 <-. reflexivity. Qed.

Record ready (w : cc K) (ref : N) : Prop := mkready {
  r_class : cc_class w <> CCSingles; r_ref : cc_ref w = RSd ref;
  r_pos : forall r, In r (cc_ranks w) -> (0 < r)%Z; r_nd : NoDup (cc_ranks w);
  r_keys : NoDup (keys_of w); r_exops : cc_exops w = combine (keys_of w) (seq 0%nat (length (keys_of w)));
  r_params : length (cc_params w) = length (keys_of w) }.
Definition table_ok (w : cc K) (a c : list Z) : Prop :=
  exists combs, cc_combs w = Some combs /\ forall m, dict_get combs (a ++ c) = Some m ->
    exists m', gen_exops (cc_exops w) (cc_ranks w) a c = Ok m' /\ Permutation (all_rows m) (all_rows m').
Lemma built_ready : forall c nelec nspin ra indices refwfn refresh w g ref,
  built c nelec nspin ra indices refwfn false refresh w g -> c <> CCSingles -> cc_ref w = RSd ref ->
  ready w ref /\ (forall a c, table_ok w a c).
Proof.
  intros c nelec nspin ra indices refwfn refresh w g ref B Hc Hr. destruct (built_ranks _ _ _ _ _ _ _ _ _ _ B) as [R1 R2].
  destruct (built_exops _ _ _ _ _ _ _ _ _ _ B) as (_ & E1 & E2). split.
  - constructor; auto.
    + rewrite (b_class _ _ _ _ _ _ _ _ _ _ B). auto.
    + intros r H. apply R1 in H. lia.
    + apply (built_length _ _ _ _ _ _ _ _ _ _ B).
  - intros a c'. exists []. split; [apply (b_combs _ _ _ _ _ _ _ _ _ _ B)|]. intros m H. discriminate.
Qed.

(** the value of a row for the amplitudes *)
Definition rval (w : cc K) (a c : list Z) (r : row) : K :=
  sgnr (match row_sign a c (map cat r) with Ok s => s | Err _ => 0%Z end) *
  prodf (fun i => nth i (cc_params w) 0) (map (ind_of (cc_exops w)) (map cat r)).

Section One.
Variables (w : cc K) (ref sd : N).
Hypothesis R : ready w ref.
Let a := anns sd ref.
Let c := cres sd ref.
Hypothesis Lac : (length a <= length c)%nat.
Let d := cc_exops w.

Lemma r_dict : forall e i, dict_get d e = Some i <-> In (e, i) d.
Proof. intros. apply dict_get_In. exact (r_keys _ _ R). Qed.
Lemma ind_bound : forall e, known d e = true -> (ind_of d e < length (cc_params w))%nat.
Proof.
  intros e H. unfold known in H. unfold ind_of. destruct (dict_get d e) as [i|] eqn:E; [|discriminate]. apply r_dict in E. unfold d in E. rewrite (r_exops _ _ R) in E.
  apply combine_seq_In in E as [_ E]. rewrite Nat.sub_0_r in E. rewrite (r_params _ _ R). apply nth_error_Some. congruence.
Qed.
(** rows: a list of rows without repetitions, each a valid pairing, all of whose operators are known *)
Definition rows_good (rr : list row) : Prop :=
  forall r, In r rr -> row_of (cc_ranks w) a c r /\ row_ok d r = true.
Lemma table_rows : table_ok w a c -> exists m w' parts, get_multi w a c = Ok (m, w') /\ parts_ok (cc_ranks w) a parts /\
  Permutation (all_rows m) (map (info d a c) (filter (row_ok d) (flat_map (part_rows a c) (rev parts)))) /\
  cc_params w' = cc_params w /\ rows_good (filter (row_ok d) (flat_map (part_rows a c) (rev parts))) /\
  exists combs', w' = with_combs w (Some combs') /\ (dict_get combs' (a ++ c) = Some m).
Proof.
  intros (combs & Ec & T). destruct (gen_exops_rows d (cc_ranks w) a c (anns_SS _ _) (cres_SS _ _) (r_pos _ _ R) (r_nd _ _ R) Lac) as (m & parts & E & Hp & P).
  assert (G : rows_good (filter (row_ok d) (flat_map (part_rows a c) (rev parts)))).
  { intros r Hr. apply filter_In in Hr as [H1 H2]. split; auto. apply (rows_sound (cc_ranks w) a c (anns_SS _ _) (cres_SS _ _) (r_pos _ _ R) Lac parts Hp r H1). }
  unfold get_multi. rewrite Ec. destruct (dict_get combs (a ++ c)) as [m0|] eqn:Ed.
  - destruct (T m0 eq_refl) as (m' & E' & P'). fold d in E'. rewrite E in E'. apply Ok_inj in E'. subst m'. exists m0, w, parts.
    split; [reflexivity|]. split; [auto|]. split; [now rewrite P'|]. split; [reflexivity|]. split; [auto|]. exists combs. split; [|auto]. symmetry. now apply with_combs_same.
  - fold d. rewrite E. cbn [bind]. exists m. eexists. exists parts. split; [reflexivity|]. split; [auto|]. split; [auto|]. split; [reflexivity|]. split; [auto|].
    eexists. split; [reflexivity|]. apply dict_get_set_eq.
Qed.
Lemma info_value : forall r, row_of (cc_ranks w) a c r -> row_ok d r = true ->
  sgnr (decode (snd (info d a c r))) * prodf (fun i => nth i (cc_params w) 0) (fst (info d a c r)) = rval w a c r.
Proof.
  intros r Hr Hk. unfold info, rval. cbn [fst snd]. fold d.
  destruct (row_sign_swaps (cc_ranks w) a c (anns_SS _ _) (cres_SS _ _) r Hr) as (k & -> & _). f_equal. unfold pow_m1. now destruct (Nat.odd k).
Qed.
Lemma row_in_bounds : forall r, row_ok d r = true -> forall i, In i (fst (info d a c r)) -> (i < length (cc_params w))%nat.
Proof.
  intros r Hk i Hi. unfold info in Hi. cbn [fst] in Hi. apply in_map_iff in Hi as (e & <- & He). apply ind_bound.
  unfold row_ok in Hk. rewrite forallb_forall in Hk. auto.
Qed.
Lemma row_value_ok : forall r, row_of (cc_ranks w) a c r -> row_ok d r = true -> row_value w (info d a c r) = Ok (rval w a c r).
Proof.
  intros r Hr Hk. unfold row_value.
  assert (E : mapM (param w) (fst (info d a c r)) = Ok (map (fun i => nth i (cc_params w) 0) (fst (info d a c r)))).
  { assert (Q : forall i, In i (fst (info d a c r)) -> (i < length (cc_params w))%nat) by now apply row_in_bounds.
    revert Q. generalize (fst (info d a c r)). induction l as [|i l IH]; intros Q; [reflexivity|]. cbn [mapM map].
    unfold param at 1. destruct (nth_error (cc_params w) i) as [x|] eqn:Ei; [|apply nth_error_None in Ei; specialize (Q i (or_introl eq_refl)); lia].
    cbn [bind]. rewrite IH by (intros j Hj; apply Q; now right). cbn [bind]. now rewrite (nth_error_nth _ _ _ Ei). }
  rewrite E. cbn [bind]. f_equal. rewrite prodf_map. now apply info_value.
Qed.
Lemma amplitudes_ok : forall w' m rr, cc_params w' = cc_params w -> rows_good rr -> Permutation (all_rows m) (map (info d a c) rr) ->
  amplitudes w' m = Ok (sumf (rval w a c) rr).
Proof.
  intros w' m rr Ep G P. unfold amplitudes.
  assert (Q : forall l, (forall x, In x l -> exists r, In r rr /\ x = info d a c r) ->
     mapM (row_value w') l = Ok (map (fun x => sgnr (decode (snd x)) * prodf (fun i => nth i (cc_params w) 0) (fst x)) l)).
  { induction l as [|x l IH]; intros H; [reflexivity|]. destruct (H x (or_introl eq_refl)) as (r & Hr & ->). destruct (G r Hr) as [G1 G2].
    cbn [mapM map]. assert (X : row_value w' (info d a c r) = row_value w (info d a c r)) by (unfold row_value, param; now rewrite Ep).
    rewrite X, row_value_ok by auto. cbn [bind]. rewrite IH by (intros; apply H; now right). cbn [bind]. now rewrite info_value. }
  rewrite Q.
  - cbn [bind]. f_equal. rewrite (sumf_perm _ _ _ (Permutation_map _ P)). rewrite !sumf_map. apply sumf_ext. intros r Hr. apply info_value; now apply G.
  - intros x Hx. apply (Permutation_in _ P) in Hx. apply in_map_iff in Hx as (r & <- & Hr). eauto.
Qed.
Lemma with_table_eq : forall {A} (x : A) f scale m w', sd <> ref -> get_multi w a c = Ok (m, w') -> exists b,
  sign_excite (Some ref) (snd (diff_orbs sd ref)) (fst (diff_orbs sd ref)) = Ok (sgn b) /\
  with_table w sd x f scale = (do v <- f w' m; Ok (scale (sgnr (sgn b)) v, w')).
Proof.
  intros A x f scale m w' Hsd E. destruct (diff_state ref sd) as (b & Eb). exists b.
  assert (S : sign_excite (Some ref) (snd (diff_orbs sd ref)) (fst (diff_orbs sd ref)) = Ok (sgn b)) by (rewrite sign_excite_eq, Eb; reflexivity).
  split; [exact S|]. unfold with_table. rewrite (r_ref _ _ R). apply N.eqb_neq in Hsd. rewrite Hsd. unfold excitation_of. rewrite S. cbn [bind].
  pose proof (r_class _ _ R). destruct (cc_class w) eqn:Ecl; try congruence; unfold a, c, anns, cres in E; rewrite E; reflexivity.
Qed.
Lemma overlap_rows : table_ok w a c -> sd <> ref -> exists parts b,
  parts_ok (cc_ranks w) a parts /\ rows_good (filter (row_ok d) (flat_map (part_rows a c) (rev parts))) /\
  sign_excite (Some ref) (snd (diff_orbs sd ref)) (fst (diff_orbs sd ref)) = Ok (sgn b) /\
  cc_overlap w sd = Ok (sgnr (sgn b) * sumf (rval w a c) (filter (row_ok d) (flat_map (part_rows a c) (rev parts)))).
Proof.
  intros T Hsd. destruct (table_rows T) as (m & w' & parts & E & Hp & P & Ep & G & _).
  destruct (with_table_eq 1 amplitudes (fun s v => s * v) m w' Hsd E) as (b & Eb & Ew).
  exists parts, b. split; [auto|]. split; [auto|]. split; [auto|]. unfold cc_overlap, cc_olp. rewrite Ew.
  rewrite (amplitudes_ok w' m _ Ep G P). reflexivity.
Qed.
End One.
End Main.

(** ** the exponential *)
Section Exponential.
Context {F : CField}.
Local Open Scope cr_scope.
Add Ring K_ring57 : (rth F).
Hypothesis CZ : GemSpec.char_zero F.
Definition cluster (w : cc F) : list (F * list op) := map (fun ei => (nth (snd ei) (cc_params w) 0, excitation (fst ei))) (cc_exops w).
Lemma ready_overlap : forall (w : cc F) ref sd n, ready w ref -> table_ok w (anns sd ref) (cres sd ref) ->
  (length (anns sd ref) <= length (cres sd ref))%nat -> (forall e, In e (keys_of w) -> good_key (cc_ranks w) e) -> separated (keys_of w) ->
  (length (anns sd ref) <= n)%nat -> cc_overlap w sd = Ok (exp_coeff n (cluster w) ref sd).
Proof.
  intros w ref sd n R T L Good Sep Hn.
  pose proof (exp_rows CZ (cc_exops w) (cc_ranks w) (fun i => nth i (cc_params w) 0) ref sd (r_pos _ _ R) (r_keys _ _ R) Good Sep L) as X.
  destruct (N.eq_dec sd ref) as [->|Ne].
  - unfold cc_overlap, cc_olp, with_table. rewrite (r_ref _ _ R), N.eqb_refl. cbn [bind fst]. f_equal.
    assert (E : anns ref ref = [] /\ cres ref ref = []).
    { unfold anns, cres. split.
      - destruct (snd (diff_orbs ref ref)) as [|i l] eqn:Ei; [reflexivity|]. assert (H : In i (snd (diff_orbs ref ref))) by (rewrite Ei; now left). apply diff_orbs_In2 in H. destruct H. congruence.
      - destruct (fst (diff_orbs ref ref)) as [|i l] eqn:Ei; [reflexivity|]. assert (H : In i (fst (diff_orbs ref ref))) by (rewrite Ei; now left). apply diff_orbs_In1 in H. destruct H. congruence. }
    destruct E as [Ea Ec].
    destruct (parts_exist (cc_ranks w) (anns ref ref) (cres ref ref) (r_pos _ _ R) (r_nd _ _ R) L) as (parts & _ & Hp).
    change (exp_coeff n (cluster w) ref ref) with (exp_coeff n (map (fun ei : list Z * nat => (nth (snd ei) (cc_params w) 0, eops (fst ei))) (cc_exops w)) ref ref).
    rewrite (X parts Hp n Hn). fold (anns ref ref). fold (cres ref ref).
    set (RR := flat_map (part_rows (anns ref ref) (cres ref ref)) (rev parts)).
    assert (H1 : forall r, In r RR -> r = []).
    { intros r Hr. apply (rows_sound _ _ _ (anns_SS _ _) (cres_SS _ _) (r_pos _ _ R) L parts Hp) in Hr. apply row_len in Hr; [|exact (r_pos _ _ R)].
      fold (anns ref ref) in Hr. rewrite Ea in Hr. destruct r; [reflexivity|cbn in Hr; lia]. }
    assert (H2 : In [] RR).
    { destruct (rows_complete (cc_ranks w) (anns ref ref) (cres ref ref) (anns_SS _ _) (cres_SS _ _) (r_pos _ _ R) parts Hp []) as (r & Hr & P).
      - rewrite Ea, Ec. split; [constructor|]. split; constructor.
      - apply Permutation_nil in P. subst r. exact Hr. }
    assert (H3 : RR = [[]]).
    { pose proof (rows_distinct _ _ _ (anns_SS ref ref) (cres_SS ref ref) (r_pos _ _ R) L parts Hp) as D. fold RR in D.
      destruct RR as [|r l]; [destruct H2|]. rewrite (H1 r (or_introl eq_refl)) in *. destruct l as [|r' l]; [reflexivity|]. exfalso.
      inversion D; subst. rewrite Forall_forall in H3. apply (H3 r'); [now left|]. rewrite (H1 r'); [constructor|]. right. now left. }
    rewrite H3. cbn [filter row_ok forallb map]. rewrite sumf_cons. unfold wval, wops, word_of, melem, applys, braket. cbn [map flat_map fold_left prodf fold_right sumf].
    rewrite N.eqb_refl. change (sgnr 1) with (1 : F). ring.
  - destruct (overlap_rows w ref sd R L T Ne) as (parts & b & Hp & G & Eb & ->). f_equal.
    change (exp_coeff n (cluster w) ref sd) with (exp_coeff n (map (fun ei : list Z * nat => (nth (snd ei) (cc_params w) 0, eops (fst ei))) (cc_exops w)) ref sd).
    rewrite (X parts Hp n Hn). fold (anns sd ref). fold (cres sd ref). rewrite <- sumf_mul_l. apply sumf_ext. intros r Hr. apply G in Hr as [Hr Hk].
    destruct (row_melem (F := F) (cc_exops w) (cc_ranks w) (fun i => nth i (cc_params w) 0) ref sd r (sgn b) Hr Eb) as (k & Ek & Em).
    fold (anns sd ref) in Ek. fold (cres sd ref) in Ek. unfold rval, wval. rewrite Em, Ek. unfold word_of. rewrite !prodf_map. cbn [snd].
    set (p := prodf _ r). change (prodf (fun x => nth (ind_of (cc_exops w) (cat x)) (cc_params w) 0) r) with p.
    assert (Es : (sgnr (pow_m1 k * sgn b) : F) = sgnr (pow_m1 k) * sgnr (sgn b)) by (unfold pow_m1; destruct (Nat.odd k), b; cbn; ring).
    rewrite Es. ring.
Qed.
End Exponential.
