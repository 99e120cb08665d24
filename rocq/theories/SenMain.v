(** Overlaps of SeniorityCC as sums over rows and as coefficients of an exponential *)
From Coq Require Import List ZArith NArith Arith Bool Lia Permutation Sorted.
From Verif Require Import Py BitSpec BitLemmas Slater SlaterBits SlaterBits2 SignSpec SignLemmas Graphs GraphSpec MatchSpec MathTools PermLemmas SdLemmas Combos
  GeneralLemmas BicliqueLemmas P_Slater1 P_Slater2 Fock FockLemmas FockInner Alg CreLemmas GemSpec WfnCI CC CCRows CCRows2 CCGen CCSpec CCFock CCExp CCLemmas CCMain CCDeriv
  SenCC SenSpec SenRows SenFock.
Import ListNotations.
Local Open Scope nat_scope.

(** ** a row of operators *)
Section Row.
Variables (ranks : list Z) (ref sd : N) (ns : Z).
Let a := anns sd ref.
Let c := cres sd ref.
Hypothesis Wr : within (2 * ns) ref.
Hypothesis Ws : within (2 * ns) sd.
Lemma a_spec : forall z, In z a <-> (0 <= z)%Z /\ bit ref (Z.to_nat z) = true /\ bit sd (Z.to_nat z) = false.
Proof.
  intros z. unfold a, anns. rewrite in_map_iff. split.
  - intros (i & <- & Hi). rewrite Nat2Z.id. apply diff_orbs_In2 in Hi. split; [lia|tauto].
  - intros (H & B). exists (Z.to_nat z). split; [lia|]. now apply diff_orbs_In2.
Qed.
Lemma c_spec : forall z, In z c <-> (0 <= z)%Z /\ bit sd (Z.to_nat z) = true /\ bit ref (Z.to_nat z) = false.
Proof.
  intros z. unfold c, cres. rewrite in_map_iff. split.
  - intros (i & <- & Hi). rewrite Nat2Z.id. apply diff_orbs_In1 in Hi. split; [lia|tauto].
  - intros (H & B). exists (Z.to_nat z). split; [lia|]. now apply diff_orbs_In1.
Qed.
Lemma ac_apart : forall z, In z a -> ~ In z c.
Proof. intros z H1 H2. apply a_spec in H1. apply c_spec in H2. destruct H1 as (_ & H1 & _), H2 as (_ & _ & H2). congruence. Qed.
Lemma in_row : forall r p z, row_of ranks a c r -> In p r -> (In z (fst p) -> In z a) /\ (In z (snd p) -> In z c).
Proof.
  intros r p z (_ & P1 & P2) Hp. split; intros Hz; (eapply Permutation_in; [eassumption|]); apply in_concat; eexists; split; try eassumption; now apply in_map.
Qed.
Lemma concat_cat : forall r : row, Permutation (concat (map cat r)) (concat (map fst r) ++ concat (map snd r)).
Proof.
  induction r as [|p r IH]; [constructor|]. cbn [map concat]. unfold cat at 1. rewrite IH, <- !app_assoc. apply Permutation_app_head.
  rewrite !app_assoc. apply Permutation_app_tail, Permutation_app_comm.
Qed.
Lemma row_halves : forall r e, row_of ranks a c r -> In e (map cat r) -> exists p, In p r /\ e = cat p /\ annihilators e = fst p /\ creators e = snd p /\ length (fst p) = length (snd p).
Proof.
  intros r e (Fr & _) He. apply in_map_iff in He as (p & <- & Hp). rewrite Forall_forall in Fr. destruct (Fr p Hp) as (_ & _ & L & _).
  destruct (cat_halves p L) as (A & B & _). exists p. auto.
Qed.
Lemma row_range : forall r e z, row_of ranks a c r -> In e (map cat r) -> In z e -> (0 <= z < 2 * ns)%Z.
Proof.
  intros r e z R He Hz. destruct (row_halves r e R He) as (p & Hp & -> & _). unfold cat in Hz. apply in_app_iff in Hz as [Hz|Hz].
  - apply (proj1 (in_row r p z R Hp)), a_spec in Hz as (H & B & _). split; [auto|]. apply Wr in B. lia.
  - apply (proj2 (in_row r p z R Hp)), c_spec in Hz as (H & B & _). split; [auto|]. apply Ws in B. lia.
Qed.
Lemma row_fine : forall r, row_of ranks a c r -> fine ns ref (map cat r).
Proof.
  intros r R. constructor.
  - eapply Permutation_NoDup; [symmetry; apply concat_cat|]. destruct R as (_ & P1 & P2). eapply Permutation_NoDup; [symmetry; apply Permutation_app; [exact P1|exact P2]|].
    apply SlaterBits2.NoDup_app_intro; [apply SS_NoDup, anns_SS|apply SS_NoDup, cres_SS|]. exact ac_apart.
  - intros e z. now apply row_range.
  - intros e z He Hz. destruct (row_halves r e R He) as (p & Hp & _ & E & _). rewrite E in Hz. apply (proj1 (in_row r p z R Hp)), a_spec in Hz. tauto.
  - intros e z He Hz. destruct (row_halves r e R He) as (p & Hp & _ & _ & E & _). rewrite E in Hz. apply (proj2 (in_row r p z R Hp)), c_spec in Hz. tauto.
Qed.
Lemma row_plain : forall r, row_of ranks a c r -> exists b, applys (pops (map cat r)) (Some (false, ref)) = Some (b, sd).
Proof.
  intros r R. destruct (diff_state ref sd) as (b & Eb).
  assert (S : sign_excite (Some ref) (snd (diff_orbs sd ref)) (fst (diff_orbs sd ref)) = Ok (sgn b)) by (rewrite sign_excite_eq, Eb; reflexivity).
  destruct (row_melem (F := Qc_field) [] ranks (fun _ => rO) ref sd r (sgn b) R S) as (k & _ & M). rewrite wops_word in M. unfold melem in M.
  change (flat_map eops (map cat r)) with (pops (map cat r)) in M. destruct (applys (pops (map cat r)) (Some (false, ref))) as [[b' m]|].
  - cbn [braket] in M. destruct (N.eqb_spec sd m) as [Em|_]; [exists b'; now rewrite Em|]. exfalso. unfold pow_m1 in M. destruct (Nat.odd k), b; discriminate M.
  - exfalso. cbn [braket] in M. unfold pow_m1 in M. destruct (Nat.odd k), b; discriminate M.
Qed.
(** the factor of a row: the matrix element of its guarded operators *)
Definition gsign (r : row) : Z := melem sd (gops ns (map cat r)) ref.
Lemma row_guarded : forall r, row_of ranks a c r -> applys (gops ns (map cat r)) (Some (false, ref)) = None /\ gsign r = 0%Z \/
  exists b, applys (gops ns (map cat r)) (Some (false, ref)) = Some (b, sd) /\ gsign r = sgn b.
Proof.
  intros r R. unfold gsign, melem. destruct (applys (gops ns (map cat r)) (Some (false, ref))) as [[b m]|] eqn:E; [|left; auto]. right.
  destruct (row_plain r R) as (b' & P). rewrite (guarded_plain _ _ _ _ _ E) in P. injection P as -> ->. exists b'. split; [reflexivity|].
  cbn [braket]. rewrite N.eqb_refl. reflexivity.
Qed.
Lemma row_nonempty : forall r, sd <> ref -> row_of ranks a c r -> r <> [].
Proof.
  intros r Ne (_ & P1 & P2) ->. cbn [map concat] in P1, P2. apply Ne. apply bit_ext. intros i.
  assert (A : ~ In (Z.of_nat i) a) by (intros H; apply (Permutation_in _ (Permutation_sym P1)) in H; destruct H).
  assert (C : ~ In (Z.of_nat i) c) by (intros H; apply (Permutation_in _ (Permutation_sym P2)) in H; destruct H).
  rewrite a_spec, Nat2Z.id in A. rewrite c_spec, Nat2Z.id in C.
  destruct (bit sd i), (bit ref i); auto; exfalso.
  - apply C. split; [lia|auto].
  - apply A. split; [lia|auto].
Qed.
End Row.

(** ** the exponential *)
Section SExp.
Context {F : CField}.
Local Open Scope cr_scope.
Add Ring K_ring136 : (rth F).
Hypothesis CZ : char_zero F.
Variables (d : exops) (ranks : list Z) (amp : nat -> F) (ref sd : N) (ns : Z).
Hypothesis Hpos : forall r, In r ranks -> (0 < r)%Z.
Hypothesis Dkeys : NoDup (map fst d).
Hypothesis Good : forall e, In e (map fst d) -> good_key ranks e.
Hypothesis Sep : separated (map fst d).
Let a : list Z := anns sd ref.
Let c : list Z := cres sd ref.
Hypothesis Lac : (length a <= length c)%nat.
Hypothesis Wr : within (2 * ns) ref.
Hypothesis Ws : within (2 * ns) sd.
Definition sval (w : list (list Z * nat)) : F := prodf (fun ei => amp (snd ei)) w * sgnr (melem sd (gops ns (map fst w)) ref).
Lemma wops_pops : forall w, wops w = pops (map fst w).
Proof. intros w. unfold wops, pops. now rewrite flat_map_map. Qed.
Lemma sval_zero : forall w, melem sd (wops w) ref = 0%Z -> sval w = 0.
Proof.
  intros w H. unfold sval. assert (X : melem sd (gops ns (map fst w)) ref = 0%Z).
  { unfold melem in *. rewrite wops_pops in H. destruct (applys (gops ns (map fst w)) (Some (false, ref))) as [[b m]|] eqn:E; [|reflexivity].
    now rewrite (guarded_plain _ _ _ _ _ E) in H. }
  rewrite X. change (sgnr 0) with (0 : F). ring.
Qed.
Lemma word_keys : forall r, map fst (word_of d r) = map cat r.
Proof. intros r. unfold word_of. rewrite map_map. reflexivity. Qed.
Lemma sval_perm : forall r p, row_of ranks a c r -> Permutation (word_of d r) p -> sval p = sval (word_of d r).
Proof.
  intros r p R P. unfold sval. rewrite (prodf_perm _ _ _ P). f_equal. f_equal. unfold melem. f_equal. symmetry.
  apply guarded_order; [now apply Permutation_map|rewrite word_keys; now apply (row_fine ranks ref sd ns Wr Ws)|].
  rewrite <- !wops_pops. destruct (even_blocks (fun ei : list Z * nat => eops (fst ei)) _ _ P) as (k & W & E).
  - intros x Hx. unfold word_of in Hx. apply in_map_iff in Hx as (q & <- & Hq). cbn [fst]. unfold eops. rewrite app_length, !map_length.
    destruct R as (Fr & _ & _). rewrite Forall_forall in Fr. destruct (cat_halves q) as (-> & -> & _); [now apply Fr|].
    replace (length (fst q)) with (length (snd q)) by (symmetry; now apply Fr). replace (length (snd q) + length (snd q))%nat with (2 * length (snd q))%nat by lia.
    rewrite Nat.even_mul. reflexivity.
  - change (applys (wops (word_of d r)) (Some (false, ref)) = applys (wops p) (Some (false, ref))).
    rewrite (applys_swaps k (wops (word_of d r)) (wops p)); auto; [|now apply (row_nodup (F := F) d ranks amp ref sd)].
    rewrite E. apply xor_ket_false.
Qed.
Variable parts : list (list Z).
Hypothesis Hparts : parts_ok ranks a parts.
Let rr : list row := filter (row_ok d) (flat_map (part_rows a c) (rev parts)).
Lemma srr_In : forall r, In r rr -> row_of ranks a c r /\ row_ok d r = true.
Proof. intros r H. now apply (rr_In d ranks ref sd Hpos Lac parts Hparts). Qed.
Lemma sum_swords : forall k, sumf sval (words d k) = nat_r (fact k) * sumf (fun r => sval (word_of d r)) (filter (fun r => Nat.eqb (length r) k) rr).
Proof.
  intros k. set (rk := filter (fun r => Nat.eqb (length r) k) rr).
  assert (Hk : forall r, In r rk -> row_of ranks a c r /\ row_ok d r = true /\ length r = k).
  { intros r H. unfold rk in H. apply filter_In in H as [H1 H2]. apply Nat.eqb_eq in H2. apply srr_In in H1. tauto. }
  assert (Nw : forall r, row_of ranks a c r -> row_ok d r = true -> NoDup (word_of d r)) by (intros r R0 K0; now apply (word_NoDup d ranks ref sd Hpos Dkeys Lac)).
  transitivity (sumf sval (flat_map (fun r => permutations (word_of d r) (length (word_of d r))) rk)).
  - apply sumf_support.
    + apply words_NoDup. eapply NoDup_map_inv. exact Dkeys.
    + apply pd_eq_NoDup. apply (pd_flat_map (@Permutation (list Z * list Z))).
      * unfold rk, rr. do 2 apply pd_filter. apply (rows_distinct ranks a c (anns_SS _ _) (cres_SS _ _) Hpos Lac parts Hparts).
      * intros r Hr. apply Hk in Hr as (H1 & H2 & _). apply pd_NoDup_eq; [|auto]. apply permutations_NoDup. now apply Nw.
      * intros r1 r2 p1 p2 H1 H2 Q1 Q2 <-. apply Hk in H1 as (R1 & K1 & _), H2 as (R2 & K2 & _).
        apply permutations_perm in Q1; [|now apply Nw]. apply permutations_perm in Q2; [|now apply Nw].
        rewrite <- (proj2 (row_word d ranks ref sd Dkeys r1 R1 K1)), <- (proj2 (row_word d ranks ref sd Dkeys r2 R2 K2)). apply Permutation_map. rewrite Q1. now symmetry.
    + intros p Hp. apply in_flat_map in Hp as (r & Hr & Hp). apply Hk in Hr as (R & K & L). apply permutations_perm in Hp; [|now apply Nw].
      apply words_In. split; [rewrite <- (Permutation_length Hp); unfold word_of; rewrite map_length; auto|]. intros x Hx. apply (row_word d ranks ref sd Dkeys r R K). eapply Permutation_in; [symmetry; exact Hp|auto].
    + intros w Hw. apply words_In in Hw as [Lw Iw]. destruct (Z.eq_dec (melem sd (wops w) ref) 0) as [Z0|Nz].
      * left. now apply sval_zero.
      * right. pose proof (word_row d ranks ref sd Good Sep w Iw Nz) as R. destruct (rows_complete ranks a c (anns_SS _ _) (cres_SS _ _) Hpos parts Hparts _ R) as (r & Hr & P).
        pose proof (rows_sound ranks a c (anns_SS _ _) (cres_SS _ _) Hpos Lac parts Hparts r Hr) as R'.
        destruct (word_back d Dkeys w Iw) as [E K].
        assert (K' : row_ok d r = true).
        { unfold row_ok in *. rewrite forallb_forall in *. intros e He. apply K. eapply Permutation_in; [|exact He]. symmetry. now apply Permutation_map. }
        apply in_flat_map. exists r. split.
        -- apply filter_In. split; [apply filter_In; auto|]. apply Nat.eqb_eq. rewrite <- (Permutation_length P), map_length. exact Lw.
        -- apply permutations_perm; [now apply Nw|]. rewrite <- E. unfold word_of. apply Permutation_map. now symmetry.
  - rewrite sumf_flat_map. rewrite <- sumf_mul_l. apply sumf_ext. intros r Hr. apply Hk in Hr as (R & K & L).
    rewrite (sumf_ext _ (fun _ => sval (word_of d r))).
    + rewrite sumf_const. rewrite (permutations_len (length (word_of d r))) by auto. unfold word_of at 1. rewrite map_length, L. reflexivity.
    + intros p Hp. apply permutations_perm in Hp; [|now apply Nw]. now apply sval_perm.
Qed.
Lemma exp_srows : forall n, (length a <= n)%nat ->
  exp_coeff n (map (fun ei : list Z * nat => (amp (snd ei), guarded ns (fst ei))) d) ref sd = sumf (fun r => sval (word_of d r)) rr.
Proof.
  intros n Hn. unfold exp_coeff. rewrite <- (sum_by_length ref sd Lac _ rr n).
  - apply sumf_ext. intros k _. rewrite coeff_powers. rewrite sumf_cons. cbn [fst snd].
    rewrite words_map, sumf_map. rewrite (sumf_ext _ sval).
    + rewrite sum_swords. assert (X : (nat_r (fact k) : F) <> 0) by (apply CZ, lt_O_fact).
      generalize (sumf (fun r => sval (word_of d r)) (filter (fun r => Nat.eqb (length r) k) rr)). intros S0. cbn [sumf fold_right].
      transitivity ((finv (nat_r (fact k)) * nat_r (fact k)) * S0); [ring|].
      transitivity ((nat_r (fact k) * finv (nat_r (fact k))) * S0); [ring|]. rewrite f_inv_r by auto. ring.
    + intros w _. unfold sval, gops. rewrite prodf_map, !flat_map_map. reflexivity.
  - intros r Hr. apply srr_In in Hr as [R _]. apply (row_len ranks ref sd Hpos) in R. unfold a, anns in Hn. lia.
Qed.
End SExp.

(** ** the overlap as a sum over rows *)
Section Sum.
Context {K : CRing}.
Local Open Scope cr_scope.
Add Ring K_ring137 : (rth K).
Variables (s : sen K) (ref sd : N).
Let w := sn_cc s.
Let ns := (cc_nspin w / 2)%Z.
Hypothesis R : ready w ref.
Let a := anns sd ref.
Let c := cres sd ref.
Let d := cc_exops w.
Hypothesis Lac : (length a <= length c)%nat.
Hypothesis Wr : within (2 * ns) ref.
Hypothesis Ws : within (2 * ns) sd.
(** the table holds what the generator makes *)
Definition stable : Prop := exists combs, sn_combs s = Some combs /\ forall t, dict_get combs (a ++ c) = Some t -> sen_gen d (cc_ranks w) a c = Ok t.
Hypothesis T : stable.
Hypothesis Ne : sd <> ref.
Lemma stable_rows : exists L parts s', sen_table s a c = Ok (map (map cat) L, s') /\ parts_ok (cc_ranks w) a parts /\
  Permutation L (filter (row_ok d) (flat_map (part_rows a c) (rev parts))) /\ sn_cc s' = w /\
  (exists combs, sn_combs s' = Some combs /\ dict_get combs (a ++ c) = Some (map (map cat) L)) /\
  (forall r, In r L -> row_of (cc_ranks w) a c r /\ row_ok d r = true).
Proof.
  destruct T as (combs & Ec & Hc). destruct (sen_gen_rows d (cc_ranks w) a c (anns_SS _ _) (cres_SS _ _) (ac_apart ref sd) (r_pos _ _ R) (r_nd _ _ R) Lac) as (L & parts & E & Hp & P).
  exists L, parts.
  assert (G : forall r, In r L -> row_of (cc_ranks w) a c r /\ row_ok d r = true).
  { intros r Hr. apply (Permutation_in _ P) in Hr. now apply (rr_In d (cc_ranks w) ref sd (r_pos _ _ R) Lac parts Hp). }
  unfold sen_table. fold w. rewrite Ec. destruct (dict_get combs (a ++ c)) as [t|] eqn:Ed.
  - specialize (Hc t eq_refl). rewrite E in Hc. apply Ok_inj in Hc. subst t. exists s. split; [reflexivity|]. split; [auto|]. split; [auto|]. split; [reflexivity|].
    split; [exists combs; auto|exact G].
  - fold d. rewrite E. cbn [bind]. eexists. split; [reflexivity|]. split; [auto|]. split; [auto|]. split; [reflexivity|].
    split; [|exact G]. eexists. split; [reflexivity|]. apply dict_get_set_eq.
Qed.
Definition inds (r : row) : list nat := map (ind_of d) (map cat r).
Lemma term_row : forall r, row_of (cc_ranks w) a c r -> row_ok d r = true ->
  sen_term w ref (map cat r) = Ok (if (gsign ref sd ns r =? 0)%Z then None else Some (inds r, gsign ref sd ns r)).
Proof.
  intros r Hr Hk. unfold sen_term. pose proof (row_nonempty (cc_ranks w) ref sd r Ne Hr) as Nr. destruct r as [|p r]; [congruence|].
  assert (E : mapM (get_ind d) (map cat (p :: r)) = Ok (inds (p :: r))).
  { unfold inds. unfold row_ok in Hk. revert Hk. generalize (map cat (p :: r)). induction l as [|e l IH]; intros H; [reflexivity|].
    cbn [forallb] in H. apply andb_true_iff in H as [H1 H2]. cbn [mapM map]. unfold get_ind at 1. unfold known in H1. unfold ind_of at 1. destruct (dict_get d e); [|discriminate].
    cbn [bind]. rewrite IH by auto. reflexivity. }
  change (cc_exops w) with d. rewrite E. change (map cat (p :: r)) with (cat p :: map cat r) at 1. cbn [bind]. fold ns. rewrite sign_guarded.
  - cbn [bind]. destruct (row_guarded (cc_ranks w) ref sd ns (p :: r) Hr) as [[-> ->]|(b & -> & ->)]; [reflexivity|]. destruct b; reflexivity.
  - intros e He. split.
    + destruct (row_halves (cc_ranks w) ref sd (p :: r) e Hr He) as (q & _ & _ & -> & -> & X). exact X.
    + intros z. now apply (row_range (cc_ranks w) ref sd ns Wr Ws (p :: r)).
Qed.
Definition srow (P : list K) (r : row) : K := sgnr (gsign ref sd ns r) * prodf (fun i => nth i P 0) (inds r).
Lemma inds_bound : forall r, row_ok d r = true -> forall i, In i (inds r) -> (i < length (cc_params w))%nat.
Proof.
  intros r Hk i Hi. unfold inds in Hi. apply in_map_iff in Hi as (e & <- & He). apply (ind_bound w ref R). unfold row_ok in Hk. rewrite forallb_forall in Hk. auto.
Qed.
Lemma value_row : forall r, row_ok d r = true -> sen_value w (if (gsign ref sd ns r =? 0)%Z then None else Some (inds r, gsign ref sd ns r)) = Ok (srow (cc_params w) r).
Proof.
  intros r Hk. unfold srow. destruct (Z.eqb_spec (gsign ref sd ns r) 0) as [->|Nz].
  - cbn [sen_value]. f_equal. change (sgnr 0) with (0 : K). ring.
  - cbn [sen_value]. assert (E : mapM (param w) (inds r) = Ok (map (fun i => nth i (cc_params w) 0) (inds r))).
    { pose proof (inds_bound r Hk) as Q. revert Q. generalize (inds r). induction l as [|i l IH]; intros Q; [reflexivity|]. cbn [mapM map].
      unfold param at 1. destruct (nth_error (cc_params w) i) as [x|] eqn:Ei; [|apply nth_error_None in Ei; specialize (Q i (or_introl eq_refl)); lia].
      cbn [bind]. rewrite IH by (intros j Hj; apply Q; now right). cbn [bind]. now rewrite (nth_error_nth _ _ _ Ei). }
    rewrite E. cbn [bind]. now rewrite prodf_map.
Qed.
Lemma fold_sum : forall (l : list K) v, fold_left (fun v x => v + x) l v = v + sumf (fun x => x) l.
Proof. induction l as [|x l IH]; intros v; cbn [fold_left]; [cbn; ring|]. rewrite IH, sumf_cons. ring. Qed.
Lemma sen_sum : forall L s', sen_table s a c = Ok (map (map cat) L, s') -> (forall r, In r L -> row_of (cc_ranks w) a c r /\ row_ok d r = true) ->
  sen_overlap s sd = Ok (sumf (srow (cc_params w)) L).
Proof.
  intros L s' E G.
  unfold sen_overlap, sen_olp. fold w. rewrite (r_ref _ _ R). destruct (N.eqb_spec sd ref); [contradiction|]. cbn [excitation_of].
  change (map Z.of_nat (snd (diff_orbs sd ref))) with a. change (map Z.of_nat (fst (diff_orbs sd ref))) with c. rewrite E. cbn [bind fst snd].
  assert (M : mapM (fun ops => do t <- sen_term w ref ops; sen_value w t) (map (map cat) L) = Ok (map (srow (cc_params w)) L)).
  { clear - G R Wr Ws Ne Lac T. induction L as [|r L IH]; [reflexivity|]. destruct (G r (or_introl eq_refl)) as [G1 G2]. cbn [mapM map]. rewrite term_row by auto. cbn [bind].
    rewrite value_row by auto. cbn [bind]. rewrite IH by (intros; apply G; now right). reflexivity. }
  rewrite M. cbn [bind fst]. f_equal. rewrite fold_sum, sumf_map. transitivity (0 + sumf (srow (cc_params w)) L); [reflexivity|ring].
Qed.
(** ** derivatives *)
Definition sslope (P : list K) (dd : nat) (r : row) : K :=
  sgnr (gsign ref sd ns r) * (if inb dd (inds r) then prodf (fun i => nth i P 0) (without dd (inds r)) else 0).
Lemma slopes_row : forall r, row_ok d r = true -> sen_slopes w (if (gsign ref sd ns r =? 0)%Z then None else Some (inds r, gsign ref sd ns r))
  = Ok (map (fun dd => sslope (cc_params w) dd r) (seq 0%nat (length (cc_params w)))).
Proof.
  intros r Hk. unfold sslope. destruct (Z.eqb_spec (gsign ref sd ns r) 0) as [->|Nz].
  - cbn [sen_slopes]. f_equal. change (sgnr 0) with (0 : K). rewrite <- (seq_length (length (cc_params w)) 0%nat) at 1. generalize (seq 0%nat (length (cc_params w))).
    induction l as [|x l IH]; [reflexivity|]. cbn [length repeat map]. rewrite IH. f_equal. ring.
  - cbn [sen_slopes]. assert (B : forallb (fun i => Nat.ltb i (length (cc_params w))) (inds r) = true).
    { apply forallb_forall. intros i Hi. apply Nat.ltb_lt. now apply (inds_bound r Hk). }
    rewrite B. f_equal.
Qed.
Lemma vadd_fold : forall (L : list row) (f : row -> nat -> K) l (v : nat -> K),
  fold_left vadd (map (fun r => map (f r) l) L) (map v l) = map (fun dd => v dd + sumf (fun r => f r dd) L) l.
Proof.
  induction L as [|r L IH]; intros f l v; cbn [map fold_left].
  - apply map_ext. intros x. cbn. ring.
  - assert (E : vadd (map v l) (map (f r) l) = map (fun dd => v dd + f r dd) l).
    { unfold vadd. induction l as [|x l IHl]; [reflexivity|]. cbn [map combine]. cbn [fst snd]. f_equal. exact IHl. }
    rewrite E, IH. apply map_ext. intros x. rewrite sumf_cons. ring.
Qed.
Lemma sen_slope_sum : forall L s', sen_table s a c = Ok (map (map cat) L, s') -> (forall r, In r L -> row_of (cc_ranks w) a c r /\ row_ok d r = true) ->
  sen_olp_deriv s sd = Ok (Array (map (fun dd => sumf (sslope (cc_params w) dd) L) (seq 0%nat (length (cc_params w)))), s').
Proof.
  intros L s' E G. unfold sen_olp_deriv. fold w. rewrite (r_ref _ _ R). destruct (N.eqb_spec sd ref); [contradiction|]. cbn [excitation_of].
  change (map Z.of_nat (snd (diff_orbs sd ref))) with a. change (map Z.of_nat (fst (diff_orbs sd ref))) with c. rewrite E. cbn [bind fst snd].
  set (is := seq 0%nat (length (cc_params w))).
  assert (M : mapM (fun ops => do t <- sen_term w ref ops; sen_slopes w t) (map (map cat) L) = Ok (map (fun r => map (fun dd => sslope (cc_params w) dd r) is) L)).
  { clear - G R Wr Ws Ne Lac T. induction L as [|r L IH]; [reflexivity|]. destruct (G r (or_introl eq_refl)) as [G1 G2]. cbn [mapM map]. rewrite term_row by auto. cbn [bind].
    rewrite slopes_row by auto. cbn [bind]. rewrite IH by (intros; apply G; now right). reflexivity. }
  rewrite M. cbn [bind]. do 3 f_equal.
  assert (Z0 : repeat (0 : K) (length (cc_params w)) = map (fun _ => 0) is).
  { unfold is. rewrite <- (seq_length (length (cc_params w)) 0%nat) at 1. generalize (seq 0%nat (length (cc_params w))). induction l; cbn; congruence. }
  rewrite Z0, (vadd_fold L (fun r dd => sslope (cc_params w) dd r) is (fun _ => 0)). apply map_ext. intros x. transitivity (0 + sumf (sslope (cc_params w) x) L); [reflexivity|ring].
Qed.
Lemma srow_upd : forall dd x r, row_of (cc_ranks w) a c r -> row_ok d r = true -> (dd < length (cc_params w))%nat ->
  srow (upd (cc_params w) dd x) r = srow (cc_params w) r + (x - nth dd (cc_params w) 0) * sslope (cc_params w) dd r.
Proof.
  intros dd x r Hr Hk Hd. pose proof (inds_NoDup w ref sd R Lac r Hr Hk) as N. unfold srow, sslope.
  change (NoDup (inds r)) in N. rewrite (prod_upd (cc_params w) dd x (inds r) N Hd).
  pose proof (prod_upd (cc_params w) dd (nth dd (cc_params w) 0) (inds r) N Hd) as X. rewrite upd_same in X by auto. rewrite X. destruct (inb dd (inds r)); ring.
Qed.
End Sum.

(** the tables do not depend on the amplitudes *)
Lemma table_params {K : CRing} : forall (s s' : sen K) a c t P, sen_table s a c = Ok (t, s') -> sen_table (sen_with_params s P) a c = Ok (t, sen_with_params s' P).
Proof.
  intros [w combs] s' a c t P. unfold sen_table, sen_with_params. cbn [sn_cc sn_combs with_params cc_refresh cc_exops cc_ranks]. destruct combs as [combs|]; [|discriminate].
  destruct (dict_get combs (a ++ c)).
  - intros E. injection E as <- <-. reflexivity.
  - destruct (sen_gen (cc_exops w) (cc_ranks w) a c); cbn [bind]; [|discriminate]. intros E. injection E as <- <-. reflexivity.
Qed.
