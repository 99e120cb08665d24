(** Sums over the kept rows as restricted exponentials and as products *)
From Coq Require Import List ZArith NArith Arith Bool Lia Permutation Sorted.
From Verif Require Import Py BitSpec BitLemmas Slater SlaterBits2 SignSpec SignLemmas Graphs GraphSpec MatchSpec MathTools PermLemmas SdLemmas Combos
  GeneralLemmas BicliqueLemmas P_Slater1 Fock FockLemmas FockInner Alg CreLemmas GemSpec CC CCRows CCRows2 CCGen CCSpec CCFock CCExp PccdSpec PccdRows.
Import ListNotations.
Local Open Scope nat_scope.

Lemma increasingb_SS : forall l, increasingb l = true <-> StronglySorted Z.lt l.
Proof.
  induction l as [|x l IH]; [split; [constructor|reflexivity]|]. destruct l as [|y l].
  - split; [repeat constructor|reflexivity].
  - change (increasingb (x :: y :: l)) with ((x <? y)%Z && increasingb (y :: l))%bool. rewrite andb_true_iff, IH, Z.ltb_lt. split.
    + intros [H S]. constructor; auto. apply Forall_forall. intros z [<-|Hz]; auto. inversion S; subst. rewrite Forall_forall in H3. apply H3 in Hz. lia.
    + intros S. inversion S; subst. rewrite Forall_forall in H2. split; auto. apply H2. now left.
Qed.
Lemma ordered_iff : forall e, ordered e = true <-> StronglySorted Z.lt (annihilators e) /\ StronglySorted Z.lt (creators e).
Proof. intros e. unfold ordered. now rewrite andb_true_iff, !increasingb_SS. Qed.

(** only ordered operators occur in rows *)
Definition in_order (d : exops) : exops := filter (fun ei => ordered (fst ei)) d.
Lemma in_order_keys : forall d, NoDup (map fst d) -> NoDup (map fst (in_order d)).
Proof.
  intros d. unfold in_order. induction d as [|x d IH]; intros N; [constructor|]. cbn [map filter] in *. inversion N; subst. destruct (ordered (fst x)); auto. cbn [map].
  constructor; auto. intros X. apply H1. apply in_map_iff in X as (y & E & Hy). apply filter_In in Hy as [Hy _]. rewrite <- E. now apply in_map.
Qed.
Lemma in_order_get : forall d e, NoDup (map fst d) -> ordered e = true -> dict_get (in_order d) e = dict_get d e.
Proof.
  intros d e N O. destruct (dict_get d e) as [i|] eqn:E.
  - apply dict_get_In in E; auto. apply dict_get_In; [now apply in_order_keys|]. apply filter_In. auto.
  - destruct (dict_get (in_order d) e) as [i|] eqn:E'; auto. apply dict_get_In in E'; [|now apply in_order_keys]. apply filter_In in E' as [E' _]. apply dict_get_In in E'; auto. congruence.
Qed.
Lemma row_ordered : forall ranks a c r e, row_of ranks a c r -> In e (map cat r) -> ordered e = true.
Proof.
  intros ranks a c r e (Fr & _ & _) He. apply in_map_iff in He as (q & <- & Hq). rewrite Forall_forall in Fr. apply Fr in Hq as (S1 & S2 & L & _).
  apply ordered_iff. destruct (cat_halves q L) as (-> & -> & _). auto.
Qed.
Lemma in_order_row : forall d ranks a c r, NoDup (map fst d) -> row_of ranks a c r ->
  row_ok (in_order d) r = row_ok d r /\ word_of (in_order d) r = word_of d r /\ map (ind_of (in_order d)) (map cat r) = map (ind_of d) (map cat r).
Proof.
  intros d ranks a c r N R. assert (H : forall e, In e (map cat r) -> dict_get (in_order d) e = dict_get d e) by (intros e He; apply in_order_get; auto; eapply row_ordered; eauto).
  split; [|split].
  - unfold row_ok. apply eq_true_iff_eq. rewrite !forallb_forall. unfold known. split; intros X e He; specialize (X e He); rewrite H in * by auto; auto.
  - unfold word_of. apply map_ext_in. intros q Hq. f_equal. unfold ind_of. rewrite H; auto. now apply in_map.
  - apply map_ext_in. intros e He. unfold ind_of. now rewrite H.
Qed.

Fixpoint choices {A} (Ts : list (list A)) : list (list A) :=
  match Ts with [] => [[]] | T :: Ts => choices Ts ++ flat_map (fun t => map (cons t) (choices Ts)) T end.
Lemma sequences_words : forall {A} (l : list A) k, sequences l k = words l k.
Proof. induction k as [|k IH]; [reflexivity|]. cbn [sequences words]. now rewrite IH. Qed.
Lemma choices_map : forall {A B} (f : A -> B) Ts, choices (map (map f) Ts) = map (map f) (choices Ts).
Proof.
  induction Ts as [|T Ts IH]; [reflexivity|]. cbn [map choices]. rewrite IH, map_app, flat_map_map, map_flat_map. f_equal. apply flat_map_ext_in. intros t _.
  rewrite !map_map. reflexivity.
Qed.

Section Vec.
Context {F : CField}.
Local Open Scope cr_scope.
Add Ring K_ring78 : (rth F).
Definition wsum (Ws : list (list (F * list op))) (sd n : N) : F := sumf (fun w => prodf fst w * sgnr (melem sd (flat_map snd w) n)) Ws.
Lemma sum_apply : forall (T : list (F * list op)) sd Ws v,
  sumf (fun p => fst p * wsum Ws sd (snd p)) (apply_sum T v) = sumf (fun p => fst p * wsum (flat_map (fun t => map (cons t) Ws) T) sd (snd p)) v.
Proof.
  intros T sd Ws v. unfold apply_sum at 1. rewrite sumf_flat_map.
  rewrite (sumf_ext (fun x : F * list op => sumf _ (map _ (apply_ops (snd x) v)))
      (fun t => sumf (fun p => fst p * (fst t * sumf (fun w => prodf fst w * sgnr (melem sd (snd t ++ flat_map snd w) (snd p))) Ws)) v)).
  - rewrite sumf_swap. apply sumf_ext. intros p _. rewrite sumf_mul_l. f_equal. unfold wsum. rewrite sumf_flat_map. apply sumf_ext. intros t _.
    rewrite sumf_map, <- sumf_mul_l. apply sumf_ext. intros w _. rewrite prodf_cons. cbn [flat_map]. ring.
  - intros t _. unfold apply_ops. rewrite sumf_map, sumf_flat_map. apply sumf_ext. intros p _. cbn [fst snd].
    rewrite (sumf_ext (fun w : list (F * list op) => prodf fst w * sgnr (melem sd (snd t ++ flat_map snd w) (snd p))) 
        (fun w => match applys (snd t) (Some (false, snd p)) with Some (b, m) => sgnr (sgn b) * (prodf fst w * sgnr (melem sd (flat_map snd w) m)) | None => 0 end)).
    + destruct (applys (snd t) (Some (false, snd p))) as [[b m]|].
      * rewrite sumf_mul_l. unfold wsum. cbn [sumf fold_right fst snd]. unfold sumf. ring.
      * rewrite (sumf_zero (fun _ => 0)) by auto. cbn [sumf fold_right]. ring.
    + intros w _. rewrite melem_step. destruct (applys (snd t) (Some (false, snd p))) as [[b m]|]; ring.
Qed.
Lemma coeff_wsum : forall sd (v : vec (F := F)), coeff sd v = sumf (fun p => fst p * wsum [[]] sd (snd p)) v.
Proof.
  intros sd v. unfold coeff. apply sumf_ext. intros [x n] _. cbn [fst snd]. unfold wsum.
  rewrite sumf_cons. unfold melem, applys, braket. cbn [sumf fold_right fold_left prodf flat_map]. rewrite (N.eqb_sym n sd). destruct (N.eqb sd n).
  - change (sgnr 1) with (1 : F). ring.
  - change (sgnr 0) with (0 : F). ring.
Qed.
Lemma wsum_app : forall A B sd n, wsum (A ++ B) sd n = wsum A sd n + wsum B sd n.
Proof. intros. unfold wsum. apply sumf_app. Qed.
Lemma coeff_product : forall Ts sd v, coeff sd (fold_left (fun v T => one_plus T v) Ts v) = sumf (fun p => fst p * wsum (choices Ts) sd (snd p)) v.
Proof.
  induction Ts as [|T Ts IH]; intros sd v; [apply coeff_wsum|]. cbn [fold_left choices]. rewrite IH. unfold one_plus. rewrite sumf_app, sum_apply, <- sumf_add.
  apply sumf_ext. intros p _. rewrite wsum_app. ring.
Qed.
Lemma coeff_one : forall sd x os ref, coeff sd (apply_sum [(x, os)] [(1, ref)]) = x * (sgnr (melem sd os ref) : F).
Proof.
  intros sd x os ref. rewrite coeff_wsum, sum_apply. cbn [flat_map map app]. unfold wsum. rewrite !sumf_cons. cbn [prodf fold_right sumf flat_map snd fst]. rewrite !app_nil_r. ring.
Qed.
End Vec.

Section Main.
Context {F : CField}.
Local Open Scope cr_scope.
Add Ring K_ring79 : (rth F).
Variables (d : exops) (ranks : list Z) (amp : nat -> F) (ref sd : N).
Hypothesis Hpos : forall r, In r ranks -> (0 < r)%Z.
Hypothesis Dkeys : NoDup (map fst d).
Hypothesis Good : forall e, In e (map fst d) -> good_key ranks e.
Hypothesis Sep : separated (map fst d).
Let a : list Z := map Z.of_nat (snd (diff_orbs sd ref)).
Let c : list Z := map Z.of_nat (fst (diff_orbs sd ref)).
Hypothesis Lac : (length a <= length c)%nat.
Variable parts : list (list Z).
Hypothesis Hparts : parts_ok ranks a parts.
Variable ok : list (list Z) -> bool.
Hypothesis ok_perm : forall w w', Permutation w w' -> ok w = ok w'.
Let rr : list row := filter (fun r => ok (map cat r)) (filter (row_ok d) (flat_map (part_rows a c) (rev parts))).
Let wv := wval amp ref sd.
Let wo := word_of d.
Lemma rr_facts : forall r, In r rr -> row_of ranks a c r /\ row_ok d r = true /\ ok (map cat r) = true.
Proof.
  intros r H. apply filter_In in H as [H1 H2]. destruct (rr_In d ranks ref sd Hpos Lac parts Hparts r H1). auto.
Qed.
Lemma word_cat : forall r, map fst (wo r) = map cat r.
Proof. intros r. unfold wo, word_of. rewrite map_map. reflexivity. Qed.
Lemma wo_NoDup : forall r, row_of ranks a c r -> row_ok d r = true -> NoDup (wo r).
Proof. apply (word_NoDup d ranks ref sd); auto. Qed.
(** words that are permutations of rows *)
Lemma sum_perms : forall (R' : list row) (W : list (list (list Z * nat))) (perms : row -> list (list (list Z * nat))),
  (forall r, In r R' -> In r rr) -> pairwise_distinct (@Permutation (list Z * list Z)) R' -> NoDup W ->
  (forall r, In r R' -> NoDup (perms r) /\ forall p, In p (perms r) -> In p W /\ Permutation (wo r) p) ->
  (forall w, In w W -> melem sd (wops w) ref <> 0%Z -> exists r, In r R' /\ In w (perms r)) ->
  sumf wv W = sumf (fun r => nat_r (length (perms r)) * wv (wo r)) R'.
Proof.
  intros R' W perms HR D NW HP HW.
  transitivity (sumf wv (flat_map perms R')).
  - apply sumf_support; auto.
    + apply pd_eq_NoDup. apply (pd_flat_map (@Permutation (list Z * list Z))); auto.
      * intros r Hr. apply pd_NoDup_eq; auto. now apply HP.
      * intros r1 r2 p1 p2 H1 H2 Q1 Q2 <-. destruct (rr_facts r1 (HR _ H1)) as (R1 & K1 & _). destruct (rr_facts r2 (HR _ H2)) as (R2 & K2 & _).
        apply (proj2 (HP r1 H1)) in Q1 as [_ Q1]. apply (proj2 (HP r2 H2)) in Q2 as [_ Q2].
        rewrite <- (proj2 (row_word d ranks ref sd Dkeys r1 R1 K1)), <- (proj2 (row_word d ranks ref sd Dkeys r2 R2 K2)). apply Permutation_map. fold (wo r1) (wo r2). rewrite Q1. now symmetry.
    + intros p Hp. apply in_flat_map in Hp as (r & Hr & Hp). now apply (HP r Hr).
    + intros w Hw. destruct (Z.eq_dec (melem sd (wops w) ref) 0) as [Z0|Nz].
      * left. unfold wv, wval. rewrite Z0. change (sgnr 0) with (0 : F). ring.
      * right. destruct (HW w Hw Nz) as (r & H1 & H2). apply in_flat_map. eauto.
  - rewrite sumf_flat_map. apply sumf_ext. intros r Hr. destruct (rr_facts r (HR _ Hr)) as (R1 & K1 & _).
    rewrite (sumf_ext _ (fun _ => wv (wo r))); [apply sumf_const|]. intros p Hp. apply (HP r Hr) in Hp as [_ Hp]. now apply (wval_perm d ranks amp ref sd Lac r p).
Qed.
Lemma rr_distinct : pairwise_distinct (@Permutation (list Z * list Z)) rr.
Proof. unfold rr. do 2 apply pd_filter. apply (rows_distinct ranks a c (Sa ref sd) (Sc ref sd) Hpos Lac parts Hparts). Qed.
(** a word that leads to sd and is allowed is a permutation of a row *)
Lemma word_in_rr : forall w, incl w d -> melem sd (wops w) ref <> 0%Z -> ok (map fst w) = true -> exists r, In r rr /\ Permutation (wo r) w.
Proof.
  intros w Iw Nz Ok. pose proof (word_row d ranks ref sd Good Sep w Iw Nz) as R. destruct (rows_complete ranks a c (Sa ref sd) (Sc ref sd) Hpos parts Hparts _ R) as (r & Hr & P).
  destruct (word_back d Dkeys w Iw) as [E K].
  assert (Pc : Permutation (map cat r) (map fst w)).
  { rewrite <- P, map_map. erewrite map_ext; [reflexivity|]. intros x. apply cat_halved. }
  exists r. split.
  - apply filter_In. split; [apply filter_In; split; auto|].
    + unfold row_ok in *. rewrite forallb_forall in *. intros e He. apply K. eapply Permutation_in; [|exact He]. symmetry. now apply Permutation_map.
    + now rewrite (ok_perm _ _ Pc).
  - rewrite <- E. unfold wo, word_of. apply Permutation_map. now symmetry.
Qed.
Hypothesis CZ : char_zero F.
Lemma sum_ok_words : forall k, sumf wv (filter (fun w => ok (map fst w)) (words d k)) = nat_r (fact k) * sumf (fun r => wv (wo r)) (filter (fun r => Nat.eqb (length r) k) rr).
Proof.
  intros k. set (rk := filter (fun r => Nat.eqb (length r) k) rr).
  assert (Hk : forall r, In r rk -> In r rr /\ length r = k) by (intros r H; apply filter_In in H as [H1 H2]; apply Nat.eqb_eq in H2; auto).
  rewrite (sum_perms rk _ (fun r => permutations (wo r) (length (wo r)))).
  - rewrite <- sumf_mul_l. apply sumf_ext. intros r Hr. apply Hk in Hr as [Hr L]. rewrite (permutations_len (length (wo r))) by auto. unfold wo. now rewrite word_len, L.
  - intros r Hr. now apply Hk.
  - unfold rk. apply pd_filter, rr_distinct.
  - apply NoDup_filter, words_NoDup. eapply NoDup_map_inv. exact Dkeys.
  - intros r Hr. apply Hk in Hr as [Hr L]. destruct (rr_facts r Hr) as (R & K & O). split; [apply permutations_NoDup; now apply wo_NoDup|].
    intros p Hp. apply permutations_perm in Hp; [|now apply wo_NoDup]. split; [|auto]. apply filter_In. split.
    + apply words_In. split; [rewrite <- (Permutation_length Hp); unfold wo; now rewrite word_len|]. intros x Hx. apply (row_word d ranks ref sd Dkeys r R K). eapply Permutation_in; [symmetry; exact Hp|auto].
    + rewrite <- O, <- word_cat. symmetry. apply ok_perm. now apply Permutation_map.
  - intros w Hw Nz. apply filter_In in Hw as [Hw O]. apply words_In in Hw as [Lw Iw]. destruct (word_in_rr w Iw Nz O) as (r & Hr & P). destruct (rr_facts r Hr) as (R & K & _). exists r. split.
    + apply filter_In. split; auto. apply Nat.eqb_eq. rewrite <- Lw, <- (Permutation_length P). unfold wo. now rewrite word_len.
    + apply permutations_perm; [now apply wo_NoDup|auto].
Qed.
Lemma filter_map_comm : forall {A B} (f : A -> B) p l, filter p (map f l) = map f (filter (fun x => p (f x)) l).
Proof. induction l as [|x l IH]; [reflexivity|]. cbn [map filter]. destruct (p (f x)); cbn [map]; now rewrite IH. Qed.
Theorem rexp_rows : forall n, (length a <= n)%nat ->
  restricted_exp ok n (map (fun ei : list Z * nat => (amp (snd ei), fst ei)) d) ref sd = sumf (fun r => wv (wo r)) rr.
Proof.
  intros n Hn. unfold restricted_exp. rewrite <- (sum_by_length ref sd Lac _ rr n).
  - apply sumf_ext. intros k _. rewrite sequences_words, words_map, filter_map_comm, sumf_map.
    rewrite (sumf_ext _ wv).
    + rewrite (filter_ext _ (fun w => ok (map fst w))).
      * rewrite sum_ok_words. assert (X : (nat_r (fact k) : F) <> 0) by (apply CZ, lt_O_fact).
        generalize (sumf (fun r => wv (wo r)) (filter (fun r => Nat.eqb (length r) k) rr)). intros S0.
        transitivity ((nat_r (fact k) * finv (nat_r (fact k))) * S0); [ring|]. rewrite f_inv_r by auto. ring.
      * intros w. now rewrite map_map.
    + intros w _. rewrite coeff_one. unfold wv, wval, wops. rewrite prodf_map, flat_map_map. reflexivity.
  - intros r Hr. apply rr_facts in Hr as [R _]. apply row_len in R; auto. fold a in R. lia.
Qed.

(** ** groups: at most one operator of each *)
Variable key : list Z -> Z.
Hypothesis ok_key : forall w, incl w d -> NoDup (flat_map annihilators (map fst w)) -> ok (map fst w) = true <-> NoDup (map (fun ei => key (fst ei)) w).
Variable L : list Z.
Hypothesis NL : NoDup L.
Hypothesis InL : forall e, In e (map fst d) -> In (key e) L.
Definition grp (i : Z) : list (list Z * nat) := filter (fun ei => Z.eqb (key (fst ei)) i) d.
Let kf (ei : list Z * nat) : Z := key (fst ei).
Lemma choices_In : forall M w, NoDup M -> In w (choices (map grp M)) <-> incl w d /\ subseq (map kf w) M.
Proof.
  induction M as [|i M IH]; intros w N.
  - cbn [map choices]. split.
    + intros [<-|[]]. split; [intros x []|constructor].
    + intros [_ S]. left. inversion S. destruct w; [reflexivity|discriminate].
  - inversion N; subst. cbn [map choices]. rewrite in_app_iff, in_flat_map. split.
    + intros [H|(t & Ht & H)].
      * apply IH in H as [I S]; auto. split; auto. now constructor.
      * apply in_map_iff in H as (w' & <- & H). apply IH in H as [I S]; auto. unfold grp in Ht. apply filter_In in Ht as [Ht E]. apply Z.eqb_eq in E. split.
        -- intros x [<-|Hx]; auto.
        -- cbn [map]. unfold kf at 1. rewrite E. now constructor.
    + intros [I S]. destruct w as [|t w].
      * left. apply IH; auto. split; [intros x []|constructor].
      * cbn [map] in S. inversion S; subst.
        -- right. exists t. split.
           ++ apply filter_In. split; [apply I; now left|]. apply Z.eqb_refl.
           ++ apply in_map. apply IH; auto. split; auto. intros x Hx. apply I. now right.
        -- left. apply IH; auto.
Qed.
Lemma choices_NoDup : forall M, NoDup M -> NoDup (choices (map grp M)).
Proof.
  induction M as [|i M IH]; intros N; [repeat constructor; intros []|]. inversion N; subst. cbn [map choices]. apply SlaterBits2.NoDup_app_intro; auto.
  - apply NoDup_flat_map.
    + apply NoDup_filter. eapply NoDup_map_inv. exact Dkeys.
    + intros t _. apply NoDup_map_inj; auto. intros x y _ _ E. now injection E.
    + intros t t' w _ _ H H'. apply in_map_iff in H as (u & <- & _), H' as (v & E & _). now injection E.
  - intros w H H'. apply choices_In in H as [_ S]; auto. apply in_flat_map in H' as (t & Ht & H'). apply in_map_iff in H' as (w' & <- & _).
    cbn [map] in S. apply filter_In in Ht as [_ E]. apply Z.eqb_eq in E. unfold kf at 1 in S. rewrite E in S. apply H1. eapply subseq_incl; [exact S|]. now left.
Qed.
Definition canon (w : list (list Z * nat)) : list (list Z * nat) := flat_map (fun i => filter (fun ei => Z.eqb (kf ei) i) w) L.
Lemma canon_gen : forall M w, NoDup M -> NoDup (map kf w) ->
  subseq (map kf (flat_map (fun i => filter (fun ei => Z.eqb (kf ei) i) w) M)) M /\
  ((forall x, In x w -> In (kf x) M) -> Permutation (flat_map (fun i => filter (fun ei => Z.eqb (kf ei) i) w) M) w).
Proof.
  intros M w NM Nw. split.
  - clear NM. induction M as [|i M IH]; [constructor|]. cbn [flat_map]. rewrite map_app.
    assert (E : map kf (filter (fun ei => Z.eqb (kf ei) i) w) = [] \/ map kf (filter (fun ei => Z.eqb (kf ei) i) w) = [i]).
    { clear - Nw. induction w as [|x w IH]; [now left|]. cbn [map filter] in *. inversion Nw; subst. destruct (Z.eqb_spec (kf x) i) as [E|E]; auto.
      right. cbn [map]. rewrite E. f_equal. destruct (filter (fun ei => Z.eqb (kf ei) i) w) as [|y l] eqn:Ey; [reflexivity|]. exfalso. assert (In y (y :: l)) by now left. rewrite <- Ey in H. apply filter_In in H as [H Ek].
      apply Z.eqb_eq in Ek. apply H1. rewrite E, <- Ek. now apply in_map. }
    destruct E as [->| ->]; cbn [app]; now constructor.
  - intros H. apply NoDup_Permutation.
    + apply NoDup_flat_map; auto.
      * intros i _. apply NoDup_filter. eapply NoDup_map_inv. exact Nw.
      * intros i j x _ _ H1 H2. apply filter_In in H1 as [_ H1], H2 as [_ H2]. apply Z.eqb_eq in H1, H2. congruence.
    + eapply NoDup_map_inv. exact Nw.
    + intros x. rewrite in_flat_map. split.
      * intros (i & _ & Hx). apply filter_In in Hx. tauto.
      * intros Hx. exists (kf x). split; auto. apply filter_In. split; auto. apply Z.eqb_refl.
Qed.
Lemma row_anns : forall r, row_of ranks a c r -> NoDup (flat_map annihilators (map fst (wo r))).
Proof.
  intros r R. rewrite word_cat. destruct R as (Fr & P & _). eapply Permutation_NoDup; [|apply SS_NoDup, (Sa ref sd)]. symmetry. fold a. rewrite <- P.
  rewrite flat_map_map, flat_map_concat_map. erewrite map_ext_in; [reflexivity|]. intros q Hq. rewrite Forall_forall in Fr. apply (cat_halves q); now apply Fr.
Qed.
Lemma word_anns : forall w, incl w d -> melem sd (wops w) ref <> 0%Z -> NoDup (flat_map annihilators (map fst w)).
Proof.
  intros w I Nz. destruct (word_row d ranks ref sd Good Sep w I Nz) as (_ & P & _). eapply Permutation_NoDup; [|apply SS_NoDup, (Sa ref sd)]. rewrite <- P.
  rewrite map_map. cbn [fst halved]. rewrite flat_map_concat_map, map_map. reflexivity.
Qed.
Theorem product_rows :
  coeff sd (product_state (map (fun i => map (fun ei : list Z * nat => (amp (snd ei), eops (fst ei))) (grp i)) L) ref) = sumf (fun r => wv (wo r)) rr.
Proof.
  unfold product_state. rewrite coeff_product. rewrite sumf_cons. cbn [fst snd sumf fold_right].
  rewrite <- (map_map grp (map (fun ei : list Z * nat => (amp (snd ei), eops (fst ei)))) L).
  rewrite (choices_map (fun ei : list Z * nat => (amp (snd ei), eops (fst ei))) (map grp L)). unfold wsum. rewrite sumf_map.
  transitivity (sumf wv (choices (map grp L))).
  { transitivity (1 * sumf wv (choices (map grp L)) + 0); [|ring]. do 2 f_equal. apply sumf_ext. intros w _. unfold wv, wval, wops. rewrite prodf_map, flat_map_map. reflexivity. }
  rewrite (sum_perms rr (choices (map grp L)) (fun r => [canon (wo r)])).
  - apply sumf_ext. intros r _. cbn [length]. transitivity (1 * wv (wo r)); [f_equal; cbn; ring|ring].
  - auto.
  - apply rr_distinct.
  - now apply choices_NoDup.
  - intros r Hr. destruct (rr_facts r Hr) as (R & K & O). split; [repeat constructor; intros []|]. intros p [<-|[]].
    destruct (row_word d ranks ref sd Dkeys r R K) as [I _]. fold wo in I.
    assert (Nk : NoDup (map kf (wo r))) by (apply ok_key; [exact I|now apply row_anns|now rewrite word_cat]).
    destruct (canon_gen L (wo r) NL Nk) as [S P]. assert (P' : Permutation (canon (wo r)) (wo r)) by (apply P; intros x Hx; apply InL; apply in_map; now apply I).
    split; [|now symmetry]. apply choices_In; auto. split; [|exact S]. intros x Hx. apply I. eapply Permutation_in; eauto.
  - intros w Hw Nz. apply choices_In in Hw as [I S]; auto. assert (Nk : NoDup (map kf w)) by (eapply subseq_NoDup; eauto).
    destruct (word_in_rr w I Nz) as (r & Hr & P); [apply ok_key; auto; now apply word_anns|]. exists r. split; auto. left.
    (* two sublists of L with the same elements *)
    destruct (rr_facts r Hr) as (R & K & O). assert (Nk' : NoDup (map kf (wo r))) by (eapply Permutation_NoDup; [apply Permutation_map; symmetry; exact P|auto]).
    destruct (row_word d ranks ref sd Dkeys r R K) as [Iw _]. fold wo in Iw.
    destruct (canon_gen L (wo r) NL Nk') as [S' P']. specialize (P' (fun x Hx => InL _ (in_map fst _ _ (Iw x Hx)))).
    assert (PP : Permutation (canon (wo r)) w) by (rewrite <- P; exact P').
    clear - S S' PP NL Nk. change (subseq (map kf (canon (wo r))) L) in S'. revert S S' PP Nk. generalize (canon (wo r)). intros u.
    revert u w. induction L as [|i M IH]; intros u w S S' PP Nk.
    + inversion S. inversion S'. destruct u; [destruct w; [reflexivity|discriminate]|discriminate].
    + inversion NL as [|? ? Ni NM]; subst. assert (Hm : forall x : list Z * nat, In x u <-> In x w) by (intros x; split; apply Permutation_in; [auto|now symmetry]).
      destruct w as [|x w]; [apply Permutation_sym, Permutation_nil in PP; now subst|]. destruct u as [|y u]; [now apply Permutation_nil in PP|].
      cbn [map] in S, S'. inversion S as [|z1 l1 l2 S1|z1 l1 l2 S1]; subst; inversion S' as [|z2 l3 l4 S2|z2 l3 l4 S2]; subst.
      * assert (E : y = x).
        { destruct (proj1 (Hm y) (or_introl eq_refl)) as [E|E]; [auto|]. exfalso. cbn [map] in Nk. inversion Nk; subst. match goal with X : ~ In (kf x) _ |- _ => apply X end. replace (kf x) with (kf y) by congruence. now apply in_map. }
        subst y. f_equal. apply IH; auto; [eapply Permutation_cons_inv; exact PP|]. cbn [map] in Nk. now inversion Nk.
      * exfalso. apply Ni. apply (subseq_incl _ _ S2). change (kf y :: map kf u) with (map kf (y :: u)). apply in_map. apply Hm. now left.
      * exfalso. apply Ni. apply (subseq_incl _ _ S1). change (kf x :: map kf w) with (map kf (x :: w)). apply in_map. apply Hm. now left.
      * apply IH; auto.
Qed.
End Main.
