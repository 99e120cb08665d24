(** Values of the overlaps and gradients of the geminals with a rank-two coefficient matrix *)
From Coq Require Import List ZArith NArith Arith Bool Lia Permutation Sorted Ring_theory.
From Verif Require Import Py Slater BitSpec BitLemmas SlaterBits Combos Alg MathTools SdLemmas PermSpec PermLemmas RyserLemmas BorchardtLemmas
  HamLemmas BicliqueLemmas BicliqueMain Graphs WfnCI CILemmas Geminal GemPairs GemSpec GemOlp P_Permanent EqnSpec EqnLemmas Rank2 Rank2Spec Rank2Lemmas.
Import ListNotations.
Local Open Scope nat_scope.

Section Main.
Context {K : CField}.
Local Open Scope cr_scope.
Add Ring K_ring101 : (rth K).

Lemma nth_firstn' : forall {A} n (l : list A) i d, (i < n)%nat -> nth i (firstn n l) d = nth i l d.
Proof. induction n as [|n IH]; intros l i d H; [lia|]. destruct l as [|x l]; [now destruct i|]. destruct i; cbn; auto. apply IH. lia. Qed.
Lemma nth_skipn' : forall {A} n (l : list A) i d, nth i (skipn n l) d = nth (n + i) l d.
Proof. induction n as [|n IH]; intros l i d; auto. destruct l as [|x l]; [now destruct i|]. cbn. apply IH. Qed.
Lemma at_ok : forall (l : list K) i, (i < length l)%nat -> at_ l i = Ok (nth i l 0).
Proof.
  intros l i H. unfold at_. destruct (nth_error l i) as [x|] eqn:E.
  - now rewrite (nth_error_nth l i 0 E).
  - apply nth_error_None in E. lia.
Qed.
Lemma pick_ok : forall (l : list K) is, (forall i, In i is -> (i < length l)%nat) -> pick l is = Ok (map (fun i => nth i l 0) is).
Proof. intros l is H. unfold pick. apply mapM_ok_of. intros i Hi. apply at_ok. auto. Qed.

Variable w : gem K.
Notation ng := (gm_ngem w).
Notation nb := (norbpair w).
Notation p := (gm_params w).
Notation E := (rank2 ng nb p).
Variable A : admissible ng nb p.
Lemma lam_len : length (r2_lambdas w) = ng.
Proof. unfold r2_lambdas. rewrite firstn_length. pose proof (ad_len _ _ _ A). lia. Qed.
Lemma eps_len : length (r2_epsilons w) = nb.
Proof. unfold r2_epsilons. rewrite firstn_length, skipn_length. pose proof (ad_len _ _ _ A). lia. Qed.
Lemma zet_len : length (r2_zetas w) = nb.
Proof. unfold r2_zetas. rewrite skipn_length. pose proof (ad_len _ _ _ A). lia. Qed.
Lemma lam_nth : forall i, (i < ng)%nat -> nth i (r2_lambdas w) 0 = lam p i.
Proof. intros i H. unfold r2_lambdas. now apply nth_firstn'. Qed.
Lemma eps_nth : forall j, (j < nb)%nat -> nth j (r2_epsilons w) 0 = eps ng p j.
Proof. intros j H. unfold r2_epsilons. rewrite nth_firstn' by auto. apply nth_skipn'. Qed.
Lemma zet_nth : forall j, nth j (r2_zetas w) 0 = zet ng nb p j.
Proof. intros j. unfold r2_zetas. apply nth_skipn'. Qed.
Lemma at_lam : forall i, (i < ng)%nat -> at_ (r2_lambdas w) i = Ok (lam p i).
Proof. intros i H. rewrite at_ok by (rewrite lam_len; auto). now rewrite lam_nth. Qed.
Lemma at_eps : forall i, (i < nb)%nat -> at_ (r2_epsilons w) i = Ok (eps ng p i).
Proof. intros i H. rewrite at_ok by (rewrite eps_len; auto). now rewrite eps_nth. Qed.
Lemma at_zet : forall i, (i < nb)%nat -> at_ (r2_zetas w) i = Ok (zet ng nb p i).
Proof. intros i H. rewrite at_ok by (rewrite zet_len; auto). now rewrite zet_nth. Qed.

Definition rows_in (l : list nat) : Prop := NoDup l /\ forall i, In i l -> (i < ng)%nat.
Definition cols_in (l : list nat) : Prop := NoDup l /\ forall i, In i l -> (i < nb)%nat.
Lemma picked_nth : forall (f : nat -> K) l i, (i < length l)%nat -> fn (map f l) i = f (nth i l 0%nat).
Proof. intros f l i H. unfold fn. rewrite (nth_indep _ 0 (f 0%nat)) by now rewrite map_length. apply map_nth. Qed.
Lemma r2_perm_value : forall rows cols, rows_in rows -> cols_in cols -> rows <> [] -> cols <> [] ->
  r2_perm w rows cols = Ok (pm E rows cols).
Proof.
  intros rows cols [Nr Br] [Nc Bc] Hr Hc. unfold r2_perm.
  rewrite (pick_ok (r2_lambdas w)) by (rewrite lam_len; auto). cbn [bind].
  rewrite (pick_ok (r2_epsilons w)) by (rewrite eps_len; auto). cbn [bind].
  rewrite (pick_ok (r2_zetas w)) by (rewrite zet_len; auto). cbn [bind].
  assert (Lr : (0 < length rows)%nat) by (destruct rows; [congruence|cbn; lia]). assert (Lc : (0 < length cols)%nat) by (destruct cols; [congruence|cbn; lia]).
  rewrite (proj2 (Nat.eqb_neq (length rows) 0)), (proj2 (Nat.eqb_neq (length cols) 0)) by lia. cbn [orb].
  set (ls := map (fun i => nth i (r2_lambdas w) 0) rows). set (es := map (fun i => nth i (r2_epsilons w) 0) cols). set (zs := map (fun i => nth i (r2_zetas w) 0) cols).
  assert (Vl : forall i, (i < length rows)%nat -> fn ls i = lam p (nth i rows 0%nat)).
  { intros i Hi. unfold ls. rewrite picked_nth by auto. apply lam_nth, Br, nth_In; auto. }
  assert (Ve : forall i, (i < length cols)%nat -> fn es i = eps ng p (nth i cols 0%nat)).
  { intros i Hi. unfold es. rewrite picked_nth by auto. apply eps_nth, Bc, nth_In; auto. }
  assert (Vz : forall i, (i < length cols)%nat -> fn zs i = zet ng nb p (nth i cols 0%nat)).
  { intros i Hi. unfold zs. rewrite picked_nth by auto. apply zet_nth. }
  destruct (C26_value (length rows) (length cols) (fn ls) (fn es) (fn zs) None) as (v & Ev & Pv); auto.
  { intros i i' Hi Hi' X. rewrite !Vl in X by auto. apply (ad_lam _ _ _ A) in X; [|apply Br, nth_In; auto|apply Br, nth_In; auto].
    apply (proj1 (NoDup_nth rows 0%nat) Nr); auto. }
  { intros i i' Hi Hi' X. rewrite !Ve in X by auto. apply (ad_eps _ _ _ A) in X; [|apply Bc, nth_In; auto|apply Bc, nth_In; auto].
    apply (proj1 (NoDup_nth cols 0%nat) Nc); auto. }
  { intros i j Hi Hj. rewrite Vl, Ve by auto. apply (ad_diff _ _ _ A); [apply Br, nth_In; auto|apply Bc, nth_In; auto]. }
  cbn beta zeta in Ev. rewrite Ev. f_equal. set (m := fun i j : nat => fn zs j * (fun _ : nat => 1) i * finv (fn ls i - fn es j)) in *.
  pose proof (comb_value (length rows) (length cols) m Lr Lc) as Cv.
  rewrite (C24_unique _ _ m _ v Lr Lc Cv Pv). unfold pm.
  assert (Em : forall i j, (i < length rows)%nat -> (j < length cols)%nat -> m i j = E (nth i rows 0%nat) (nth j cols 0%nat)).
  { intros i j Hi Hj. unfold m, rank2. rewrite Vl, Ve, Vz by auto. ring. }
  destruct (Nat.ltb (length cols) (length rows)).
  - rewrite <- (permR_sub (fun c r => E r c) cols rows). apply permR_ext. rewrite <- Forall2_map_iff'. intros j Hj i Hi. apply in_seq in Hi, Hj. apply Em; lia.
  - rewrite <- (permR_sub E rows cols). apply permR_ext. rewrite <- Forall2_map_iff'. intros j Hj i Hi. apply in_seq in Hi, Hj. apply Em; lia.
Qed.
Lemma r2_minor_value : forall rows cols d, rows_in rows -> cols_in cols -> (rows = [] <-> cols = []) ->
  r2_minor w rows cols d = Ok (d * pm E rows cols).
Proof.
  intros rows cols d Hr Hc Em. unfold r2_minor. destruct rows as [|r rows].
  - rewrite (proj1 Em eq_refl). cbn. f_equal. ring.
  - destruct cols as [|c cols]; [exfalso; pose proof (proj2 Em eq_refl); discriminate|]. cbn [length Nat.eqb andb]. rewrite r2_perm_value by (auto; discriminate). reflexivity.
Qed.
Lemma rows_without : forall r l, rows_in l -> rows_in (without r l).
Proof. intros r l [N B]. split; [now apply without_NoDup|]. intros i Hi. apply without_In in Hi as [Hi _]. auto. Qed.
Lemma cols_without : forall r l, cols_in l -> cols_in (without r l).
Proof. intros r l [N B]. split; [now apply without_NoDup|]. intros i Hi. apply without_In in Hi as [Hi _]. auto. Qed.
Lemma empty_iff : forall r c rows cols, rows_in rows -> cols_in cols -> In r rows -> In c cols -> minor_ok (length rows) (length cols) ->
  without r rows = [] <-> without c cols = [].
Proof.
  intros r c rows cols [Nr _] [Nc _] Ir Ic M. pose proof (without_length r rows Ir Nr). pose proof (without_length c cols Ic Nc). unfold minor_ok in M.
  assert (X : forall l : list nat, l = [] <-> length l = 0%nat) by (intros l; destruct l; cbn; split; auto; discriminate). rewrite !X. lia.
Qed.
Lemma row_loop_value : forall r rows cols, rows_in rows -> cols_in cols -> In r rows -> minor_ok (length rows) (length cols) ->
  forall cs v, incl cs cols -> r2_row_loop w r rows cols cs v = Ok (v + sumf (fun c => - zet ng nb p c * finv ((lam p r - eps ng p c) * (lam p r - eps ng p c))
    * pm E (without r rows) (without c cols)) cs).
Proof.
  intros r rows cols Hr Hc Ir M cs. induction cs as [|c cs IH]; intros v I; cbn [r2_row_loop].
  - cbn [sumf fold_right]. f_equal. ring.
  - assert (Ic : In c cols) by (apply I; now left). change (other r rows) with (without r rows). change (other c cols) with (without c cols).
    pose proof (without_length r rows Ir (proj1 Hr)). pose proof (without_length c cols Ic (proj1 Hc)).
    rewrite (proj2 (Nat.eqb_neq (length (without r rows)) (length rows))), (proj2 (Nat.eqb_neq (length (without c cols)) (length cols))) by lia. cbn [orb].
    rewrite at_zet by (apply Hc; auto). cbn [bind]. rewrite at_lam by (apply Hr; auto). cbn [bind]. rewrite at_eps by (apply Hc; auto). cbn [bind].
    rewrite r2_minor_value; [|now apply rows_without|now apply cols_without|now apply empty_iff]. cbn [bind].
    rewrite IH by (intros x Hx; apply I; now right). rewrite sumf_cons. f_equal. ring.
Qed.
Lemma col_loop_value : forall e c rows cols, rows_in rows -> cols_in cols -> In c cols -> minor_ok (length rows) (length cols) ->
  forall rs v, incl rs rows -> r2_col_loop w e c rows (without c cols) rs v = Ok (v + sumf (fun r =>
    (if e then zet ng nb p c * finv ((lam p r - eps ng p c) * (lam p r - eps ng p c)) else finv (lam p r - eps ng p c))
    * pm E (without r rows) (without c cols)) rs).
Proof.
  intros e c rows cols Hr Hc Ic M rs. induction rs as [|r rs IH]; intros v I; cbn [r2_col_loop].
  - cbn [sumf fold_right]. f_equal. ring.
  - assert (Ir : In r rows) by (apply I; now left). change (other r rows) with (without r rows).
    assert (X : (if e then do z <- at_ (r2_zetas w) c; do l <- at_ (r2_lambdas w) r; do e0 <- at_ (r2_epsilons w) c; Ok (z * finv ((l - e0) * (l - e0)))
      else do l <- at_ (r2_lambdas w) r; do e0 <- at_ (r2_epsilons w) c; Ok (finv (l - e0)))
      = Ok (if e then zet ng nb p c * finv ((lam p r - eps ng p c) * (lam p r - eps ng p c)) else finv (lam p r - eps ng p c))).
    { rewrite at_zet by (apply Hc; auto). rewrite at_lam by (apply Hr; auto). rewrite at_eps by (apply Hc; auto). destruct e; reflexivity. }
    rewrite X. cbn [bind]. rewrite r2_minor_value; [|now apply rows_without|now apply cols_without|now apply empty_iff]. cbn [bind].
    rewrite IH by (intros x Hx; apply I; now right). rewrite sumf_cons. f_equal. ring.
Qed.
(** the derivative of the permanent of the columns [cols] with respect to parameter k *)
Definition dperm (cols : list nat) (k : nat) : K :=
  sumf (fun i => sumf (fun j => rank2_deriv ng nb p k i j * pm E (without i (seq 0 ng)) (without j cols)) cols) (seq 0 ng).
Lemma rows_seq : rows_in (seq 0 ng).
Proof. split; [apply seq_NoDup|]. intros i Hi. apply in_seq in Hi. lia. Qed.
Lemma dperm_row : forall cols k, (k < ng)%nat ->
  dperm cols k = sumf (fun c => - zet ng nb p c * finv ((lam p k - eps ng p c) * (lam p k - eps ng p c)) * pm E (without k (seq 0 ng)) (without c cols)) cols.
Proof.
  intros cols k Hk. unfold dperm. rewrite (sumf_single _ _ k).
  - apply sumf_ext. intros j Hj. unfold rank2_deriv. rewrite (proj2 (Nat.ltb_lt k ng)) by auto. now rewrite Nat.eqb_refl.
  - apply seq_NoDup.
  - apply in_seq. lia.
  - intros i Hi D. apply sumf_zero. intros j Hj. unfold rank2_deriv. rewrite (proj2 (Nat.ltb_lt k ng)) by auto. rewrite (proj2 (Nat.eqb_neq i k)) by auto. ring.
Qed.
Lemma dperm_col : forall cols k c (e : bool), cols_in cols -> (c < nb)%nat -> k = (if e then ng + c else ng + nb + c)%nat -> (nb <> 0)%nat ->
  dperm cols k = if in_dec Nat.eq_dec c cols then sumf (fun r =>
    (if e then zet ng nb p c * finv ((lam p r - eps ng p c) * (lam p r - eps ng p c)) else finv (lam p r - eps ng p c))
    * pm E (without r (seq 0 ng)) (without c cols)) (seq 0 ng) else 0.
Proof.
  intros cols k c e Hc Bc Ek Nb. unfold dperm.
  assert (V : forall i j, rank2_deriv ng nb p k i j = if Nat.eqb j c then (if e then zet ng nb p j * finv ((lam p i - eps ng p j) * (lam p i - eps ng p j)) else finv (lam p i - eps ng p j)) else 0).
  { intros i j. unfold rank2_deriv. destruct e.
    - rewrite (proj2 (Nat.ltb_ge k ng)), (proj2 (Nat.ltb_lt k (ng + nb))) by lia. replace (k - ng)%nat with c by lia. reflexivity.
    - rewrite (proj2 (Nat.ltb_ge k ng)), (proj2 (Nat.ltb_ge k (ng + nb))) by lia. replace (k - ng - nb)%nat with c by lia. reflexivity. }
  destruct (in_dec Nat.eq_dec c cols) as [I|I].
  - apply sumf_ext. intros i Hi. rewrite (sumf_single _ _ c).
    + rewrite V, Nat.eqb_refl. reflexivity.
    + apply Hc.
    + auto.
    + intros j Hj D. rewrite V, (proj2 (Nat.eqb_neq j c)) by auto. ring.
  - apply sumf_zero. intros i Hi. apply sumf_zero. intros j Hj. rewrite V. rewrite (proj2 (Nat.eqb_neq j c)) by (intros ->; contradiction). ring.
Qed.
(** the parameter whose derivative is computed when that of parameter k is asked for *)
Definition target (h k : nat) : nat :=
  if (Nat.leb h k && Nat.ltb k ng)%bool then (ng + nb + Z.to_nat ((Z.of_nat k - Z.of_nat ng) mod Z.of_nat nb))%nat else k.
Lemma target_same : forall h k, ~ (h <= k < ng)%nat -> target h k = k.
Proof. intros h k H. unfold target. destruct (Nat.leb_spec h k), (Nat.ltb_spec k ng); cbn [andb]; auto; lia. Qed.
Lemma compute_deriv : forall h cols k, gm_nelec w = Z.of_nat (2 * h) -> (h <= ng)%nat -> cols_in cols -> cols <> [] -> minor_ok ng (length cols) -> (k < length p)%nat ->
  r2_compute w cols (Some (Z.of_nat k)) = Ok (dperm cols (target h k)).
Proof.
  intros h cols k En Hh Hc Nc M Hk. pose proof (ad_len _ _ _ A) as L. unfold r2_compute.
  assert (B : ((0 <=? Z.of_nat k) && (Z.of_nat k <? Z.of_nat (length p)))%Z = true).
  { apply andb_true_iff. split; [apply Z.leb_le; lia|apply Z.ltb_lt; lia]. }
  rewrite B. cbn [negb]. assert (H2 : (gm_nelec w / 2)%Z = Z.of_nat h). { rewrite En, Nat2Z.inj_mul, Z.mul_comm. apply Z.div_mul. lia. } rewrite H2.
  assert (Nb : (0 < nb)%nat). { destruct cols as [|c cols]; [congruence|]. pose proof (proj2 Hc c (or_introl eq_refl)). lia. }
  assert (Mr : minor_ok (length (seq 0 ng)) (length cols)) by now rewrite seq_length.
  destruct (Nat.ltb_spec k h) as [Hr|Hr].
  - replace ((0 <=? Z.of_nat k) && (Z.of_nat k <? Z.of_nat h))%Z with true by (symmetry; apply andb_true_iff; split; [apply Z.leb_le; lia|apply Z.ltb_lt; lia]).
    rewrite Nat2Z.id, row_loop_value; auto using rows_seq, incl_refl; [|apply in_seq; lia]. rewrite target_same by lia. rewrite dperm_row by lia. f_equal. ring.
  - replace ((0 <=? Z.of_nat k) && (Z.of_nat k <? Z.of_nat h))%Z with false by (symmetry; apply andb_false_iff; right; apply Z.ltb_ge; lia).
    set (c := Z.to_nat ((Z.of_nat k - Z.of_nat ng) mod Z.of_nat nb)). set (e := ((Z.of_nat ng <=? Z.of_nat k) && (Z.of_nat k <? Z.of_nat (ng + nb)))%Z).
    assert (Bc : (c < nb)%nat). { unfold c. pose proof (Z.mod_pos_bound (Z.of_nat k - Z.of_nat ng) (Z.of_nat nb)). lia. }
    assert (Ek : target h k = (if e then ng + c else ng + nb + c)%nat).
    { unfold target, e. destruct (Nat.ltb_spec k ng) as [X|X].
      - rewrite (proj2 (Nat.leb_le h k)) by auto. cbn [andb]. destruct (Z.leb_spec (Z.of_nat ng) (Z.of_nat k)); [lia|]. reflexivity.
      - rewrite andb_false_r. destruct (Z.leb_spec (Z.of_nat ng) (Z.of_nat k)); [|lia]. cbn [andb].
        destruct (Z.ltb_spec (Z.of_nat k) (Z.of_nat (ng + nb))).
        + unfold c. rewrite Z.mod_small by lia. lia.
        + unfold c. replace (Z.of_nat k - Z.of_nat ng)%Z with ((Z.of_nat k - Z.of_nat ng - Z.of_nat nb) + 1 * Z.of_nat nb)%Z by lia. rewrite Z.mod_add, Z.mod_small by lia. lia. }
    rewrite (dperm_col cols (target h k) c e) by (auto; lia). change (other c cols) with (without c cols).
    destruct (in_dec Nat.eq_dec c cols) as [I|I].
    + pose proof (without_length c cols I (proj1 Hc)). rewrite (proj2 (Nat.eqb_neq (length (without c cols)) (length cols))) by lia.
      rewrite col_loop_value; auto using rows_seq, incl_refl. f_equal. ring.
    + rewrite without_notin by auto. now rewrite Nat.eqb_refl.
Qed.
Lemma fill_value : forall cols s (val : nat -> K) is output, NoDup is -> (forall i, In i is -> (i < length output)%nat /\ r2_compute w cols (Some (Z.of_nat i)) = Ok (val i)) ->
  exists o, r2_fill w cols s is output = Ok o /\ length o = length output /\
    forall k, nth k o 0 = nth k output 0 + (if in_dec Nat.eq_dec k is then sgnr s * val k else 0).
Proof.
  intros cols s val is. induction is as [|i is IH]; intros output N H; cbn [r2_fill].
  - exists output. repeat split; auto. intros k. destruct (in_dec Nat.eq_dec k []) as [[]|]; ring.
  - inversion N as [|? ? N1 N2]; subst. destruct (H i (or_introl eq_refl)) as [Hi Ei]. rewrite at_ok by auto. cbn [bind]. rewrite Ei. cbn [bind].
    destruct (IH (upd output i (nth i output 0 + sgnr s * val i))) as (o & Eo & Lo & Vo); auto.
    { intros q Hq. rewrite upd_length'. apply H. now right. }
    exists o. rewrite upd_length' in Lo. repeat split; auto. intros k. rewrite Vo, nth_upd by auto. destruct (Nat.eqb_spec i k) as [->|D].
    + destruct (in_dec Nat.eq_dec k is); [contradiction|]. destruct (in_dec Nat.eq_dec k (k :: is)) as [|X]; [ring|exfalso; apply X; now left].
    + destruct (in_dec Nat.eq_dec k is) as [X|X], (in_dec Nat.eq_dec k (i :: is)) as [Y|Y]; try reflexivity.
      * exfalso. apply Y. now right.
      * destruct Y; [congruence|contradiction].
Qed.
Lemma indices_In : forall cols k, In k (r2_indices w cols) <-> (k < ng)%nat \/ exists c, In c cols /\ (k = ng + c \/ k = ng + nb + c)%nat.
Proof.
  intros cols k. unfold r2_indices. rewrite in_app_iff, in_seq, in_flat_map. split.
  - intros [H|(c & Hc & [H|[H|[]]])]; [left; lia|right; exists c; split; auto; lia|right; exists c; split; auto; lia].
  - intros [H|(c & Hc & H)]; [left; lia|right]. exists c. split; auto. cbn. lia.
Qed.
Lemma indices_NoDup : forall cols, cols_in cols -> NoDup (r2_indices w cols).
Proof.
  intros cols [N B]. unfold r2_indices. apply NoDup_app_iff. split; [|split].
  - apply seq_NoDup.
  - induction cols as [|c cols IH]; cbn [flat_map app]; [constructor|]. inversion N as [|? ? N1 N2]; subst.
    assert (Bc : (c < nb)%nat) by (apply B; now left). assert (X : forall q, In q (flat_map (fun c0 => [(c0 + ng)%nat; (c0 + ng + nb)%nat]) cols) -> exists c', In c' cols /\ (c' < nb)%nat /\ (q = ng + c' \/ q = ng + nb + c')%nat).
    { intros q Hq. apply in_flat_map in Hq as (c' & Hc' & [Hq|[Hq|[]]]); exists c'; repeat split; auto; try lia; apply B; now right. }
    constructor; [|constructor].
    + intros [Q|Q]; [lia|]. apply X in Q as (c' & I & Bc' & Q). assert (c' = c) by lia. now subst.
    + intros Q. apply X in Q as (c' & I & Bc' & Q). assert (c' = c) by lia. now subst.
    + apply IH; auto. intros; apply B; now right.
  - intros x Hx Hy. apply in_seq in Hx. apply in_flat_map in Hy as (c & Hc & [H|[H|[]]]); lia.
Qed.
End Main.
