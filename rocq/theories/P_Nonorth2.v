(** Property C64, second part: products of transformations, derivatives, call histories and findings. *)
From Coq Require Import List ZArith NArith Arith Bool Lia Permutation Sorted.
From Verif Require Import Py BitSpec BitLemmas Fock FockLemmas Combos Slater SlaterBits SlaterBits2 SignLemmas Alg MathTools DetLemmas WfnCI Composite Cache CacheSpec CacheLemmas WfnCached
  FockInner OrbSpec OrbLemmas OrbMain WedgeLemmas Jacobi JacobiSpec JacobiMain P_Jacobi Nonorth NonorthSpec NonorthLemmas NonorthMain NonorthValues NonorthValues2 NonorthValues3 NonorthProduct NonorthDeriv NonorthEx
  EqnSpec EqnLemmas P_Cache P_Nonorth.
Import ListNotations.
Local Open Scope nat_scope.

Section C64b.
Context {K : CRing}.
Local Open Scope cr_scope.
Add Ring K_ring98 : (rth K).
Lemma new_sized : forall ne nspin c a (w : nonorth K) t k, new_nonorth ne nspin c a = Ok w -> (t = Generalized -> k = Z.to_nat ne) -> (t <> Generalized -> c_nspin c = nspin) -> sized w t k.
Proof. intros ne nspin c a w t k E G B. destruct (new_fields _ _ _ _ _ E) as (F1 & F2 & F3 & _). unfold sized. rewrite F1, F2, F3. destruct t; auto; apply B; discriminate. Qed.
(** Transforming the orbitals of transformed orbitals is the transformation with the products of the matrices. *)
Theorem C64_product : forall ne nspin nspin' c a b i mem ps (w1 w2 : nonorth K) t k f sd,
  new_nonorth ne nspin' c a = Ok w1 -> new_nonorth ne nspin (as_component i mem ps w1) b = Ok w2 -> n_orbtype w1 = Some t -> n_orbtype w2 = Some t ->
  (t = Generalized -> k = Z.to_nat ne) -> (t <> Generalized -> c_nspin c = nspin' /\ nspin' = nspin) ->
  overlaps_of c k f -> within (Z.to_nat nspin) sd -> has_electrons sd k ->
  exists w, new_nonorth ne nspin c (NMats (map (fun p => times (fst p) (snd p)) (combine (n_params w2) (n_params w1)))) = Ok w /\
    n_orbtype w = Some t /\ n_overlap w2 sd = n_overlap w sd.
Proof.
  intros ne nspin nspin' c a b i mem ps w1 w2 t k f sd E1 E2 O1 O2 G B F W El.
  pose proof (new_valid _ _ _ _ _ _ E1 O1) as V1. pose proof (new_valid _ _ _ _ _ _ E2 O2) as V2.
  destruct (new_fields _ _ _ _ _ E1) as (F11 & F12 & F13 & F14 & _). destruct (new_fields _ _ _ _ _ E2) as (F21 & F22 & F23 & F24 & F25 & F26).
  assert (S1 : sized w1 t k) by (apply (new_sized _ _ _ _ _ _ _ E1); auto; intros X; apply B; auto).
  assert (S2 : sized w2 t k) by (apply (new_sized _ _ _ _ _ _ _ E2); auto; intros X; cbn [as_component c_nspin]; rewrite F12; apply B; auto).
  assert (T1 : transforms t nspin' (c_nspin c) (n_params w1)) by (destruct V1 as (_ & T & _); rewrite F12, F13 in T; exact T).
  assert (T2 : transforms t nspin nspin' (n_params w2)) by (destruct V2 as (_ & T & _); rewrite F22, F23 in T; cbn [as_component c_nspin] in T; rewrite F12 in T; exact T).
  set (ms := map (fun p => times (fst p) (snd p)) (combine (n_params w2) (n_params w1))).
  assert (T : transforms t nspin (c_nspin c) ms).
  { unfold ms. destruct t, (n_params w1) as [|x [|y [|? ?]]], (n_params w2) as [|x' [|y' [|? ?]]]; try contradiction; cbn [combine map transforms fst snd] in *; unfold shaped in *; cbn [times m_rows m_cols]; tauto. }
  set (w := mkno ne nspin c ms). assert (E : new_nonorth ne nspin c (NMats ms) = Ok w).
  { apply C64_constructor. repeat split; auto; [now apply C64_constructor in E1 as (_ & _ & _ & ? & _)|]. exists t, ms. repeat split; auto. }
  assert (O : n_orbtype w = Some t) by (apply (C64_orbtype _ _ _ _ _ t E); exact T).
  exists w. split; [exact E|]. split; [exact O|].
  set (g := trans (seq 0 (Z.to_nat (c_nspin c))) (spin_matrix t (n_ns w1) (n_wns w1) (entries (n_params w1))) f).
  assert (Fg : overlaps_of (n_wfn w2) k g).
  { intros m Wm Em. rewrite F23 in Wm |- *. cbn [as_component c_nspin] in Wm. unfold get_olp. cbn [as_component c_olp]. unfold n_overlap. rewrite (olp_value w1 t f k m V1 S1); auto.
    - unfold g, trans. now rewrite F13.
    - rewrite F13. exact F. }
  unfold n_overlap. rewrite (olp_value w2 t g k sd V2 S2 Fg) by (rewrite ?F22; auto).
  rewrite (olp_value w t f k sd (new_valid _ _ _ _ _ _ E O)); auto.
  2:{ apply (new_sized _ _ _ _ _ _ _ E); auto. intros X. destruct (B X). congruence. }
  f_equal. unfold g. rewrite linsf_product. rewrite F23. cbn [as_component c_nspin]. rewrite F12. cbn [n_wfn w].
  apply linsf_rows, Forall2_map_in. intros r Hr j Hj. apply occ_indices_In, W in Hr. apply in_seq in Hj.
  cbn [n_params w]. unfold ms, entries. destruct t, (n_params w1) as [|x [|y [|? ?]]], (n_params w2) as [|x' [|y' [|? ?]]]; try contradiction; cbn [combine map spin_matrix transforms] in *.
  - destruct B as [B1 B2]; [discriminate|]. assert (Hn := valid_half _ _ V2). rewrite F22 in Hn. destruct Hn as [H2 Hn]. unfold n_ns, n_wns. cbn [n_nspin n_wfn]. rewrite F23, F12, F13, F22. cbn [as_component c_nspin]. rewrite F12, B1, B2.
    unfold n_ns in Hn. rewrite F22 in Hn. rewrite B1, B2, <- Hn in Hj. rewrite <- Hn in Hr |- *. rewrite blocks_product by lia. unfold times. cbn [m_at fst snd]. destruct T2 as [_ T2]. rewrite T2, B2. unfold w. cbn [n_nspin n_wfn]. rewrite B1, B2. reflexivity.
  - destruct B as [B1 B2]; [discriminate|]. assert (Hn := valid_half _ _ V2). rewrite F22 in Hn. destruct Hn as [H2 Hn]. unfold n_ns, n_wns. cbn [n_nspin n_wfn]. rewrite F23, F12, F13, F22. cbn [as_component c_nspin]. rewrite F12, B1, B2.
    unfold n_ns in Hn. rewrite F22 in Hn. rewrite B1, B2, <- Hn in Hj. rewrite <- Hn in Hr |- *. rewrite blocks_product by lia. unfold times. cbn [m_at fst snd]. destruct T2 as [[_ T2] [_ T2']]. rewrite T2, T2', B2. unfold w. cbn [n_nspin n_wfn]. rewrite B1, B2. reflexivity.
  - unfold times. cbn [m_at fst snd]. destruct T2 as [_ ->]. reflexivity.
Qed.
(** Restricted and unrestricted transformations keep the numbers of alpha and of beta electrons. *)
Theorem C64_spin : forall ne nspin c a (w : nonorth K) t k f na nb sd, new_nonorth ne nspin c a = Ok w -> n_orbtype w = Some t -> t <> Generalized -> c_nspin c = nspin ->
  overlaps_of c k f -> within (Z.to_nat nspin) sd -> has_electrons sd k ->
  let ns := Z.to_nat (nspin / 2) in
  (forall m, within (Z.to_nat nspin) m -> ~ (alphas ns m = na /\ betas ns (ns + ns) m = nb) -> f m = 0) ->
  ~ (alphas ns sd = na /\ betas ns (ns + ns) sd = nb) -> n_overlap w sd = Ok 0.
Proof.
  intros ne nspin c a w t k f na nb sd E O G Ec F W El ns Z0 N0. pose proof (new_valid _ _ _ _ _ _ E O) as V. destruct (new_fields _ _ _ _ _ E) as (F1 & F2 & F3 & F4 & _).
  unfold n_overlap. rewrite (olp_blocks w t f k sd V G); rewrite ?F2, ?F3; auto. f_equal.
  assert (Ew : c_nspin (n_wfn w) = n_nspin w) by congruence.
  destruct (valid_blocks w t V G Ew) as (ma & mb & Ea & Eb & R1 & R2 & R3 & R4 & S0 & Ews & Rm). destruct (valid_half w t V) as [H2 Hn].
  destruct (split_rows sd (n_nspin w) H2) as (al & be & Es & Eo & Ha & Hb). fold (n_ns w) in Eo, Ha, Hb.
  assert (Nn : n_ns w = ns) by (unfold n_ns, ns; now rewrite F2). rewrite Ews, S0, Eo. rewrite Nn in *. rewrite F2 in Hn. rewrite Ec, <- Hn.
  rewrite linsf_block_rows by (intros j Hj; now apply Ha in Hj).
  apply block_sum_spin. intros m Wm A Bm. apply Z0; [now rewrite <- Hn|]. rewrite A, Bm. intros X. apply N0. rewrite <- (proj1 X), <- (proj2 X).
  apply spin_counts.
  - apply increasing_NoDup, occ_indices_increasing.
  - apply increasing_NoDup, occ_indices_increasing.
  - intros j Hj. now apply Ha in Hj.
  - intros j Hj. apply Hb, W in Hj. lia.
  - intros j. rewrite <- Eo. symmetry. apply occ_indices_In.
Qed.
(** Derivatives: of this wavefunction only, with respect to its own parameters. *)
Theorem C64_arguments : forall (w : nonorth K) sd t d,
  (forall i, t = TWfn i -> n_overlap_deriv w sd t d = Err (if Nat.eqb i (c_id (n_wfn w)) then NotImplementedError else ValueError)) /\
  (forall i, t = TSelf -> In i d -> ~ (0 <= i < n_nparams w)%Z -> n_overlap_deriv w sd t d = Err ValueError) /\
  (forall l, n_overlap_deriv w sd t d = Ok l -> t = TSelf /\ length l = length d /\ Forall (fun i => (0 <= i < n_nparams w)%Z) d).
Proof.
  intros w sd t d. unfold n_overlap_deriv, n_deriv_check.
  assert (L : forall d out l, fill w sd d out = Ok l -> length l = length out).
  { induction d0 as [|x d0 IH]; intros out l; cbn [fill]; [intros X; now apply Ok_inj in X as ->|].
    destruct (n_place w x) as [[[t' r] q]|]; [|discriminate]. cbn [bind]. destruct (skipped w sd t' r); [apply IH|].
    destruct (n_dolp w (sd, x)) as [v|]; [|discriminate]. cbn [bind]. destruct (Nat.ltb x (length out)); [|discriminate]. intros X. apply IH in X. rewrite X. apply BicliqueLemmas.upd_length. }
  repeat split.
  - intros i ->. destruct (Nat.eqb _ _); reflexivity.
  - intros i -> Hi N0. replace (existsb _ d) with true; [reflexivity|]. symmetry. apply existsb_exists. exists i. split; auto.
    destruct (Z.ltb_spec i 0), (Z.leb_spec (n_nparams w) i); auto; lia.
  - destruct t as [|i]; [reflexivity|]. destruct (Nat.eqb _ _) in H; discriminate.
  - destruct t as [|i]; [|destruct (Nat.eqb _ _) in H; discriminate]. destruct (existsb _ d); [discriminate|]. cbn [bind] in H. apply L in H. now rewrite repeat_length in H.
  - destruct t as [|i]; [|destruct (Nat.eqb _ _) in H; discriminate]. destruct (existsb _ d) eqn:X; [discriminate|]. apply Forall_forall. intros i Hi.
    assert (Q : ~ (i < 0 \/ n_nparams w <= i)%Z); [|lia]. intros Y. assert (B : true = false); [|discriminate]. rewrite <- X. symmetry. apply existsb_exists. exists i. split; auto.
    apply orb_true_iff. destruct Y; [left; now apply Z.ltb_lt|right; now apply Z.leb_le].
Qed.
Lemma nth_upd_neq : forall (l : list K) i j v, i <> j -> nth i (upd l j v) 0 = nth i l 0.
Proof. induction l as [|y l IH]; intros [|i] [|j] v H; cbn [upd nth]; auto; try congruence. Qed.
Lemma fill_ok : forall (w : nonorth K) sd d out, NoDup d ->
  (forall i, In i d -> (i < length out)%nat /\ exists t r q, n_place w i = Ok (t, r, q) /\ (skipped w sd t r = false -> exists v, n_dolp w (sd, i) = Ok v)) ->
  exists g, fill w sd d out = Ok g /\ length g = length out /\
    forall i, nth i g 0 = if existsb (Nat.eqb i) d then match n_place w i with Ok (t, r, _) => if skipped w sd t r then nth i out 0 else match n_dolp w (sd, i) with Ok v => v | Err _ => 0 end | Err _ => 0 end else nth i out 0.
Proof.
  intros w sd d. induction d as [|i d IH]; intros out N H; cbn [fill]; [exists out; repeat split; auto|]. apply NoDup_cons_iff in N as [Ni N].
  assert (Ex : existsb (Nat.eqb i) d = false) by (apply not_true_iff_false; intros X; apply existsb_exists in X as (j & Hj & X); apply Nat.eqb_eq in X as ->; contradiction).
  destruct (H i (or_introl eq_refl)) as (Li & t & r & q & Ep & Hv). rewrite Ep. cbn [bind]. destruct (skipped w sd t r) eqn:Sk.
  - destruct (IH out N) as (g & Eg & Lg & Hg); [intros j Hj; apply H; now right|]. exists g. repeat split; auto. intros j. rewrite Hg. cbn [existsb].
    destruct (Nat.eqb_spec j i) as [->|]; cbn [orb]; [|reflexivity]. rewrite Ex, Ep, Sk. reflexivity.
  - destruct (Hv eq_refl) as [v Ev]. rewrite Ev. cbn [bind]. rewrite (proj2 (Nat.ltb_lt _ _) Li).
    destruct (IH (upd out i v) N) as (g & Eg & Lg & Hg); [intros j Hj; rewrite BicliqueLemmas.upd_length; apply H; now right|]. exists g. rewrite BicliqueLemmas.upd_length in Lg. repeat split; auto.
    intros j. rewrite Hg. cbn [existsb]. destruct (Nat.eqb_spec j i) as [->|Ne]; cbn [orb].
    + rewrite Ex, Ep, Sk, Ev. now apply BicliqueLemmas.nth_upd_eq.
    + now rewrite nth_upd_neq by auto.
Qed.
(** every number below that of the parameters is that of an entry *)
Lemma numbers : forall (w : nonorth K) o i, valid w o -> (i < Z.to_nat (n_nparams w))%nat ->
  exists t r q m, nth_error (n_params w) t = Some m /\ (r < m_rows m)%nat /\ (q < m_cols m)%nat /\ i = number (n_params w) t r q.
Proof.
  intros w o i (_ & T & _) Hi. unfold n_nparams in Hi.
  assert (Q : forall m : matrix K, forall i, (i < m_rows m * m_cols m)%nat -> exists r q, (r < m_rows m)%nat /\ (q < m_cols m)%nat /\ i = (r * m_cols m + q)%nat).
  { intros m j Hj. assert (m_cols m <> 0%nat) by (intros X; rewrite X in Hj; lia). exists (j / m_cols m)%nat, (j mod m_cols m)%nat. split; [apply Nat.div_lt_upper_bound; lia|]. split; [now apply Nat.mod_upper_bound|].
    rewrite Nat.mul_comm. now apply Nat.div_mod. }
  destruct o, (n_params w) as [|x [|y [|? ?]]]; try contradiction; cbn [transforms fold_right number] in *.
  - destruct (Q x i) as (r & q & Hr & Hq & ->); [lia|]. exists 0%nat, r, q, x. repeat split; auto.
  - destruct (Nat.ltb_spec i (m_rows x * m_cols x)) as [L|L].
    + destruct (Q x i L) as (r & q & Hr & Hq & ->). exists 0%nat, r, q, x. repeat split; auto.
    + destruct (Q y (i - m_rows x * m_cols x)%nat) as (r & q & Hr & Hq & X); [lia|]. exists 1%nat, r, q, y. repeat split; auto. destruct T as [[_ X1] [_ X2]]. rewrite X1, <- X2, <- X. rewrite X1, <- X2 in L. lia.
  - destruct (Q x i) as (r & q & Hr & Hq & ->); [lia|]. exists 0%nat, r, q, x. repeat split; auto.
Qed.
Lemma number_bound : forall (w : nonorth K) o t r q m, valid w o -> nth_error (n_params w) t = Some m -> (r < m_rows m)%nat -> (q < m_cols m)%nat -> (number (n_params w) t r q < Z.to_nat (n_nparams w))%nat.
Proof.
  intros w o t r q m (_ & T & _) E Hr Hq. unfold n_nparams. assert (B : (r * m_cols m + q < m_rows m * m_cols m)%nat) by nia.
  destruct o, (n_params w) as [|x [|y [|? ?]]]; try contradiction; cbn [transforms fold_right number] in *.
  - destruct t as [|[|t]]; try discriminate. injection E as ->. lia.
  - destruct T as [[X1 X2] [X3 X4]]. destruct t as [|[|[|t]]]; try discriminate; injection E as ->; [lia|]. rewrite X1, X2, <- X3, <- X4. lia.
  - destruct t as [|[|t]]; try discriminate. injection E as ->. lia.
Qed.
Lemma skipped_occupied : forall (w : nonorth K) o sd t r, n_orbtype w = Some o -> (skipped w sd t r = false <-> occupied o (n_ns w) sd t r).
Proof.
  intros w o sd t r O. unfold skipped, occupied. rewrite O. destruct o; rewrite negb_false_iff, ?orb_true_iff, !occ_bit; reflexivity.
Qed.
Lemma put_transforms : forall o co ci (ms : list (matrix K)) t r q x, transforms o co ci ms -> transforms o co ci (put_at ms t r q x).
Proof.
  intros o co ci ms t r q x T. unfold put_at. destruct o, ms as [|a [|b [|? ?]]]; try contradiction; cbn [transforms] in *.
  - destruct t as [|t]; [exact T|]. destruct t; exact T.
  - destruct t as [|[|t]]; [exact T|exact T|]. destruct t; exact T.
  - destruct t as [|t]; [exact T|]. destruct t; exact T.
Qed.
(** The overlap with one entry of a matrix replaced is at most quadratic in that entry; the derivatives are the
    coefficients of the linear term.  The numbers of the parameters may come in any order, the answer is always in the
    order of the parameters. *)
Theorem C64_gradient : forall ne nspin c a (w : nonorth K) o k f sd d, new_nonorth ne nspin c a = Ok w -> n_orbtype w = Some o ->
  (o = Generalized -> k = Z.to_nat ne) -> (o <> Generalized -> c_nspin c = nspin) -> overlaps_of c k f -> within (Z.to_nat nspin) sd -> has_electrons sd k ->
  Permutation d (seq 0 (Z.to_nat (n_nparams w))) ->
  exists g, n_overlap_deriv w sd TSelf (map Z.of_nat d) = Ok g /\ length g = Z.to_nat (n_nparams w) /\
  forall t r q m, nth_error (n_params w) t = Some m -> (r < m_rows m)%nat -> (q < m_cols m)%nat ->
    exists v, nth_error g (number (n_params w) t r q) = Some v /\ (~ occupied o (Z.to_nat (nspin / 2)) sd t r -> v = 0) /\
    (differentiable o (Z.to_nat (nspin / 2)) sd t r ->
    exists y0 e, n_overlap w sd = Ok y0 /\ forall x, exists w', new_nonorth ne nspin c (NMats (put_at (n_params w) t r q x)) = Ok w' /\
      n_overlap w' sd = Ok (y0 + (x - m_at m r q) * v + (x - m_at m r q) * (x - m_at m r q) * e)).
Proof.
  intros ne nspin c a w o k f sd d E O G B F W El Pd. pose proof (new_valid _ _ _ _ _ _ E O) as V. pose proof (new_sized _ _ _ _ _ _ k E G B) as Sz.
  destruct (new_fields _ _ _ _ _ E) as (F1 & F2 & F3 & F4 & F5 & F6). rewrite <- F3 in F. rewrite <- F2 in W.
  assert (Hd : forall i, In i d <-> (i < Z.to_nat (n_nparams w))%nat).
  { intros i. split; intros Hi; [apply (Permutation_in _ Pd), in_seq in Hi; lia|apply (Permutation_in _ (Permutation_sym Pd)), in_seq; lia]. }
  assert (Ld : length d = Z.to_nat (n_nparams w)) by (rewrite (Permutation_length Pd); apply seq_length).
  destruct (fill_ok w sd d (repeat 0 (length d))) as (g & Eg & Lg & Hg).
  { eapply Permutation_NoDup; [apply Permutation_sym, Pd|apply seq_NoDup]. }
  { intros i Hi. apply Hd in Hi. split; [rewrite repeat_length; lia|]. destruct (numbers w o i V Hi) as (t & r & q & m & Em & Hr & Hq & ->). exists t, r, q.
    split; [eapply place; eauto|]. intros Sk. eapply dolp_some; eauto. }
  exists g. split; [|split].
  - unfold n_overlap_deriv, n_deriv_check. replace (existsb _ (map Z.of_nat d)) with false.
    + cbn [bind]. rewrite map_map, map_length. rewrite (map_ext _ (fun i => i)) by (intros; apply Nat2Z.id). rewrite map_id. exact Eg.
    + symmetry. apply not_true_iff_false. intros X. apply existsb_exists in X as (z & Hz & X). apply in_map_iff in Hz as (i & <- & Hi). apply Hd in Hi. apply orb_true_iff in X as [X|X]; [apply Z.ltb_lt in X|apply Z.leb_le in X]; lia.
  - rewrite Lg, repeat_length. exact Ld.
  - intros t r q m Em Hr Hq. pose proof (number_bound w o t r q m V Em Hr Hq) as Bn. pose proof (place w o k t r q m V Sz Em Hr Hq) as Pl.
    exists (nth (number (n_params w) t r q) g 0). split; [apply nth_error_nth'; rewrite Lg, repeat_length; lia|].
    assert (Nn : n_ns w = Z.to_nat (nspin / 2)) by (unfold n_ns; now rewrite F2).
    assert (Hv : nth (number (n_params w) t r q) g 0 = if skipped w sd t r then 0 else match n_dolp w (sd, number (n_params w) t r q) with Ok v => v | Err _ => 0 end).
    { rewrite Hg. replace (existsb _ d) with true.
      - rewrite Pl. destruct (skipped w sd t r); auto. destruct (Nat.ltb_spec (number (n_params w) t r q) (length d)) as [L|L]; [now apply nth_repeat|apply nth_overflow; now rewrite repeat_length].
      - symmetry. apply existsb_exists. eexists. split; [apply Hd, Bn|apply Nat.eqb_refl]. }
    split.
    + intros No. rewrite Hv. destruct (skipped w sd t r) eqn:Sk; auto. exfalso. apply No. rewrite <- Nn. now apply (skipped_occupied w o sd t r O).
    + intros Df. rewrite <- Nn in Df.
      assert (Ty : taylor w o f sd t r q m (nth (number (n_params w) t r q) g 0)).
      { rewrite Hv. assert (D : skipped w sd t r = true /\ taylor w o f sd t r q m 0 \/ skipped w sd t r = false /\ exists d, n_dolp w (sd, number (n_params w) t r q) = Ok d /\ taylor w o f sd t r q m d).
        { destruct (match o with Generalized => true | _ => false end) eqn:Og.
          - apply (dolp_taylor_general w o f k); auto. destruct o; congruence.
          - apply (dolp_taylor_blocks w o f k); auto. intros X. rewrite X in Og. discriminate. }
        destruct D as [[-> Ty]|(-> & v & -> & Ty)]; exact Ty. }
      destruct Ty as [e Ty]. exists (at_0 w o f sd), e. split; [apply (olp_value w o f k sd V Sz F W El)|].
      intros x. set (w' := mkno ne nspin c (put_at (n_params w) t r q x)). exists w'.
      assert (E' : new_nonorth ne nspin c (NMats (put_at (n_params w) t r q x)) = Ok w').
      { apply C64_constructor. repeat split; auto; [now apply C64_constructor in E as (_ & _ & _ & ? & _)|]. exists o, (put_at (n_params w) t r q x). split; [now right|]. split; [|reflexivity].
        apply put_transforms. apply (C64_orbtype _ _ _ _ _ o E). exact O. }
      split; [exact E'|]. rewrite <- Ty.
      assert (O' : n_orbtype w' = Some o).
      { apply (C64_orbtype _ _ _ _ _ o E'). unfold w'. cbn [n_params]. apply put_transforms. apply (C64_orbtype _ _ _ _ _ o E). exact O. }
      unfold n_overlap. rewrite (olp_value w' o f k sd (new_valid _ _ _ _ _ _ E' O') (new_sized _ _ _ _ _ _ _ E' G B)); auto.
      * unfold at_x. rewrite F3. unfold n_ns, n_wns. rewrite F2, F3. reflexivity.
      * rewrite F3 in F. exact F.
      * rewrite F2 in W. exact W.
Qed.
(** A single parameter of an occupied orbital, other than the first, is an error: the answer is written to the place
    with the number of the parameter. *)
Theorem C64_indices_refuted : forall ne nspin c a (w : nonorth K) o k f sd t r q m, new_nonorth ne nspin c a = Ok w -> n_orbtype w = Some o ->
  (o = Generalized -> k = Z.to_nat ne) -> (o <> Generalized -> c_nspin c = nspin) -> overlaps_of c k f -> within (Z.to_nat nspin) sd -> has_electrons sd k ->
  nth_error (n_params w) t = Some m -> (r < m_rows m)%nat -> (q < m_cols m)%nat -> occupied o (Z.to_nat (nspin / 2)) sd t r -> number (n_params w) t r q <> 0%nat ->
  n_overlap_deriv w sd TSelf [Z.of_nat (number (n_params w) t r q)] = Err IndexError.
Proof.
  intros ne nspin c a w o k f sd t r q m E O G B F W El Em Hr Hq Oc N0. pose proof (new_valid _ _ _ _ _ _ E O) as V. pose proof (new_sized _ _ _ _ _ _ k E G B) as Sz.
  destruct (new_fields _ _ _ _ _ E) as (F1 & F2 & F3 & F4 & F5 & F6). rewrite <- F3 in F. rewrite <- F2 in W.
  pose proof (number_bound w o t r q m V Em Hr Hq) as Bn. pose proof (place w o k t r q m V Sz Em Hr Hq) as Pl.
  assert (Nn : n_ns w = Z.to_nat (nspin / 2)) by (unfold n_ns; now rewrite F2). rewrite <- Nn in Oc. apply (skipped_occupied w o sd t r O) in Oc.
  destruct (dolp_some w o f k sd t r q m V Sz F W El Em Hr Hq Oc) as [v Ev].
  unfold n_overlap_deriv, n_deriv_check. cbn [existsb]. rewrite (proj2 (Z.ltb_ge _ _)), (proj2 (Z.leb_gt _ _)) by lia. cbn [orb bind map fill length repeat]. rewrite Nat2Z.id, Pl. cbn [bind]. rewrite Oc, Ev. cbn [bind length].
  destruct (Nat.ltb_spec (number (n_params w) t r q) 1); [lia|reflexivity].
Qed.
Lemma nkey_ok : forall x y, nkey_eqb x y = true <-> x = y.
Proof. intros [a b] [a' b']. unfold nkey_eqb. cbn [fst snd]. rewrite andb_true_iff, N.eqb_eq, Nat.eqb_eq. split; [intros [-> ->]; reflexivity|intros X; injection X as -> ->; auto]. Qed.
(** The cached methods answer as the uncached ones, in all interleavings of get_overlap, assign_params and clear_cache. *)
Theorem C64_program : forall (w : nonorth K) sd t d,
  value n_olp n_dolp w (n_get w (sd, None)) = (do v <- n_overlap w sd; Ok (Scalar v)) /\
  value n_olp n_dolp w (n_get w (sd, Some (t, d))) = (do l <- n_overlap_deriv w sd t d; Ok (Array l)).
Proof.
  intros w sd t d. split; unfold n_get; cbn [fst snd value].
  - unfold n_overlap. destruct (n_olp w sd); reflexivity.
  - unfold n_overlap_deriv. destruct (n_deriv_check w t d); [|reflexivity]. cbn [bind]. generalize (repeat (0 : K) (length d)) as out. induction (map Z.to_nat d) as [|i l IH]; intros out; cbn [fill fill_prog value]; [reflexivity|].
    destruct (n_place w i) as [[[t' r] q]|]; [|reflexivity]. cbn [bind]. destruct (skipped w sd t' r); [apply IH|]. cbn [value]. destruct (n_dolp w (sd, i)) as [v|]; [|reflexivity]. cbn [bind].
    destruct (Nat.ltb i (length out)); [apply IH|reflexivity].
Qed.
Theorem C64_history : forall (w : nonorth K) memory h, (forall d, ~ In (EEnable d) h) -> (forall q, ~ In (ESet q) h) ->
  agrees n_olp n_dolp n_get n_assign_params set_any w h (n_run (n_object w memory) h).
Proof.
  intros w memory h He Hs.
  assert (C : forall n, (n <= 1)%nat -> careful n h).
  { intros n Hn. clear w. induction h as [|e h IH]; [exact I|]. assert (X : careful n h) by (apply IH; intros ? ?; [eapply He|eapply Hs]; right; eassumption).
    destruct e; cbn [careful]; auto; exfalso; [eapply Hs|eapply He]; left; reflexivity. }
  unfold n_run, n_object, constructed.
  pose proof (C48_transparent N.eqb nkey_eqb N.eqb_eq nkey_ok n_olp n_dolp n_get n_assign_params set_any n_nparams w memory (EEnable true :: h)) as T.
  cbn [run step agrees] in T. apply T. cbn [careful]. apply C. lia.
Qed.
(** Findings.  assign_wfn, and assign_params of the wrapped wavefunction, leave the caches filled. *)
Theorem C64_stale_refuted : forall (w w' : nonorth K) change sd v, n_overlap w sd = Ok v -> change w = Ok w' ->
  n_run (n_object w None) [EGet (sd, None); ESet change; EGet (sd, None)] = [AGet (Ok (Scalar v)); ADone; AGet (Ok (Scalar v))].
Proof.
  intros w w' change sd v E A. unfold n_run, n_object, constructed. unfold n_overlap in E. cbn. rewrite E. cbn. unfold set_any at 1. rewrite A. cbn. rewrite N.eqb_refl. reflexivity.
Qed.
(** Generalized orbitals: a determinant with another number of electrons has no overlap, but an error. *)
Theorem C64_electrons_refuted : forall ne nspin c a (w : nonorth K) k f sd, new_nonorth ne nspin c a = Ok w -> n_orbtype w = Some Generalized ->
  overlaps_of c (Z.to_nat ne) f -> (ne <= c_nspin c)%Z -> within (Z.to_nat nspin) sd -> has_electrons sd k -> k <> Z.to_nat ne ->
  n_overlap w sd = Err (Exc 1).
Proof.
  intros ne nspin c a w k f sd E O F Le W El Ne. pose proof (new_valid _ _ _ _ _ _ E O) as V. destruct (new_fields _ _ _ _ _ E) as (F1 & F2 & F3 & F4 & F5 & F6).
  destruct (valid_general w V) as (m & Ep & Em & R1 & R2). unfold n_overlap, n_olp. rewrite O, F1, F3.
  set (cs := combinations (seq 0 (Z.to_nat (c_nspin c))) (Z.to_nat ne)).
  assert (X : exists s l, cs = s :: l).
  { destruct cs as [|s l] eqn:Ec; [|eauto]. exfalso. assert (I : In (seq 0 (Z.to_nat ne)) cs).
    { unfold cs. apply combinations_increasing_In; [apply increasing_seq|]. split; [apply increasing_seq|]. split; [|apply seq_length]. intros i Hi. apply in_seq in Hi. apply in_seq. lia. }
    rewrite Ec in I. destruct I. }
  destruct X as (s & l & Ec). assert (Is : In s cs) by (rewrite Ec; now left). unfold sumM. rewrite Ec. cbn [mapM].
  unfold cs in Is. apply sub_perm in Is as (Ds & Ls & Bs); [|apply increasing_seq].
  assert (Bs' : forall i, In i s -> (i < Z.to_nat (c_nspin c))%nat) by (intros i Hi; apply Bs, in_seq in Hi; lia).
  rewrite (n_at_ok w f (Z.to_nat ne)); auto; try (rewrite F3; auto). cbn [bind]. rewrite Em. cbn [bind]. unfold minor.
  replace (forallb _ (occ_indices (Some sd))) with true.
  2:{ symmetry. apply forallb_forall. intros i Hi. apply Nat.ltb_lt. apply occ_indices_In, W in Hi. rewrite R1. rewrite F2. lia. }
  replace (forallb _ s) with true.
  2:{ symmetry. apply forallb_forall. intros i Hi. apply Nat.ltb_lt. apply Bs' in Hi. rewrite R2, F3. lia. }
  cbn [negb]. rewrite (occ_length _ _ El), Ls. rewrite (proj2 (Nat.eqb_neq _ _)) by auto. reflexivity.
Qed.
Lemma affine_any : forall cols (C : nat -> nat -> K) rows R Q (f : N -> K) n, NoDup cols -> In Q cols -> NoDup rows -> exists b, forall x C',
  (forall i j, In i rows -> In j cols -> C' i j = if (Nat.eqb i R && Nat.eqb j Q)%bool then x else C i j) ->
  linsf cols (map C' rows) f n = linsf cols (map C rows) f n + (x - C R Q) * b.
Proof.
  intros cols C rows R Q f n Dc HQ Dr. destruct (in_dec Nat.eq_dec R rows) as [I|I].
  - apply in_split in I as (l1 & l2 & ->). apply NoDup_remove_2 in Dr. rewrite in_app_iff in Dr. eexists. intros x C' E. rewrite (linsf_affine cols C C' R Q x l1 l2); auto.
  - exists 0. intros x C' E. rewrite (linsf_rows cols _ (map C rows)); [ring|]. apply Forall2_map_in. intros i Hi j Hj. rewrite E by auto. rewrite (proj2 (Nat.eqb_neq i R)); [reflexivity|]. now intros ->.
Qed.
Lemma quadratic_any : forall cols (C : nat -> nat -> K) rows R1 Q1 R2 Q2 (f : N -> K) n x0, NoDup cols -> In Q1 cols -> In Q2 cols -> NoDup rows -> R1 <> R2 -> C R1 Q1 = x0 -> C R2 Q2 = x0 ->
  exists b e, forall x C',
  (forall i j, In i rows -> In j cols -> C' i j = if (Nat.eqb i R1 && Nat.eqb j Q1)%bool then x else if (Nat.eqb i R2 && Nat.eqb j Q2)%bool then x else C i j) ->
  linsf cols (map C' rows) f n = linsf cols (map C rows) f n + (x - x0) * b + (x - x0) * (x - x0) * e.
Proof.
  intros cols C rows R1 Q1 R2 Q2 f n x0 Dc H1 H2 Dr Ne E1 E2.
  set (Cx := fun x i j => if (Nat.eqb i R2 && Nat.eqb j Q2)%bool then x else C i j).
  destruct (affine_any cols C rows R2 Q2 f n Dc H2 Dr) as [b2 Hb2].
  destruct (in_dec Nat.eq_dec R1 rows) as [I|I].
  - apply in_split in I as (l1 & l2 & ->). pose proof (NoDup_remove_2 _ _ _ Dr) as Nr. rewrite in_app_iff in Nr. pose proof (NoDup_remove_1 _ _ _ Dr) as Dr'.
    destruct (affine_any cols C (l1 ++ l2) R2 Q2 (opf (Cre Q1) f) n Dc H2 Dr') as [b1 Hb1].
    exists (b2 + m1pow (length l1) * linsf cols (map C (l1 ++ l2)) (opf (Cre Q1) f) n), (m1pow (length l1) * b1). intros x C' E.
    rewrite (linsf_affine cols (Cx x) C' R1 Q1 x l1 l2); auto. rewrite (Hb2 x (Cx x)), (Hb1 x (Cx x)) by reflexivity. unfold Cx at 1. rewrite (proj2 (Nat.eqb_neq R1 R2) Ne). cbn [andb]. rewrite E1, E2. ring.
  - exists b2, 0. intros x C' E. rewrite (Hb2 x C'); [rewrite E2; ring|]. intros i j Hi Hj. rewrite E by auto. rewrite (proj2 (Nat.eqb_neq i R1)); [reflexivity|]. now intros ->.
Qed.
(** The overlap is at most quadratic in any entry of the matrices. *)
Theorem C64_quadratic : forall ne nspin c a (w : nonorth K) o k f sd t r q m, new_nonorth ne nspin c a = Ok w -> n_orbtype w = Some o ->
  (o = Generalized -> k = Z.to_nat ne) -> (o <> Generalized -> c_nspin c = nspin) -> overlaps_of c k f -> within (Z.to_nat nspin) sd -> has_electrons sd k ->
  nth_error (n_params w) t = Some m -> (r < m_rows m)%nat -> (q < m_cols m)%nat ->
  exists y0 b e, n_overlap w sd = Ok y0 /\ (o <> Restricted -> e = 0) /\ forall x, exists w', new_nonorth ne nspin c (NMats (put_at (n_params w) t r q x)) = Ok w' /\
      n_overlap w' sd = Ok (y0 + (x - m_at m r q) * b + (x - m_at m r q) * (x - m_at m r q) * e).
Proof.
  intros ne nspin c a w o k f sd t r q m E O G B F W El Em Hr Hq. pose proof (new_valid _ _ _ _ _ _ E O) as V. pose proof (new_sized _ _ _ _ _ _ k E G B) as Sz.
  destruct (new_fields _ _ _ _ _ E) as (F1 & F2 & F3 & F4 & F5 & F6). rewrite <- F3 in F. rewrite <- F2 in W.
  enough (X : exists b e, (o <> Restricted -> e = 0) /\ forall x, at_x w o f sd t r q x = at_0 w o f sd + (x - m_at m r q) * b + (x - m_at m r q) * (x - m_at m r q) * e).
  { destruct X as (b & e & He & X). exists (at_0 w o f sd), b, e. split; [apply (olp_value w o f k sd V Sz F W El)|]. split; [exact He|].
    intros x. set (w' := mkno ne nspin c (put_at (n_params w) t r q x)). exists w'.
    assert (T : transforms o nspin (c_nspin c) (put_at (n_params w) t r q x)) by (apply put_transforms; apply (C64_orbtype _ _ _ _ _ o E); exact O).
    assert (E' : new_nonorth ne nspin c (NMats (put_at (n_params w) t r q x)) = Ok w').
    { apply C64_constructor. repeat split; auto; [now apply C64_constructor in E as (_ & _ & _ & ? & _)|]. exists o, (put_at (n_params w) t r q x). split; [now right|]. split; [exact T|reflexivity]. }
    split; [exact E'|]. rewrite <- X.
    assert (O' : n_orbtype w' = Some o) by (apply (C64_orbtype _ _ _ _ _ o E'); exact T).
    unfold n_overlap. rewrite (olp_value w' o f k sd (new_valid _ _ _ _ _ _ E' O') (new_sized _ _ _ _ _ _ _ E' G B)); auto.
    - unfold at_x. rewrite F3. unfold n_ns, n_wns. rewrite F2, F3. reflexivity.
    - rewrite F3 in F. exact F.
    - rewrite F2 in W. exact W. }
  unfold at_x, at_0. set (cols := seq 0 (Z.to_nat (c_nspin (n_wfn w)))). assert (Dc : NoDup cols) by apply seq_NoDup.
  assert (Dr : NoDup (occ_indices (Some sd))) by (apply increasing_NoDup, occ_indices_increasing).
  assert (Hrow : forall i, In i (occ_indices (Some sd)) -> bit sd i = true) by (intros i; apply occ_indices_In).
  destruct (match o with Generalized => true | _ => false end) eqn:Og.
  - assert (Oe : o = Generalized) by (destruct o; congruence). subst o. destruct (valid_general w V) as (m' & Ep & Em' & R1 & R2). rewrite Ep in *.
    destruct t as [|[|?]]; try discriminate. injection Em as ->. destruct (affine_any cols (m_at m) (occ_indices (Some sd)) r q f 0%N Dc) as [b Hb]; auto; [apply in_seq; lia|].
    exists b, 0. split; auto. intros x. rewrite (Hb x); [cbn [entries map spin_matrix]; ring|]. intros i j _ _. reflexivity.
  - assert (Gn : o <> Generalized) by (intros X; rewrite X in Og; discriminate). assert (Ew : c_nspin (n_wfn w) = n_nspin w) by (unfold sized in Sz; destruct o; auto; congruence).
    destruct (valid_blocks w o V Gn Ew) as (ma & mb & Ea & Eb & R1 & R2 & R3 & R4 & S0 & Ews & Rm). destruct (valid_half w o V) as [H2 Hn].
    assert (Hc : forall j, (j < n_ns w + n_ns w)%nat -> In j cols) by (intros j Hj; apply in_seq; rewrite Ew; lia).
    rewrite Ews, S0. unfold n_mat in Ea, Eb. destruct o; [| |congruence]; destruct V as (_ & T & _); destruct (n_params w) as [|x [|y [|? ?]]]; try contradiction; cbn [transforms] in T; cbn [nth_error beta_of] in *.
    + specialize (Rm eq_refl). subst mb. apply Ok_inj in Ea. subst ma. destruct t as [|[|?]]; try discriminate. injection Em as ->.
      destruct (quadratic_any cols (OrbSpec.blocks (n_ns w) (n_ns w) (m_at m) (m_at m)) (occ_indices (Some sd)) r q (r + n_ns w) (q + n_ns w) f 0%N (m_at m r q)) as (b & e & H); auto.
      * apply Hc. lia.
      * apply Hc. lia.
      * lia.
      * apply blocks_at_alpha; lia.
      * apply blocks_at_beta.
      * exists b, e. split; [congruence|]. intros x. apply (H x). intros i j Hi Hj. cbn [put_at firstn skipn nth_error app entries map spin_matrix]. rewrite blocks_put_beta, blocks_put_alpha by lia.
        destruct (Nat.eqb i r && Nat.eqb j q)%bool, (Nat.eqb i (r + n_ns w) && Nat.eqb j (q + n_ns w))%bool; reflexivity.
    + apply Ok_inj in Ea, Eb. subst ma mb. destruct t as [|[|[|?]]]; try discriminate; injection Em as ->.
      * destruct (affine_any cols (OrbSpec.blocks (n_ns w) (n_ns w) (m_at m) (m_at y)) (occ_indices (Some sd)) r q f 0%N Dc) as [b Hb]; auto; [apply Hc; lia|].
        exists b, 0. split; auto. intros x. rewrite (Hb x); [rewrite blocks_at_alpha by lia; ring|]. intros i j Hi Hj. cbn [put_at firstn skipn nth_error app entries map spin_matrix]. apply blocks_put_alpha; lia.
      * destruct (affine_any cols (OrbSpec.blocks (n_ns w) (n_ns w) (m_at x) (m_at m)) (occ_indices (Some sd)) (r + n_ns w) (q + n_ns w) f 0%N Dc) as [b Hb]; auto; [apply Hc; lia|].
        exists b, 0. split; auto. intros z. rewrite (Hb z); [rewrite blocks_at_beta by lia; ring|]. intros i j Hi Hj. cbn [put_at firstn skipn nth_error app entries map spin_matrix]. apply blocks_put_beta.
Qed.
End C64b.

(** Findings: derivatives that are not those of the overlap.  The overlap is [y0 + (x - x0) * b + (x - x0)^2 * e]. *)
Section Wrong.
Local Open Scope Z_scope.
Lemma wrong_derivative : forall nelec nspin p ms sd t r q x0 d i y1 y2,
  no_at nelec nspin p ms sd t r q (x0 + 1) = Ok y1 -> no_at nelec nspin p ms sd t r q (x0 - 1) = Ok y2 -> y1 - y2 <> 2 * nth i d 0 ->
  forall y0 b e, (forall x, no_at nelec nspin p ms sd t r q x = Ok (y0 + (x - x0) * b + (x - x0) * (x - x0) * e)) -> b <> nth i d 0.
Proof. intros nelec nspin p ms sd t r q x0 d i y1 y2 E1 E2 N y0 b e H X. rewrite H in E1, E2. apply Ok_inj in E1, E2. apply N. rewrite <- E1, <- E2, <- X. ring. Qed.
(** restricted orbitals, alpha electrons in two orbitals, a beta electron in the first: the sign is missing *)
Theorem C64_restricted_both_refuted : exists d, no_deriv 3 4 1 [no_22] 7 [0; 1; 2; 3] = Ok d /\
  forall y0 b e, (forall x, no_at 3 4 1 [no_22] 7 0 0 1 x = Ok (y0 + (x - 2) * b + (x - 2) * (x - 2) * e)) -> b <> nth 1 d 0.
Proof. eexists. split; [vm_compute; reflexivity|]. eapply wrong_derivative; try (vm_compute; reflexivity). vm_compute. discriminate. Qed.
(** restricted orbitals, a beta electron in an orbital without alpha electron: the sign of the alpha columns is used *)
Theorem C64_restricted_beta_refuted : exists d, no_deriv 2 4 1 [no_22] 9 [0; 1; 2; 3] = Ok d /\
  forall y0 b e, (forall x, no_at 2 4 1 [no_22] 9 0 1 1 x = Ok (y0 + (x - 5) * b + (x - 5) * (x - 5) * e)) -> b <> nth 3 d 0.
Proof. eexists. split; [vm_compute; reflexivity|]. eapply wrong_derivative; try (vm_compute; reflexivity). vm_compute. discriminate. Qed.
(** unrestricted orbitals, two beta electrons: the signs of the columns are multiplied up in the loop *)
Theorem C64_unrestricted_beta_refuted : exists d, no_deriv 3 6 1 [no_33; no_33] 25 (map Z.of_nat (seq 0 18)) = Ok d /\
  forall y0 b e, (forall x, no_at 3 6 1 [no_33; no_33] 25 1 0 1 x = Ok (y0 + (x - 2) * b + (x - 2) * (x - 2) * e)) -> b <> nth 10 d 0.
Proof. eexists. split; [vm_compute; reflexivity|]. eapply wrong_derivative; try (vm_compute; reflexivity). vm_compute. discriminate. Qed.
(** fewer orbitals in the wrapped wavefunction: the beta orbitals are counted from the wrong place *)
Theorem C64_nspatial_refuted : exists w, new_nonorth (K := Z_ring) 2 4 no_full (NMats [no_mat 2 1 [[3]; [5]]]) = Ok w /\ n_orbtype w = Some Restricted /\
  (forall m, get_olp no_full m = Ok (if N.eqb m 3 then 1 else 0)) /\ n_overlap w 5 = Ok 0 /\
  through (K := Z_ring) (fun m => if N.eqb m 3 then 1 else 0) (det_of (K := Z_ring) (spin_matrix (K := Z_ring) Restricted 2 1 (entries (n_params w))) (seq 0 2) [0%nat; 2%nat]) = 9.
Proof. eexists. split; [vm_compute; reflexivity|]. split; [reflexivity|]. split; [reflexivity|]. split; vm_compute; reflexivity. Qed.
(** the property seniority is that of the wrapped wavefunction for restricted and unrestricted orbitals *)
Theorem C64_seniority_refuted : exists w, new_nonorth (K := Z_ring) 2 4 no_pair (NMats [no_22]) = Ok w /\
  (forall v sd, get_olp no_pair sd = Ok v -> v <> 0 -> unpaired 2 sd = 0%nat) /\ n_seniority w (Some 0) = Some 0 /\
  unpaired 2 6 = 2%nat /\ exists v, n_overlap w 6 = Ok v /\ v <> 0.
Proof.
  eexists. split; [vm_compute; reflexivity|]. split.
  { intros v sd E N0. unfold get_olp, no_pair in E. cbn [c_olp c_params] in E. apply Ok_inj in E. subst v.
    destruct (N.eqb_spec sd 5); [subst; reflexivity|]. destruct (N.eqb_spec sd 10); [subst; reflexivity|]. contradiction. }
  split; [reflexivity|]. split; [reflexivity|]. eexists. split; [vm_compute; reflexivity|]. discriminate.
Qed.
End Wrong.

Section C64_deriv.
Context {F : CField}.
Local Notation K := (fring F).
Local Open Scope cr_scope.
Add Ring K_ring99 : (rth K).
Variable (Der : (K -> K) -> K -> K -> Prop).
Hypothesis C : calculus Der.
(** The derivatives of the overlap, in any field with a calculus. *)
Theorem C64_derivative : forall ne nspin c a (w : nonorth K) o k f sd, new_nonorth ne nspin c a = Ok w -> n_orbtype w = Some o ->
  (o = Generalized -> k = Z.to_nat ne) -> (o <> Generalized -> c_nspin c = nspin) -> overlaps_of c k f -> within (Z.to_nat nspin) sd -> has_electrons sd k ->
  exists g, n_overlap_deriv w sd TSelf (map Z.of_nat (seq 0 (Z.to_nat (n_nparams w)))) = Ok g /\ length g = Z.to_nat (n_nparams w) /\
  forall t r q m, nth_error (n_params w) t = Some m -> (r < m_rows m)%nat -> (q < m_cols m)%nat -> differentiable o (Z.to_nat (nspin / 2)) sd t r ->
    Der (fun x => okv (do u <- new_nonorth ne nspin c (NMats (put_at (n_params w) t r q x)); n_overlap u sd)) (m_at m r q) (nth (number (n_params w) t r q) g 0).
Proof.
  intros ne nspin c a w o k f sd E O G B Fo W El. destruct (C64_gradient ne nspin c a w o k f sd _ E O G B Fo W El (Permutation_refl _)) as (g & Eg & Lg & Hg).
  exists g. split; [exact Eg|]. split; [exact Lg|]. intros t r q m Em Hr Hq Df. destruct (Hg t r q m Em Hr Hq) as (v & Ev & _ & T). destruct (T Df) as (y0 & e & _ & Hx).
  rewrite (nth_error_nth _ _ 0 Ev). set (x0 := m_at m r q) in *.
  apply (cal_ext Der C (fun x => (y0 + (x - x0) * v) + ((x - x0) * e) * (x - x0))).
  - intros x. destruct (Hx x) as (w' & -> & Ew). cbn [bind]. rewrite Ew. cbn [okv]. ring.
  - assert (D1 : Der (fun x => x - x0) x0 1) by (eapply der_eq; [apply (der_sub Der C (fun x => x) (fun _ => x0)); [apply (cal_id Der C)|apply (cal_const Der C)]|ring]).
    assert (D2 : forall b, Der (fun x => (x - x0) * b) x0 b) by (intros b; eapply der_eq; [apply (cal_mul Der C (fun x => x - x0) (fun _ => b)); [exact D1|apply (cal_const Der C)]|ring]).
    eapply der_eq; [apply (cal_add Der C); [apply (cal_add Der C); [apply (cal_const Der C)|apply D2]|apply (cal_mul Der C (fun x => (x - x0) * e) (fun x => x - x0)); [apply D2|exact D1]]|]. cbv beta. ring.
Qed.
End C64_deriv.
Print Assumptions C64_product.
Print Assumptions C64_spin.
Print Assumptions C64_arguments.
Print Assumptions C64_gradient.
Print Assumptions C64_indices_refuted.
Print Assumptions C64_program.
Print Assumptions C64_history.
Print Assumptions C64_stale_refuted.
Print Assumptions C64_electrons_refuted.
Print Assumptions C64_quadratic.
Print Assumptions C64_restricted_both_refuted.
Print Assumptions C64_restricted_beta_refuted.
Print Assumptions C64_unrestricted_beta_refuted.
Print Assumptions C64_nspatial_refuted.
Print Assumptions C64_seniority_refuted.
Print Assumptions C64_derivative.

(** gradients, also with the parameters in another order and with one parameter; the overlap around an entry *)
Example C64_gradient_ex : no_deriv 2 4 1 [no_22] 5 [0; 1; 2; 3]%Z = Ok [290; 523; 0; 0]%Z /\ no_deriv 2 4 1 [no_22] 5 [3; 1; 2; 0]%Z = Ok [290; 523; 0; 0]%Z /\
  no_deriv 2 4 1 [no_22] 5 [1]%Z = Err IndexError /\ map (no_at 2 4 1 [no_22] 5 0 0 1) [1; 2; 3]%Z = [Ok 246; Ok 668; Ok 1292]%Z /\ (1292 - 246 = 2 * 523)%Z /\
  no_deriv 2 4 1 [no_22; no_22'] 9 (map Z.of_nat (seq 0 8)) = Ok [354; 441; 0; 0; 0; 0; 100; 284]%Z /\ map (no_at 2 4 1 [no_22; no_22'] 9 1 1 0) [0; 1; 2]%Z = [Ok 1136; Ok 1236; Ok 1336]%Z /\
  no_deriv 2 4 1 [no_44] 9 (map Z.of_nat (seq 0 16)) = Ok [174; 202; 253; -101; 0; 0; 0; 0; 0; 0; 0; 0; -102; -91; -45; 284]%Z /\
  map (no_at 2 4 1 [no_44] 9 0 3 2) [0; 1; 2]%Z = [Ok 477; Ok 432; Ok 387]%Z.
Proof. repeat split; vm_compute; reflexivity. Qed.
Example C64_product_ex : (do w1 <- new_nonorth (K := Z_ring) 2 4 (no_wfn 2 4 1) (NMats [no_22]); do w2 <- new_nonorth (K := Z_ring) 2 4 (as_component 3 0 [] w1) (NMats [no_22']);
  do w <- new_nonorth (K := Z_ring) 2 4 (no_wfn 2 4 1) (NMats [times (K := Z_ring) no_22' no_22]); do x <- n_overlap w2 9; do y <- n_overlap w 9; Ok (x : Z, y : Z)) = Ok (-4845, -4845)%Z.
Proof. vm_compute. reflexivity. Qed.
(** the stale answers of C64_stale_refuted and the right ones *)
Example C64_stale_ex : no_stale (n_set_wfn (no_wfn 2 4 7)) = Ok (668, 722)%Z /\ no_stale (n_wfn_params [7%Z : Z_ring]) = Ok (668, 722)%Z.
Proof. split; vm_compute; reflexivity. Qed.
Example C64_electrons_ex : no_overlap 2 4 1 [no_44] 11 = Err (Exc 1).
Proof. vm_compute. reflexivity. Qed.
