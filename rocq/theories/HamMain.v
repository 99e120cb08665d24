From Coq Require Import Ring_theory List ZArith NArith Bool Lia Arith Permutation Sorted.
From Verif Require Import Py BitSpec BitLemmas Slater SlaterBits SlaterBits2 Fock FockLemmas SignLemmas Alg Combos PermLemmas
  HamSpec HamGen FockInner HamLemmas HamSC.
Import ListNotations.

Section Main.
Context {K : CRing}.
Local Open Scope cr_scope.
Add Ring K_ring14 : (rth K).

Lemma cr_mul_0_l : forall x : K, 0 * x = 0.
Proof. intros; ring. Qed.
Lemma cr_mul_0_r : forall x : K, x * 0 = 0.
Proof. intros; ring. Qed.

Definition consistent (h : gham K) : Prop :=
  forall i j, gh_ijij h i j = gh_two h i j i j /\ gh_ijji h i j = gh_two h i j j i.

Lemma chk_ok : forall {A} n l (v : A), (forall i, In i l -> (i < n)%nat) -> chk n l v = Ok v.
Proof.
  intros A n l v H. unfold chk. rewrite (proj2 (forallb_forall _ l)); auto.
  intros x Hx. apply Nat.ltb_lt. auto.
Qed.
Lemma chk_err : forall {A} n l (v : A) i, In i l -> (n <= i)%nat -> chk n l v = Err IndexError.
Proof.
  intros A n l v i H L. unfold chk. destruct (forallb _ l) eqn:E; auto.
  rewrite forallb_forall in E. specialize (E i H). apply Nat.ltb_lt in E. lia.
Qed.

Lemma shared_same : forall m, shared_orbs m m = occ_indices (Some m).
Proof. intros. unfold shared_orbs. now rewrite N.land_diag. Qed.

Lemma diff_nil : forall m n, fst (diff_orbs m n) = [] -> snd (diff_orbs m n) = [] -> m = n.
Proof.
  intros m n E1 E2. apply bit_ext. intros x. destruct (bit m x) eqn:A, (bit n x) eqn:B; auto; exfalso.
  - assert (I : In x (fst (diff_orbs m n))) by (apply diff_orbs_In1; auto). rewrite E1 in I. destruct I.
  - assert (I : In x (snd (diff_orbs m n))) by (apply diff_orbs_In2; auto). rewrite E2 in I. destruct I.
Qed.
Lemma diff_same : forall m, diff_orbs m m = ([], []).
Proof.
  intros m. rewrite (surjective_pairing (diff_orbs m m)). f_equal; apply no_In; intros x Hx.
  - apply diff_orbs_In1 in Hx. destruct Hx; congruence.
  - apply diff_orbs_In2 in Hx. destruct Hx; congruence.
Qed.

Lemma sgnr_sgn : forall b, sgnr (sgn b) = (if b then - (1) else 1 : K).
Proof. intros []; reflexivity. Qed.

(** values of integrate_sd_sd_decomposed by the number of differing orbitals *)
Lemma dec_same : forall (h : gham K) m, m <> 0%N -> fits m (gh_n h) ->
  integrate_sd_sd_decomposed h m m =
  Ok (sumf (fun i => gh_one h i i) (occ_indices (Some m)),
      sumf (fun p => gh_ijij h (fst p) (snd p)) (pairs (occ_indices (Some m))),
      - sumf (fun p => gh_ijji h (fst p) (snd p)) (pairs (occ_indices (Some m)))).
Proof.
  intros h m M F. unfold integrate_sd_sd_decomposed. rewrite shared_same, diff_same. cbn [length Nat.eqb negb Nat.ltb Nat.leb rev].
  destruct (sign_code m m) as (b & E & E'). rewrite diff_same in E, E'. cbn [fst snd rev] in E, E'. rewrite E. cbn [bind].
  assert (b = false) as ->.
  { cbn in E'. rewrite N.eqb_refl in E'. destruct b; auto; discriminate. }
  assert (L : length (occ_indices (Some m)) <> 0%nat).
  { intros L. apply length_zero_iff_nil in L. apply M. apply bit_ext. intros i. rewrite bit_0.
    destruct (bit m i) eqn:B; auto. apply occ_indices_In in B. rewrite L in B. destruct B. }
  destruct (Nat.eqb_spec (length (occ_indices (Some m))) 0) as [X|X]; [contradiction|]. cbn [negb andb].
  unfold sd_sd_zero. rewrite chk_ok.
  - cbn [bind t_scale]. rewrite !psum_sumf, !triu_sum_pairs. f_equal. change (sgnr (sgn false)) with (1 : K).
    f_equal; [f_equal|]; ring.
  - intros i Hi. apply occ_indices_In in Hi. eapply fits_lt; eauto.
Qed.

Lemma dec_single : forall (h : gham K) m n a b, fits m (gh_n h) -> fits n (gh_n h) ->
  diff_orbs m n = ([a], [b]) ->
  integrate_sd_sd_decomposed h m n =
  Ok (t_scale (sgnr (V m n a b))
       (gh_one h a b, sumf (fun i => gh_two h i a i b) (shared_orbs m n),
        - sumf (fun i => gh_two h i a b i) (shared_orbs m n))).
Proof.
  intros h m n a b Fm Fn D. unfold integrate_sd_sd_decomposed. rewrite D.
  cbn [length Nat.eqb negb Nat.ltb Nat.leb andb].
  destruct (sign_code m n) as (s & E & E'). rewrite D in E, E'. cbn [fst snd map] in E, E'. rewrite E. cbn [bind].
  assert (In a [a]) as A by now left. assert (In b [b]) as B by now left.
  change [a] with (fst ([a], [b])) in A. change [b] with (snd ([a], [b])) in B. rewrite <- D in A, B.
  apply diff_orbs_In1 in A as [A _]. apply diff_orbs_In2 in B as [B _].
  unfold sd_sd_one. rewrite chk_ok.
  - cbn [bind]. rewrite !psum_sumf. unfold V. now rewrite E'.
  - intros i [<-|[<-|Hi]].
    + eapply fits_lt; [exact Fm|auto].
    + eapply fits_lt; [exact Fn|auto].
    + apply shared_orbs_In in Hi as [Hi _]. exact (fits_lt _ _ _ Fm Hi).
Qed.

Lemma dec_double : forall (h : gham K) m n a b c d, fits m (gh_n h) -> fits n (gh_n h) ->
  diff_orbs m n = ([a; b], [c; d]) ->
  integrate_sd_sd_decomposed h m n =
  Ok (t_scale (sgnr (W m n a b c d)) (0, gh_two h a b c d, - gh_two h a b d c)).
Proof.
  intros h m n a b c d Fm Fn D. unfold integrate_sd_sd_decomposed. rewrite D.
  cbn [length Nat.eqb negb Nat.ltb Nat.leb andb].
  destruct (sign_code m n) as (s & E & E'). rewrite D in E, E'. cbn [fst snd map] in E, E'. rewrite E. cbn [bind].
  assert (HA : forall x, In x [a; b] -> (x < gh_n h)%nat).
  { intros x Hx. change [a; b] with (fst ([a; b], [c; d])) in Hx. rewrite <- D in Hx.
    apply diff_orbs_In1 in Hx as [Hx _]. exact (fits_lt _ _ _ Fm Hx). }
  assert (HB : forall x, In x [c; d] -> (x < gh_n h)%nat).
  { intros x Hx. change [c; d] with (snd ([a; b], [c; d])) in Hx. rewrite <- D in Hx.
    apply diff_orbs_In2 in Hx as [Hx _]. exact (fits_lt _ _ _ Fn Hx). }
  unfold sd_sd_two. rewrite chk_ok.
  - cbn [bind]. unfold W. now rewrite E'.
  - intros i [<-|[<-|[<-|[<-|[]]]]]; solve [apply HA; simpl; auto | apply HB; simpl; auto].
Qed.

Lemma dec_far : forall (h : gham K) m n,
  length (fst (diff_orbs m n)) <> length (snd (diff_orbs m n)) \/ (2 < length (fst (diff_orbs m n)))%nat ->
  integrate_sd_sd_decomposed h m n = Ok t_zero.
Proof.
  intros h m n H. unfold integrate_sd_sd_decomposed. destruct (diff_orbs m n) as [d1 d2]. cbn [fst snd] in H.
  destruct (Nat.eqb_spec (length d1) (length d2)) as [E|E]; cbn [negb]; auto.
  destruct (Nat.ltb_spec 2 (length d1)); auto. lia.
Qed.

(** the four cases *)
Lemma diff_cases : forall m n,
  m = n \/ (exists a b, diff_orbs m n = ([a], [b])) \/ (exists a b c d, diff_orbs m n = ([a; b], [c; d])) \/
  (length (fst (diff_orbs m n)) <> length (snd (diff_orbs m n)) \/ (2 < length (fst (diff_orbs m n)))%nat).
Proof.
  intros m n. destruct (diff_orbs m n) as [d1 d2] eqn:D. cbn [fst snd].
  destruct d1 as [|a [|b [|]]], d2 as [|c [|d [|]]]; cbn [length]; try (right; right; right; lia).
  - left. apply diff_nil; rewrite D; auto.
  - right. left. eauto.
  - right. right. left. eauto 10.
Qed.

Theorem decomposed_value : forall (h : gham K) m n, consistent h -> two_sym (gh_two h) ->
  fits m (gh_n h) -> fits n (gh_n h) -> ~ (m = 0%N /\ n = 0%N) ->
  exists a b c, integrate_sd_sd_decomposed h m n = Ok (a, b, c) /\
    a = one_body (gh_n h) (gh_one h) m n /\ b + c = pair_body (gh_n h) (gh_two h) m n.
Proof.
  intros h m n C S Fm Fn Z. destruct (diff_cases m n) as [E|[(a & b & D)|[(a & b & c & d & D)|H]]].
  - subst n. eexists _, _, _. split; [apply dec_same; auto; tauto|]. split; [now rewrite one_same|].
    rewrite pair_same by auto.
    rewrite (sumf_ext (fun p => gh_ijij h (fst p) (snd p)) (fun p => gh_two h (fst p) (snd p) (fst p) (snd p))) by (intros; apply C).
    rewrite (sumf_ext (fun p => gh_ijji h (fst p) (snd p)) (fun p => gh_two h (fst p) (snd p) (snd p) (fst p))) by (intros; apply C).
    ring.
  - eexists _, _, _. split; [apply dec_single; eauto|].
    rewrite (one_single _ _ m n a b), (pair_single _ S _ m n a b) by (auto; now rewrite D). split; ring.
  - eexists _, _, _. split; [apply dec_double; eauto|].
    rewrite (pair_double _ _ m n a b c d) by (auto; now rewrite D).
    rewrite one_far by (right; rewrite D; simpl; lia). split; ring.
  - eexists _, _, _. split; [now apply dec_far|]. rewrite pair_far by auto.
    rewrite one_far by (destruct H; [left; auto|right; lia]). split; [reflexivity|ring].
Qed.

Theorem sd_sd_value : forall (h : gham K) m n, consistent h -> two_sym (gh_two h) ->
  fits m (gh_n h) -> fits n (gh_n h) -> ~ (m = 0%N /\ n = 0%N) ->
  integrate_sd_sd h m n = Ok (one_body (gh_n h) (gh_one h) m n + pair_body (gh_n h) (gh_two h) m n).
Proof.
  intros h m n C S Fm Fn Z. destruct (decomposed_value h m n C S Fm Fn Z) as (a & b & c & E & E1 & E2).
  unfold integrate_sd_sd. rewrite E. cbn [bind t_sum]. f_equal. rewrite <- E1, <- E2. ring.
Qed.

(** exchanging the determinants exchanges the differences *)
Lemma diff_swap : forall m n, diff_orbs n m = (snd (diff_orbs m n), fst (diff_orbs m n)).
Proof. intros. unfold diff_orbs. cbn [fst snd]. now rewrite (N.lxor_comm n m). Qed.
Lemma shared_swap : forall m n, shared_orbs n m = shared_orbs m n.
Proof. intros. unfold shared_orbs. now rewrite N.land_comm. Qed.
Lemma chk_perm : forall {A} n l l' (v : A), Permutation l l' -> chk n l v = chk n l' v.
Proof.
  intros A n l l' v P. unfold chk.
  assert (E : forallb (fun i => Nat.ltb i n) l = forallb (fun i => Nat.ltb i n) l').
  { induction P; cbn [forallb]; try congruence. now destruct (Nat.ltb x n), (Nat.ltb y n). }
  now rewrite E.
Qed.

Theorem decomposed_swap : forall (h : gham K) m n, two_sym (gh_two h) ->
  (forall i j, gh_one h i j = gh_one h j i) -> (forall i j k l, gh_two h i j k l = gh_two h k l i j) ->
  integrate_sd_sd_decomposed h m n = integrate_sd_sd_decomposed h n m.
Proof.
  intros h m n S H1 H2. unfold integrate_sd_sd_decomposed. rewrite (diff_swap m n), (shared_swap m n).
  destruct (sign_code m n) as (b & E1 & E2). destruct (sign_code n m) as (b' & E1' & E2').
  rewrite (diff_swap m n) in E1', E2'. cbn [fst snd] in E1', E2'. rewrite inner_sym, E2 in E2'.
  assert (b' = b) by (destruct b, b'; auto; discriminate). subst b'. clear E2 E2'.
  destruct (diff_cases m n) as [->|[(p & q & D)|[(p & q & r & s & D)|F]]].
  - rewrite diff_same. reflexivity.
  - rewrite D in *. cbn [fst snd length Nat.eqb negb Nat.ltb Nat.leb andb] in *. rewrite E1, E1'. cbn [bind].
    unfold sd_sd_one. rewrite (chk_perm _ (p :: q :: shared_orbs m n) (q :: p :: shared_orbs m n)) by constructor.
    f_equal. f_equal. f_equal; [f_equal; auto|].
    + rewrite !psum_sumf. apply sumf_ext. intros. apply H2.
    + rewrite !psum_sumf. f_equal. apply sumf_ext. intros. now rewrite H2, S.
  - rewrite D in *. cbn [fst snd length Nat.eqb negb Nat.ltb Nat.leb andb] in *. rewrite E1, E1'. cbn [bind].
    unfold sd_sd_two. rewrite (chk_perm _ [p; q; r; s] [r; s; p; q]).
    2:{ apply (Permutation_app_comm [p; q] [r; s]). }
    f_equal. f_equal. f_equal; [f_equal; auto|]. f_equal. now rewrite H2, S.
  - destruct (diff_orbs m n) as [d1 d2]. cbn [fst snd] in *.
    destruct (Nat.eqb_spec (length d1) (length d2)) as [E|E].
    + destruct (Nat.ltb_spec 2 (length d1)); [|lia]. rewrite E, Nat.eqb_refl. cbn [negb].
      destruct (Nat.ltb_spec 2 (length d2)); [auto|lia].
    + destruct (Nat.eqb_spec (length d2) (length d1)) as [E'|E']; [congruence|auto].
Qed.
End Main.

Lemma half_double : forall (F : CField) (b : F), @radd F rI rI <> rO -> @rmul F (finv (radd rI rI)) (radd b b) = b.
Proof.
  intros F b H. pose proof (f_inv F _ H) as I. pose proof (rth F) as R.
  assert (E : @radd F b b = rmul (radd rI rI) b).
  { rewrite (Rdistr_l R), (Rmul_1_l R). reflexivity. }
  rewrite E, (Rmul_assoc R), I. apply (Rmul_1_l R).
Qed.
