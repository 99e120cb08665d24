(** The projection of the spin-adapted Hamiltonians as a sum over all determinants. *)
From Coq Require Import List ZArith NArith Bool Lia Arith Permutation Sorted.
From Verif Require Import Py BitSpec BitLemmas Slater SlaterBits SlaterBits2 Fock FockLemmas SignLemmas Alg Combos BulkLemmas BulkAB
  SignVec2 PermLemmas HamSpec HamGen FockInner HamLemmas HamSC HamMain HamWfn HamRes SpinSpec HamSpin HamSpinSign HamSpinWfn.
Import ListNotations.

Lemma moved_back : forall m d, moved m (fst (diff_orbs m d)) (snd (diff_orbs m d)) = d.
Proof.
  intros m d. apply bit_ext. intros i. rewrite moved_bits.
  - destruct (setbits (fst (diff_orbs m d)) i) eqn:E1, (setbits (snd (diff_orbs m d)) i) eqn:E2.
    + apply setbits_In in E1. apply setbits_In in E2. apply diff_orbs_In1 in E1. apply diff_orbs_In2 in E2.
      destruct E1, E2. congruence.
    + apply setbits_In in E1. apply diff_orbs_In1 in E1 as [-> ->]. reflexivity.
    + apply setbits_In in E2. apply diff_orbs_In2 in E2 as [-> ->]. reflexivity.
    + apply setbits_notIn in E1. apply setbits_notIn in E2. rewrite diff_orbs_In1 in E1. rewrite diff_orbs_In2 in E2.
      rewrite andb_true_r, orb_false_r. destruct (bit m i), (bit d i); auto; exfalso; tauto.
  - intros x Hx. apply diff_orbs_In1 in Hx. tauto.
  - intros x Hx. apply diff_orbs_In2 in Hx. tauto.
Qed.

Section SpinSum.
Context {K : CRing}.
Local Open Scope cr_scope.
Add Ring K_ring19 : (rth K).
Variable h : uham K.
Notation n := (uh_n h).
Hypothesis Pos : (0 < n)%nat.
Notation g := (gen_of_u h).
Variable m : N.
Hypothesis F : fits m (2 * n).

Notation occs := (occ_indices (Some m)).
Notation virs := (vir_indices (Some m) (Z.of_nat (2 * n))).
Notation oa := (lows n occs).
Notation va := (lows n virs).
Notation ob := (highs n occs).
Notation vb := (highs n virs).
Notation mv := (fun p => moved m (fst p) (snd p)).
Notation block o v k := (list_prod (combinations o k) (combinations v k)).
Notation block_ab := (map (fun p => ([fst (fst p); snd (fst p)], [fst (snd p); snd (snd p)]))
                          (list_prod (list_prod oa ob) (list_prod va vb))).
Notation moves := (spin_moves h m).

(** spins of the moved electrons *)
Definition tag (p : list nat * list nat) : list bool * list bool := (map (up n) (fst p), map (up n) (snd p)).

Definition legal (p : list nat * list nat) : Prop :=
  increasing (fst p) /\ increasing (snd p) /\ (forall i, In i (fst p) -> bit m i = true) /\
  (forall i, In i (snd p) -> (i < 2 * n)%nat /\ bit m i = false).

Lemma map_const : forall {A B} (f : A -> B) b l, (forall x, In x l -> f x = b) -> map f l = repeat b (length l).
Proof. induction l as [|x l IH]; intros H; auto. cbn. rewrite H by now left. f_equal. apply IH. intros; apply H; now right. Qed.

Lemma block_low_In : forall k p, In p (block oa va k) <-> legal p /\ tag p = (repeat true k, repeat true k).
Proof.
  intros k [a c]. rewrite in_prod_iff.
  rewrite !combinations_increasing_In by eauto using oa_incr, va_incr. unfold legal, tag. cbn [fst snd]. split.
  - intros [(I1 & H1 & L1) (I2 & H2 & L2)].
    assert (Ha : forall x, In x a -> (x < n)%nat /\ bit m x = true) by (intros x Hx; apply oa_In; now apply H1).
    assert (Hc : forall x, In x c -> (x < n)%nat /\ bit m x = false) by (intros x Hx; apply (va_In h Pos m x); now apply H2).
    split; [repeat split; auto|].
    + intros i Hi. apply Ha in Hi. tauto.
    + apply Hc in H. lia.
    + apply Hc in H. tauto.
    + rewrite !(map_const (up n) true), L1, L2; auto; intros x Hx; apply up_lt; [apply Hc in Hx|apply Ha in Hx]; tauto.
  - intros [(I1 & I2 & H1 & H2) E]. injection E as E1 E2.
    assert (L1 : length a = k) by (rewrite <- (map_length (up n) a), E1; apply repeat_length).
    assert (L2 : length c = k) by (rewrite <- (map_length (up n) c), E2; apply repeat_length).
    assert (U : forall l x, map (up n) l = repeat true k -> In x l -> (x < n)%nat).
    { intros l x E Hx. apply (in_map (up n)) in Hx. rewrite E in Hx. apply repeat_spec in Hx. now apply Nat.ltb_lt. }
    repeat split; auto; intros x Hx.
    + apply oa_In. split; eauto.
    + apply (va_In h Pos m x). split; eauto. now apply H2.
Qed.
Lemma block_high_In : forall k p, In p (block ob vb k) <-> legal p /\ tag p = (repeat false k, repeat false k).
Proof.
  intros k [a c]. rewrite in_prod_iff.
  rewrite !combinations_increasing_In by eauto using ob_incr, vb_incr. unfold legal, tag. cbn [fst snd]. split.
  - intros [(I1 & H1 & L1) (I2 & H2 & L2)].
    assert (Ha : forall x, In x a -> (n <= x)%nat /\ bit m x = true) by (intros x Hx; apply ob_In; now apply H1).
    assert (Hc : forall x, In x c -> (n <= x < 2 * n)%nat /\ bit m x = false) by (intros x Hx; apply (vb_In h m x); now apply H2).
    split; [repeat split; auto|].
    + intros i Hi. apply Ha in Hi. tauto.
    + apply Hc in H. lia.
    + apply Hc in H. tauto.
    + rewrite !(map_const (up n) false), L1, L2; auto; intros x Hx; apply up_ge; [apply Hc in Hx|apply Ha in Hx]; tauto.
  - intros [(I1 & I2 & H1 & H2) E]. injection E as E1 E2.
    assert (L1 : length a = k) by (rewrite <- (map_length (up n) a), E1; apply repeat_length).
    assert (L2 : length c = k) by (rewrite <- (map_length (up n) c), E2; apply repeat_length).
    assert (U : forall l x, map (up n) l = repeat false k -> In x l -> (n <= x)%nat).
    { intros l x E Hx. apply (in_map (up n)) in Hx. rewrite E in Hx. apply repeat_spec in Hx. now apply Nat.ltb_ge. }
    repeat split; auto; intros x Hx.
    + apply ob_In. split; eauto.
    + apply (vb_In h m x). assert (n <= x)%nat by eauto. apply H2 in Hx. split; [lia|tauto].
Qed.
Lemma block_ab_In : forall p, In p block_ab <-> legal p /\ tag p = ([true; false], [true; false]).
Proof.
  intros [a c]. rewrite in_map_iff. unfold legal, tag. split.
  - intros ([[x y] [z w]] & E & H). cbn [fst snd] in E. injection E as <- <-. cbn [fst snd].
    apply in_prod_iff in H as [H1 H2]. apply in_prod_iff in H1 as [Hx Hy]. apply in_prod_iff in H2 as [Hz Hw].
    apply oa_In in Hx as [Lx Bx]. apply ob_In in Hy as [Ly By]. apply (va_In h Pos m z) in Hz as [Lz Bz].
    apply (vb_In h m w) in Hw as [Lw Bw].
    assert (I : forall x y, (x < y)%nat -> increasing [x; y]) by (intros; repeat constructor; auto).
    split; [split; [apply I; lia|split; [apply I; lia|split]]|].
    + intros i [<-|[<-|[]]]; auto.
    + intros i [<-|[<-|[]]]; split; auto; lia.
    + cbn [map]. rewrite (up_lt n x), (up_lt n z), (up_ge n y), (up_ge n w) by lia. reflexivity.
  - cbn [fst snd]. intros [(I1 & I2 & H1 & H2) E]. injection E as E1 E2.
    destruct a as [|x [|y [|]]]; try discriminate. destruct c as [|z [|w [|]]]; try discriminate.
    injection E1 as Ux Uy. injection E2 as Uz Uw. 
    apply Nat.ltb_lt in Ux, Uz. apply Nat.ltb_ge in Uy, Uw.
    exists ((x, y), (z, w)). split; auto. repeat apply in_prod.
    + apply oa_In. split; auto. apply H1. now left.
    + apply ob_In. split; auto. apply H1. right. now left.
    + apply (va_In h Pos m z). split; auto. apply H2. now left.
    + apply (vb_In h m w). destruct (H2 w) as [L B]; [right; now left|]. auto.
Qed.

Definition tags : list (list bool * list bool) :=
  [([], []); ([true], [true]); ([false], [false]); ([true; true], [true; true]); ([true; false], [true; false]);
   ([false; false], [false; false])].
Lemma moves_In : forall p, In p moves <-> legal p /\ In (tag p) tags.
Proof.
  intros p. unfold spin_moves. rewrite !in_app_iff, !block_low_In, !block_high_In, block_ab_In. unfold tags.
  cbn [In repeat]. assert (E : ([], []) = p <-> legal p /\ ([], []) = tag p).
  { destruct p as [a c]. unfold legal, tag. cbn [fst snd]. split.
    - intros E. injection E as <- <-. cbn. repeat split; try constructor; tauto.
    - intros [_ E]. injection E as E1 E2. symmetry in E1, E2. apply map_eq_nil in E1, E2. now subst. }
  rewrite E. split.
  - intros [[[H T]|[]]|[[H T]|[[H T]|[[H T]|[[H T]|[H T]]]]]]; rewrite T || rewrite <- T; tauto.
  - intros [H T]. destruct T as [T|[T|[T|[T|[T|[T|[]]]]]]]; rewrite <- T; tauto.
Qed.

Lemma moves_NoDup : NoDup moves.
Proof.
  assert (O : NoDup oa /\ NoDup ob /\ NoDup va /\ NoDup vb).
  { repeat split; apply increasing_NoDup; eauto using oa_incr, ob_incr, va_incr, vb_incr. }
  destruct O as (Oa & Ob & Va & Vb).
  assert (B : forall (o v : list nat) k, NoDup o -> NoDup v -> NoDup (block o v k)).
  { intros. apply list_prod_NoDup; now apply combinations_NoDup. }
  unfold spin_moves.
  apply NoDup_app_intro'; [repeat constructor; intros []| |].
  1: apply NoDup_app_intro'; [auto| |].
  1: apply NoDup_app_intro'; [auto| |].
  1: apply NoDup_app_intro'; [auto| |].
  1: apply NoDup_app_intro'; [|auto|].
  1: { apply NoDup_map_inj; [|repeat apply list_prod_NoDup; auto].
       intros [[x y] [z w]] [[x' y'] [z' w']] _ _ E. cbn in E. injection E as -> -> -> ->. reflexivity. }
  all: intros p H1 H2; repeat rewrite in_app_iff in H2; rewrite ?block_low_In, ?block_high_In, ?block_ab_In in *.
  5: destruct H1 as [H1|[]]; subst p.
  all: cbn [repeat] in *; intuition (try congruence; try discriminate).
Qed.

Lemma moves_det : forall p, In p moves -> diff_orbs m (mv p) = p /\ fits (mv p) (2 * n).
Proof.
  intros p H. apply moves_In in H as [(I1 & I2 & H1 & H2) _]. split.
  - rewrite moved_diff; auto; [now destruct p|]. intros i Hi. now apply H2.
  - apply moved_fits; auto; intros i Hi; now apply H2.
Qed.
Lemma dets_NoDup : NoDup (map mv moves).
Proof.
  apply NoDup_map_inj; [|apply moves_NoDup].
  intros p q Hp Hq E. apply moves_det in Hp as [Hp _]. apply moves_det in Hq as [Hq _].
  rewrite E in Hp. congruence.
Qed.

Lemma diff_legal : forall d, fits d (2 * n) -> legal (diff_orbs m d).
Proof.
  intros d Fd. repeat split.
  - apply occ_indices_increasing.
  - apply occ_indices_increasing.
  - intros i Hi. apply diff_orbs_In1 in Hi. tauto.
  - apply diff_orbs_In2 in H as [H _]. exact (fits_lt _ _ _ Fd H).
  - apply diff_orbs_In2 in H. tauto.
Qed.

Lemma dets_cover : forall d, fits d (2 * n) -> decT g m d = t_zero \/ In d (map mv moves).
Proof.
  intros d Fd. assert (Z : forall s : K, t_scale s (0, 0, - 0) = t_zero).
  { intros s. cbn [t_scale]. unfold t_zero. f_equal; [f_equal|]; ring. }
  assert (G : In (tag (diff_orbs m d)) tags -> In d (map mv moves)).
  { intros T. apply in_map_iff. exists (diff_orbs m d). split; [apply moved_back|]. apply moves_In.
    split; auto. now apply diff_legal. }
  destruct (diff_cases m d) as [<-|[(a & b & D)|[(a & b & c & e & D)|H]]].
  - right. apply G. rewrite diff_same. now left.
  - rewrite D in G. unfold tag in G. cbn [fst snd map] in G.
    destruct (Bool.bool_dec (up n a) (up n b)) as [E|E].
    + right. apply G. rewrite E. unfold tags. destruct (up n b); cbn; tauto.
    + left. unfold decT. rewrite (dec_single g m d a b) by auto. cbn [value3 gen_of_u cache_two_ints gh_one gh_two].
      rewrite !sumf_zero.
      * unfold uexpand1, same_spin. apply Bool.eqb_false_iff in E. rewrite E. apply Z.
      * intros i _. unfold uexpand2, same_spin. destruct (up n i), (up n a), (up n b); cbn; auto; exfalso; auto.
      * intros i _. unfold uexpand2, same_spin. destruct (up n i), (up n a), (up n b); cbn; auto; exfalso; auto.
  - assert (L : legal (diff_orbs m d)) by now apply diff_legal.
    rewrite D in G, L. unfold tag in G. destruct L as (L1 & L2 & _). cbn [fst snd map] in *.
    apply incr2 in L1. apply incr2 in L2.
    assert (T : forall x y, (x < y)%nat -> up n x = false -> up n y = false).
    { unfold up. intros x y L. rewrite !Nat.ltb_ge. lia. }
    specialize (T a b L1) as T1. specialize (T c e L2) as T2.
    destruct (Bool.bool_dec (up n a) (up n c)) as [E1|E1]; [destruct (Bool.bool_dec (up n b) (up n e)) as [E2|E2]|].
    + right. apply G. rewrite E1, E2. unfold tags. destruct (up n c), (up n e); cbn; try tauto.
      exfalso. specialize (T2 eq_refl). discriminate.
    + left. unfold decT. rewrite (dec_double g m d a b c e) by auto. cbn [value3 gen_of_u cache_two_ints gh_one gh_two].
      unfold uexpand2, same_spin. destruct (up n a), (up n b), (up n c), (up n e); cbn [eqb andb]; try apply Z;
        try (exfalso; now auto); try (exfalso; specialize (T1 eq_refl); discriminate); try (exfalso; specialize (T2 eq_refl); discriminate).
    + left. unfold decT. rewrite (dec_double g m d a b c e) by auto. cbn [value3 gen_of_u cache_two_ints gh_one gh_two].
      unfold uexpand2, same_spin. destruct (up n a), (up n b), (up n c), (up n e); cbn [eqb andb]; try apply Z;
        try (exfalso; now auto); try (exfalso; specialize (T1 eq_refl); discriminate); try (exfalso; specialize (T2 eq_refl); discriminate).
  - left. unfold decT. now rewrite dec_far.
Qed.

Lemma moves_sum : forall (q : N -> K), (forall d, decT g m d = t_zero -> q d = 0) ->
  sumf q (map mv moves) = sumf q (alldets (2 * n)).
Proof.
  intros q Hq. symmetry. apply sumf_support.
  - apply alldets_NoDup.
  - apply dets_NoDup.
  - intros d Hd. apply in_map_iff in Hd as (p & <- & Hp). apply alldets_In. now apply moves_det.
  - intros d Hd. apply alldets_In in Hd. destruct (dets_cover d Hd) as [E|E]; auto.
Qed.

Lemma spin_sum_all : forall f : N -> K,
  tsumf (fun d => t_scale (f d) (decT g m d)) (map mv moves)
  = tsumf (fun d => t_scale (f d) (decT g m d)) (alldets (2 * n)).
Proof.
  intros f. unfold tsumf. rewrite !moves_sum; auto; intros d E; rewrite E, t_scale_0; reflexivity.
Qed.

(** overlaps *)
Lemma bulk_ov : forall (f : N -> K) o v, (2 * n <= 63)%nat -> (forall i, In i o \/ In i v -> (i < 2 * n)%nat) ->
  forall k, bulk_overlaps f m o v (Z.of_nat k) = Ok (map (fun p => f (mv p)) (block o v k)).
Proof.
  intros f o v L H k. unfold bulk_overlaps. rewrite excite_bulk_value.
  - cbn [bind]. rewrite map_map. f_equal. apply map_ext. intros p. now rewrite N2Z.id.
  - intros i Hi. apply F. lia.
  - intros i Hi. specialize (H i (or_introl Hi)). lia.
  - intros i Hi. specialize (H i (or_intror Hi)). lia.
Qed.
Lemma oa_lt : forall i, In i oa -> (i < 2 * n)%nat.
Proof. intros i Hi. apply oa_In in Hi. lia. Qed.
Lemma ob_lt : forall i, In i ob -> (i < 2 * n)%nat.
Proof. intros i Hi. apply ob_In in Hi as [_ B]. exact (fits_lt _ _ _ F B). Qed.
Lemma va_lt : forall i, In i va -> (i < 2 * n)%nat.
Proof. intros i Hi. apply (va_In h Pos m i) in Hi. lia. Qed.
Lemma vb_lt : forall i, In i vb -> (i < 2 * n)%nat.
Proof. intros i Hi. apply (vb_In h m i) in Hi. lia. Qed.
Lemma bulk_ov_ab : forall (f : N -> K), (2 * n <= 63)%nat ->
  bulk_overlaps_ab f m oa ob va vb = Ok (map (fun p => f (mv p)) block_ab).
Proof.
  intros f L. unfold bulk_overlaps_ab. rewrite excite_bulk_two_value.
  - cbn [bind]. rewrite !map_map. f_equal. apply map_ext. intros p. cbn [fst snd]. now rewrite N2Z.id.
  - intros i Hi. apply F. lia.
  - intros i Hi. rewrite !in_app_iff in Hi.
    enough (i < 2 * n)%nat by lia. destruct Hi as [Hi|[Hi|[Hi|Hi]]]; auto using oa_lt, ob_lt, va_lt, vb_lt.
Qed.

Lemma mapM_Ok : forall {A B} (q : A -> res B) (r : A -> B) l, (forall x, In x l -> q x = Ok (r x)) -> mapM q l = Ok (map r l).
Proof.
  induction l as [|x l IH]; intros H; auto. cbn [mapM map]. rewrite H by now left. cbn [bind]. rewrite IH; auto.
  intros; apply H; now right.
Qed.
Lemma excited_ov : forall (f : N -> K) os vs,
  (forall p, In p (list_prod os vs) -> legal p /\ exists t, tag p = (t, t)) ->
  excited_overlaps f m os vs = Ok (map (fun p => f (mv p)) (list_prod os vs)).
Proof.
  intros f os vs H. unfold excited_overlaps. apply mapM_Ok. intros p Hp. apply H in Hp as [(I1 & I2 & H1 & H2) [t T]].
  rewrite moved_excite; auto using increasing_NoDup.
  - injection T as T1 T2. rewrite <- (map_length (up n) (fst p)), <- (map_length (up n) (snd p)). congruence.
  - intros i Hi. now apply H2.
Qed.
Lemma pair_lists_prod : list_prod (pair_lists oa ob) (pair_lists va vb) = block_ab.
Proof. unfold pair_lists. rewrite list_prod_map. reflexivity. Qed.
End SpinSum.

Section Main.
Context {K : CRing}.
Local Open Scope cr_scope.
Add Ring K_ring20 : (rth K).

Lemma u_wfn3_value : forall (h : uham K) m f, (0 < uh_n h)%nat -> fits m (2 * uh_n h) -> u_cached h ->
  (2 * uh_n h <= 63)%nat ->
  u_wfn3 h m f = Ok (tsumf (fun d => t_scale (f d) (decT (gen_of_u h) m d)) (alldets (2 * uh_n h))).
Proof.
  intros h m f P F C L. unfold u_wfn3.
  rewrite (spin_wfn3_value h P m F); auto.
  - f_equal. now apply spin_sum_all.
  - apply (bulk_ov h); auto. intros i [Hi|Hi]; [exact (oa_lt h P m i Hi)|exact (va_lt h P m i Hi)].
  - apply (bulk_ov h); auto. intros i [Hi|Hi]; [exact (ob_lt h m F i Hi)|exact (vb_lt h P m i Hi)].
  - now apply bulk_ov_ab.
Qed.

(** a restricted Hamiltonian is an unrestricted one *)
Definition u_of_r (h : rham K) : uham K :=
  mkuham (rh_n h) (rh_one h) (rh_one h) (rh_two h) (rh_two h) (rh_two h)
    (rh_ijij h) (rh_ijij h) (rh_ijij h) (rh_ijji h) (rh_ijji h).
Lemma u_of_r_cached : forall h, r_cached h -> u_cached (u_of_r h).
Proof. intros h C i j. repeat split; apply C. Qed.

Lemma decomposed_ext : forall (g g' : gham K) m d, gh_n g = gh_n g' ->
  (forall i j, gh_one g i j = gh_one g' i j) -> (forall i j k l, gh_two g i j k l = gh_two g' i j k l) ->
  (forall i j, gh_ijij g i j = gh_ijij g' i j) -> (forall i j, gh_ijji g i j = gh_ijji g' i j) ->
  integrate_sd_sd_decomposed g m d = integrate_sd_sd_decomposed g' m d.
Proof.
  intros g g' m d E0 E1 E2 E3 E4. 
  assert (T : forall (a b : nat -> nat -> K) l, (forall i j, a i j = b i j) -> triu_sum a l = triu_sum b l).
  { intros a b l E. unfold triu_sum. rewrite !psum_sumf. apply sumf_ext. intros p _. rewrite !psum_sumf.
    apply sumf_ext. intros q _. now rewrite E. }
  unfold integrate_sd_sd_decomposed. destruct (diff_orbs m d) as [a c].
  destruct (negb _); auto. destruct (Nat.ltb _ _); auto. destruct (sign_excite _ _ _) as [s|]; auto. cbn [bind].
  destruct (Nat.eqb _ _ && _)%bool.
  - unfold sd_sd_zero. rewrite E0, (T _ _ _ E3), (T _ _ _ E4), !psum_sumf.
    now rewrite (sumf_ext _ _ _ (fun i _ => E1 i i)).
  - destruct (Nat.eqb _ _).
    + unfold sd_sd_one. destruct a as [|a []]; auto. destruct c as [|c []]; auto. rewrite E0, E1, !psum_sumf.
      now rewrite (sumf_ext _ _ _ (fun i _ => E2 i a i c)), (sumf_ext _ _ _ (fun i _ => E2 i a c i)).
    + unfold sd_sd_two. destruct a as [|a [|b []]]; auto. destruct c as [|c [|e []]]; auto. now rewrite E0, !E2.
Qed.

Lemma gen_u_of_r : forall h m d, two_sym (rh_two h) ->
  integrate_sd_sd_decomposed (gen_of_u (u_of_r h)) m d = integrate_sd_sd_decomposed (gen_of_r h) m d.
Proof.
  intros h m d S.
  assert (E1 : forall i j, uexpand1 (rh_n h) (rh_one h) (rh_one h) i j = expand1 (rh_n h) (rh_one h) i j).
  { intros. unfold uexpand1, expand1. destruct (same_spin _ _ _); auto. now destruct (up _ _). }
  assert (E2 : forall i j p q, uexpand2 (rh_n h) (rh_two h) (rh_two h) (rh_two h) i j p q = expand2 (rh_n h) (rh_two h) i j p q).
  { intros. unfold uexpand2, expand2. destruct (same_spin _ _ _ && _)%bool; auto. destruct (up _ i), (up _ j); auto. }
  apply decomposed_ext; cbn [gen_of_u gen_of_r cache_two_ints gh_n gh_one gh_two gh_ijij gh_ijji u_of_r uh_n uh_one0 uh_one1 uh_two0 uh_two1 uh_two2]; auto.
Qed.

Lemma r_wfn3_value : forall (h : rham K) m f, (0 < rh_n h)%nat -> fits m (2 * rh_n h) -> r_cached h ->
  two_sym (rh_two h) -> (2 * rh_n h <> 64)%nat ->
  r_wfn3 h m f = Ok (tsumf (fun d => t_scale (f d) (decT (gen_of_r h) m d)) (alldets (2 * rh_n h))).
Proof.
  intros h m f P F C S L. unfold r_wfn3.
  transitivity (@Ok (triple K) (tsumf (fun d => t_scale (f d) (decT (gen_of_u (u_of_r h)) m d)) (alldets (2 * rh_n h)))).
  - rewrite <- (spin_sum_all (u_of_r h) P m F).
    apply (spin_wfn3_value (u_of_r h) P m F); [now apply u_of_r_cached| | |]; cbn [u_of_r uh_n].
    + intros k. destruct (Nat.leb_spec (2 * rh_n h) 64).
      * apply (bulk_ov (u_of_r h)); auto; cbn [u_of_r uh_n]; [lia|].
        intros i [Hi|Hi]; [exact (oa_lt (u_of_r h) P m i Hi)|exact (va_lt (u_of_r h) P m i Hi)].
      * rewrite Nat2Z.id. 
        apply (excited_ov (u_of_r h)). intros p Hp. apply (block_low_In (u_of_r h) P) in Hp as [Lg T]. eauto.
    + intros k. destruct (Nat.leb_spec (2 * rh_n h) 64).
      * apply (bulk_ov (u_of_r h)); auto; cbn [u_of_r uh_n]; [lia|].
        intros i [Hi|Hi]; [exact (ob_lt (u_of_r h) m F i Hi)|exact (vb_lt (u_of_r h) P m i Hi)].
      * rewrite Nat2Z.id. 
        apply (excited_ov (u_of_r h)). intros p Hp. apply (block_high_In (u_of_r h) P) in Hp as [Lg T]. eauto.
    + destruct (Nat.leb_spec (2 * rh_n h) 64).
      * apply (bulk_ov_ab (u_of_r h)); auto; cbn [u_of_r uh_n]; lia.
      * rewrite (excited_ov (u_of_r h)).
        -- f_equal. now rewrite (pair_lists_prod (u_of_r h)).
        -- rewrite (pair_lists_prod (u_of_r h)). intros p Hp. apply (block_ab_In (u_of_r h) P) in Hp as [Lg T]. eauto.
  - f_equal. unfold decT. unfold tsumf. f_equal; [f_equal|]; apply sumf_ext; intros d _; now rewrite gen_u_of_r.
Qed.
Lemma tsum_over : forall k (f : N -> K) (T T' : N -> triple K), (forall n, fits n k -> T n = T' n) ->
  sum_over (fun n => fits n k) (fun n => f n * comp1 (T' n)) (sumf (fun d => comp1 (t_scale (f d) (T d))) (alldets k)) /\
  sum_over (fun n => fits n k) (fun n => f n * comp2 (T' n)) (sumf (fun d => comp2 (t_scale (f d) (T d))) (alldets k)) /\
  sum_over (fun n => fits n k) (fun n => f n * comp3 (T' n)) (sumf (fun d => comp3 (t_scale (f d) (T d))) (alldets k)).
Proof.
  intros k f T T' H. repeat split; (exists (alldets k); split; [apply alldets_NoDup|]; split; [intros; apply alldets_In|]);
    apply sumf_ext; intros n Hn; apply alldets_In in Hn; rewrite H by auto; destruct (T' n) as [[? ?] ?]; reflexivity.
Qed.
Lemma tsum_elem : forall k (f : N -> K) (e : N -> res (triple K)) (v : N -> K), (forall n, fits n k -> v n = t_sum (value3 (e n))) ->
  sum_over (fun n => fits n k) (fun n => v n * f n) (t_sum (tsumf (fun d => t_scale (f d) (value3 (e d))) (alldets k))).
Proof.
  intros k f e v H. exists (alldets k); split; [apply alldets_NoDup|]; split; [intros; apply alldets_In|].
  unfold tsumf, t_sum. rewrite <- !sumf_add.
  apply sumf_ext; intros n Hn; apply alldets_In in Hn. rewrite H by auto. destruct (value3 (e n)) as [[? ?] ?]. cbn. ring.
Qed.
End Main.
