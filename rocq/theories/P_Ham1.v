(** C28, C29, C33: matrix elements and projections of the generalized chemical Hamiltonian. *)
From Coq Require Import Ring_theory List ZArith NArith Bool Lia Arith Permutation QArith Qcanon.
From Verif Require Import Py BitSpec BitLemmas Slater SlaterBits2 Fock FockLemmas Alg PermSpec PermLemmas HamSpec HamGen FockInner HamLemmas
  HamSC HamMain HamWfn HamEx.
Import ListNotations.
Local Open Scope nat_scope.

(** the caches agree with the integrals *)
Definition cached {K : CRing} (h : gham K) : Prop :=
  forall i j, gh_ijij h i j = gh_two h i j i j /\ gh_ijji h i j = gh_two h i j j i.

(** C28 *)
Theorem C28_cache : forall {K : CRing} (h : gham K), cached (cache_two_ints h) /\
  gh_n (cache_two_ints h) = gh_n h /\ gh_one (cache_two_ints h) = gh_one h /\ gh_two (cache_two_ints h) = gh_two h.
Proof. intros. repeat split; reflexivity. Qed.
Print Assumptions C28_cache.

Theorem C28_elements : forall {K : CField} (h : gham K) m n, (@radd K rI rI <> rO) ->
  cached h -> two_sym (gh_two h) ->
  fits m (gh_n h) -> fits n (gh_n h) -> (m <> 0%N \/ n <> 0%N) ->
  integrate_sd_sd h m n = Ok (ham_elem (gh_n h) (gh_one h) (gh_two h) m n).
Proof.
  intros K h m n H2 C S Fm Fn Z. rewrite sd_sd_value by (auto; tauto). unfold ham_elem.
  rewrite two_body_pairs by auto. now rewrite half_double.
Qed.
Print Assumptions C28_elements.

(** over any commutative ring (e.g. the integers), twice the element *)
Theorem C28_elements_ring : forall {K : CRing} (h : gham K) m n, cached h -> two_sym (gh_two h) ->
  fits m (gh_n h) -> fits n (gh_n h) -> (m <> 0%N \/ n <> 0%N) ->
  exists v, integrate_sd_sd h m n = Ok v /\
    (v + v = (one_body (gh_n h) (gh_one h) m n + one_body (gh_n h) (gh_one h) m n)
             + two_body (gh_n h) (gh_two h) m n)%cr.
Proof.
  intros K h m n C S Fm Fn Z. rewrite sd_sd_value by (auto; tauto). eexists. split; [reflexivity|].
  rewrite two_body_pairs by auto.
  set (a := one_body _ _ _ _). set (b := pair_body _ _ _ _).
  rewrite <- !(Radd_assoc (rth K)). f_equal. rewrite (Radd_comm (rth K) b (radd a b)).
  rewrite <- (Radd_assoc (rth K)). reflexivity.
Qed.
Print Assumptions C28_elements_ring.

(** the first component is the one-electron part *)
Theorem C28_one_electron : forall {K : CRing} (h : gham K) m n, cached h -> two_sym (gh_two h) ->
  fits m (gh_n h) -> fits n (gh_n h) -> (m <> 0%N \/ n <> 0%N) ->
  exists t, integrate_sd_sd_decomposed h m n = Ok t /\
    comp1 t = one_body (gh_n h) (gh_one h) m n /\
    (@radd K (radd (comp2 t) (comp3 t)) (radd (comp2 t) (comp3 t)) = two_body (gh_n h) (gh_two h) m n).
Proof.
  intros K h m n C S Fm Fn Z. destruct (decomposed_value h m n C S Fm Fn) as (a & b & c & E & E1 & E2); [tauto|].
  exists (a, b, c). split; auto. split; auto. unfold comp2, comp3. cbn [fst snd]. rewrite E2. symmetry.
  now apply two_body_pairs.
Qed.
Print Assumptions C28_one_electron.

(** Slater-Condon rules, component by component *)
Theorem C28_components_same : forall {K : CRing} (h : gham K) m occ, cached h -> fits m (gh_n h) -> m <> 0%N ->
  increasing occ -> (forall i, In i occ <-> bit m i = true) ->
  integrate_sd_sd_decomposed h m m =
  Ok (sumf (fun i => gh_one h i i) occ,
      sumf (fun p => if Nat.ltb (fst p) (snd p) then gh_two h (fst p) (snd p) (fst p) (snd p) else rO) (list_prod occ occ),
      ropp (sumf (fun p => if Nat.ltb (fst p) (snd p) then gh_two h (fst p) (snd p) (snd p) (fst p) else rO)
                 (list_prod occ occ))).
Proof.
  intros K h m occ C F M I O.
  assert (E : occ = occ_indices (Some m)).
  { apply increasing_ext; auto; [apply SlaterBits.occ_indices_increasing|]. intros x. rewrite O. now rewrite SlaterBits.occ_indices_In. }
  rewrite dec_same by auto. rewrite <- E.
  assert (G : forall f : nat -> nat -> K, sumf (fun p => f (fst p) (snd p)) (pairs occ)
     = sumf (fun p => if Nat.ltb (fst p) (snd p) then f (fst p) (snd p) else rO) (list_prod occ occ)).
  { intros f. symmetry. rewrite (sumf_support _ (pairs occ)).
    - apply sumf_ext. intros [i j] Hp. apply pairs_In in Hp as (_ & _ & L); auto. cbn [fst snd].
      now rewrite (proj2 (Nat.ltb_lt _ _) L).
    - apply list_prod_NoDup; now apply increasing_NoDup.
    - now apply pairs_NoDup, increasing_NoDup.
    - intros [i j] Hp. apply pairs_In in Hp as (Hi & Hj & L); auto. now apply in_prod.
    - intros [i j] Hp. apply in_prod_iff in Hp as [Hi Hj]. cbn [fst snd].
      destruct (Nat.ltb_spec i j); auto. right. now apply pairs_In. }
  rewrite <- (G (fun i j => gh_two h i j i j)), <- (G (fun i j => gh_two h i j j i)).
  f_equal. f_equal; [f_equal|f_equal]; apply sumf_ext; intros; apply C.
Qed.
Print Assumptions C28_components_same.

Theorem C28_components_single : forall {K : CRing} (h : gham K) m n a b sh, fits m (gh_n h) -> fits n (gh_n h) ->
  (forall i, lost m n i = Nat.eqb i a) -> (forall i, lost n m i = Nat.eqb i b) ->
  NoDup sh -> (forall i, In i sh <-> bit m i = true /\ bit n i = true) ->
  integrate_sd_sd_decomposed h m n =
  let s := sgnr (melem m [Ann b; Cre a] n) in
  Ok (rmul s (gh_one h a b), rmul s (sumf (fun i => gh_two h i a i b) sh),
      rmul s (ropp (sumf (fun i => gh_two h i a b i) sh))).
Proof.
  intros K h m n a b sh Fm Fn La Lb N S.
  assert (D : diff_orbs m n = ([a], [b])).
  { rewrite (surjective_pairing (diff_orbs m n)). f_equal.
    - apply NoDup_all_eq; [apply d1_NoDup| |]; [apply diff_orbs_In1|intros x Hx; apply diff_orbs_In1 in Hx].
      + specialize (La a). unfold lost in La. rewrite Nat.eqb_refl in La. apply andb_true_iff in La as [A B].
        now apply negb_true_iff in B.
      + specialize (La x). unfold lost in La. destruct Hx as [A B]. rewrite A, B in La. symmetry in La.
        now apply Nat.eqb_eq in La.
    - apply NoDup_all_eq; [apply d2_NoDup| |]; [apply diff_orbs_In2|intros x Hx; apply diff_orbs_In2 in Hx].
      + specialize (Lb b). unfold lost in Lb. rewrite Nat.eqb_refl in Lb. apply andb_true_iff in Lb as [A B].
        now apply negb_true_iff in B.
      + specialize (Lb x). unfold lost in Lb. destruct Hx as [A B]. rewrite A, B in Lb. symmetry in Lb.
        now apply Nat.eqb_eq in Lb. }
  rewrite (dec_single h m n a b) by auto. cbn [t_scale]. cbv zeta. rewrite melem1_inner. unfold V.
  rewrite (sumf_same (fun i => gh_two h i a i b) (shared_orbs m n) sh) by (auto using shared_NoDup; intros x; now rewrite S, shared_orbs_In).
  rewrite (sumf_same (fun i => gh_two h i a b i) (shared_orbs m n) sh) by (auto using shared_NoDup; intros x; now rewrite S, shared_orbs_In).
  reflexivity.
Qed.
Print Assumptions C28_components_single.

Theorem C28_components_double : forall {K : CRing} (h : gham K) m n a b c d, fits m (gh_n h) -> fits n (gh_n h) ->
  a < b -> c < d ->
  (forall i, lost m n i = Nat.eqb i a || Nat.eqb i b) -> (forall i, lost n m i = Nat.eqb i c || Nat.eqb i d) ->
  integrate_sd_sd_decomposed h m n =
  let s := sgnr (melem m [Ann c; Ann d; Cre b; Cre a] n) in
  Ok (rO, rmul s (gh_two h a b c d), rmul s (ropp (gh_two h a b d c))).
Proof.
  intros K h m n a b c d Fm Fn Lab Lcd L1 L2.
  assert (I : forall x y, x < y -> increasing [x; y]).
  { intros. repeat constructor; auto. }
  assert (D : diff_orbs m n = ([a; b], [c; d])).
  { rewrite (surjective_pairing (diff_orbs m n)). f_equal.
    - apply increasing_ext; auto; [apply SlaterBits.occ_indices_increasing|]. intros x. rewrite diff_orbs_In1.
      specialize (L1 x). unfold lost in L1. rewrite <- negb_true_iff, <- andb_true_iff, L1, orb_true_iff, !Nat.eqb_eq.
      simpl. intuition.
    - apply increasing_ext; auto; [apply SlaterBits.occ_indices_increasing|]. intros x. rewrite diff_orbs_In2.
      specialize (L2 x). unfold lost in L2. rewrite <- negb_true_iff, <- andb_true_iff, L2, orb_true_iff, !Nat.eqb_eq.
      simpl. intuition. }
  rewrite (dec_double h m n a b c d) by auto. cbn [t_scale]. cbv zeta. rewrite melem2_inner. unfold W.
  f_equal. f_equal. f_equal. apply cr_mul_0_r.
Qed.
Print Assumptions C28_components_double.

(** determinants further apart, or with different numbers of electrons: always zero, whatever the size *)
Theorem C28_zero : forall {K : CRing} (h : gham K) m n a b, counts (lost m n) a -> counts (lost n m) b ->
  a <> b \/ 2 < a -> integrate_sd_sd_decomposed h m n = Ok (rO, rO, rO) .
Proof.
  intros K h m n a b A B H. apply dec_far.
  rewrite (counts_unique _ _ _ (counts_diff1 m n) A), (counts_unique _ _ _ (counts_diff2 m n) B). auto.
Qed.
Print Assumptions C28_zero.

(** an orbital outside of the integrals is an IndexError, unless the element is 0 by the above *)
Theorem C28_index_error : forall {K : CRing} (h : gham K) m n a, counts (lost m n) a -> counts (lost n m) a -> a <= 1 ->
  ~ fits m (gh_n h) -> integrate_sd_sd h m n = Err IndexError.
Proof.
  intros K h m n a A B L F. unfold integrate_sd_sd, integrate_sd_sd_decomposed.
  assert (X : exists i, gh_n h <= i /\ bit m i = true).
  { destruct (Exists_dec (fun i => gh_n h <= i) (occ_indices (Some m)) (fun i => le_dec (gh_n h) i)) as [E|E].
    - apply Exists_exists in E as (i & Hi & Hl). exists i. split; auto. now apply SlaterBits.occ_indices_In.
    - exfalso. apply F. intros i Hi. destruct (bit m i) eqn:E2; auto. exfalso. apply E. apply Exists_exists.
      exists i. split; auto. now apply SlaterBits.occ_indices_In. }
  destruct X as (i & Hi & Bi).
  destruct (sign_code m n) as (b & E1 & _).
  destruct (diff_cases m n) as [->|[(p & q & D)|[(p & q & r & s & D)|H]]].
  - rewrite diff_same in *. cbn [fst snd length Nat.eqb negb Nat.ltb Nat.leb] in *. rewrite E1. cbn [bind].
    rewrite shared_same. assert (I : In i (occ_indices (Some n))) by now apply SlaterBits.occ_indices_In.
    destruct (occ_indices (Some n)) as [|z zs] eqn:O; [destruct I|]. cbn [length Nat.eqb negb andb].
    unfold sd_sd_zero. now rewrite (chk_err _ _ _ i).
  - rewrite D in *. cbn [fst snd length Nat.eqb negb Nat.ltb Nat.leb andb] in *. rewrite E1. cbn [bind].
    unfold sd_sd_one. rewrite (chk_err _ _ _ i); auto.
    destruct (bit n i) eqn:Bn.
    + right. right. apply shared_orbs_In. auto.
    + left. assert (I : In i (fst (diff_orbs m n))) by (apply diff_orbs_In1; auto). rewrite D in I.
      destruct I as [|[]]; auto.
  - pose proof (counts_unique _ _ _ (counts_diff1 m n) A). rewrite D in H. simpl in H. lia.
  - pose proof (counts_unique _ _ _ (counts_diff1 m n) A). pose proof (counts_unique _ _ _ (counts_diff2 m n) B). lia.
Qed.
Print Assumptions C28_index_error.

(** finding: the element of the vacuum with itself (which is 0) raises ValueError, because the empty
    list of shared orbitals sends it to the double-excitation formula *)
Theorem C28_vacuum_refuted : forall {K : CRing} (h : gham K),
  integrate_sd_sd h 0 0 = Err ValueError /\ ham_elem (K := Qc_field) 4 (fun _ _ => rI) (fun _ _ _ _ => rI) 0 0 = rO.
Proof. intros. split; [reflexivity|]. vm_compute. apply Qc_is_canon. reflexivity. Qed.
Print Assumptions C28_vacuum_refuted.

Example C28_ex :
  integrate_sd_sd_decomposed (ex_h2 4) 7 7 = Ok (118, 54, -80)%Z /\
  integrate_sd_sd_decomposed (ex_h2 4) 7 14 = Ok (31, 36, -66)%Z /\
  integrate_sd_sd_decomposed (ex_h2 4) 3 12 = Ok (0, 0, -3)%Z /\
  integrate_sd_sd_decomposed (ex_h2 5) 7 25 = Ok (0, 2, -8)%Z /\
  integrate_sd_sd (ex_h2 4) 3 7 = Ok 0%Z /\ integrate_sd_sd (ex_h2 4) 19 19 = Err IndexError.
Proof. vm_compute. repeat split. Qed.
(** the hypotheses hold for these integrals *)
Example C28_ex_hyps : cached (ex_h2 4) /\ two_sym (gh_two (ex_h2 4)) /\ two_sym (gh_two (ex_h 4)).
Proof.
  split; [|split].
  - intros i j. split; reflexivity.
  - intros i j k l. cbn. unfold ex_two. lia.
  - intros i j k l. cbn. unfold ex_two. lia.
Qed.

(** C29 *)
Theorem C29_hermitian : forall {K : CRing} (h : gham K) m n, two_sym (gh_two h) ->
  (forall i j, gh_one h i j = gh_one h j i) -> (forall i j k l, gh_two h i j k l = gh_two h k l i j) ->
  integrate_sd_sd h m n = integrate_sd_sd h n m /\
  integrate_sd_sd_decomposed h m n = integrate_sd_sd_decomposed h n m.
Proof.
  intros K h m n S H1 H2. assert (E := decomposed_swap h m n S H1 H2). split; auto.
  unfold integrate_sd_sd. now rewrite E.
Qed.
Print Assumptions C29_hermitian.
(** the symmetry is needed: other integrals give other elements *)
Example C29_ex : integrate_sd_sd (ex_h 4) 7 13 = integrate_sd_sd (ex_h 4) 13 7 /\
  integrate_sd_sd (ex_h2 4) 7 13 <> integrate_sd_sd (ex_h2 4) 13 7.
Proof. vm_compute. split; [reflexivity|discriminate]. Qed.
Example C29_ex_hyps : (forall i j, gh_one (ex_h 4) i j = gh_one (ex_h 4) j i) /\
  (forall i j k l, gh_two (ex_h 4) i j k l = gh_two (ex_h 4) k l i j).
Proof.
  assert (A : forall i j, ex_a i j = ex_a j i) by (intros; unfold ex_a; f_equal; lia).
  assert (B : forall i j, ex_b i j = ex_b j i) by (intros; unfold ex_b; f_equal; lia).
  split; intros; cbn; unfold ex_one, ex_two.
  - now rewrite (A i j), (B i j).
  - now rewrite (A i k), (A j l), (B i k), (B j l).
Qed.

(** C33: the projection of H Psi on a determinant *)
Theorem C33_projection : forall {K : CField} (h : gham K) m (f : N -> K), (@radd K rI rI <> rO) ->
  cached h -> two_sym (gh_two h) -> fits m (gh_n h) -> gh_n h <= 63 ->
  exists v, integrate_sd_wfn h m f = Ok v /\
    sum_over (fun n => fits n (gh_n h)) (fun n => rmul (ham_elem (gh_n h) (gh_one h) (gh_two h) m n) (f n)) v.
Proof.
  intros K h m f H2 C S F B. destruct (wfn_sum h m f C S F B) as (v & E & l & N & I & V). exists v. split; auto.
  exists l. split; auto. split; auto. rewrite V. apply sumf_ext. intros n _. f_equal. unfold ham_elem. f_equal.
  rewrite two_body_pairs by auto. symmetry. now apply half_double.
Qed.
Print Assumptions C33_projection.

(** every component is the sum of integrate_sd_sd_decomposed over all determinants *)
Theorem C33_components : forall {K : CRing} (h : gham K) m (f : N -> K), fits m (gh_n h) -> gh_n h <= 63 ->
  exists a b c, integrate_sd_wfn3 h m f = Ok (a, b, c) /\
    sum_over (fun n => fits n (gh_n h)) (fun n => rmul (f n) (comp1 (value3 (integrate_sd_sd_decomposed h m n)))) a /\
    sum_over (fun n => fits n (gh_n h)) (fun n => rmul (f n) (comp2 (value3 (integrate_sd_sd_decomposed h m n)))) b /\
    sum_over (fun n => fits n (gh_n h)) (fun n => rmul (f n) (comp3 (value3 (integrate_sd_sd_decomposed h m n)))) c.
Proof. intros K h m f F B. exact (wfn3_sum h m f F B). Qed.
Print Assumptions C33_components.

(** the loop of the base class gives the same result, without limit on the number of orbitals *)
Theorem C33_base : forall {K : CField} (h : gham K) m (f : N -> K), (@radd K rI rI <> rO) ->
  cached h -> two_sym (gh_two h) -> fits m (gh_n h) -> m <> 0%N ->
  exists v, base_integrate_sd_wfn (integrate_sd_sd h) (gh_n h) [1; 2] m f = Ok v /\
    sum_over (fun n => fits n (gh_n h)) (fun n => rmul (ham_elem (gh_n h) (gh_one h) (gh_two h) m n) (f n)) v.
Proof.
  intros K h m f H2 C S F M. eexists. split.
  - apply (base_value h _ (ham_elem (gh_n h) (gh_one h) (gh_two h) m)); auto.
    intros n Fn. apply C28_elements; auto.
  - apply (reach_sum h m (fun n => rmul (ham_elem (gh_n h) (gh_one h) (gh_two h) m n) (f n))); auto.
    intros n Hn. unfold ham_elem. rewrite two_body_pairs, pair_far by auto.
    rewrite one_far by (destruct Hn; [left; auto|right; lia]).
    rewrite half_double by auto. rewrite (Radd_0_l (rth K)). apply cr_mul_0_l.
Qed.
Print Assumptions C33_base.

(** linear in the wavefunction *)
Theorem C33_linear : forall {K : CRing} (h : gham K) m (f g : N -> K) (c : K), fits m (gh_n h) -> gh_n h <= 63 ->
  exists v w, integrate_sd_wfn h m f = Ok v /\ integrate_sd_wfn h m g = Ok w /\
    integrate_sd_wfn h m (fun n => radd (f n) (rmul c (g n))) = Ok (radd v (rmul c w)).
Proof.
  intros K h m f g c F B. unfold integrate_sd_wfn. rewrite !wfn3_value by auto. cbn [bind]. eexists _, _.
  split; [reflexivity|]. split; [reflexivity|]. f_equal. apply tsumf_linear.
Qed.
Print Assumptions C33_linear.

(** derivatives with respect to several parameters at once *)
Theorem C33_deriv : forall {K : CRing} (h : gham K) m (fs : list (N -> K)) vs,
  integrate_sd_wfn_deriv h m fs = Ok vs <->
  Forall2 (fun f v => integrate_sd_wfn h m f = Ok v) fs vs.
Proof.
  intros K h m fs. unfold integrate_sd_wfn_deriv. induction fs as [|f fs IH]; intros vs; cbn [mapM].
  - split; [intros H; apply Ok_inj in H; subst; constructor|intros H; inversion H; auto].
  - destruct (integrate_sd_wfn h m f) as [v|e] eqn:E; cbn [bind].
    + destruct (mapM _ fs) as [ws|e]; cbn [bind].
      * split.
        -- intros H. apply Ok_inj in H. subst. constructor; auto. now apply IH.
        -- intros H. inversion H as [|? ? ? ? H1 H2]; subst. apply IH in H2. apply Ok_inj in H2. congruence.
      * split; [discriminate|]. intros H. inversion H as [|? ? ? ? H1 H2]; subst. apply IH in H2. discriminate.
    + split; [discriminate|]. intros H. inversion H; subst. congruence.
Qed.
Print Assumptions C33_deriv.

Example C33_ex : integrate_sd_wfn3 (ex_h2 4) 5 ex_f = Ok (206, 32, -47)%Z /\
  integrate_sd_wfn3 (ex_h2 5) 13 ex_f = Ok (65, -352, -66)%Z /\
  integrate_sd_wfn (ex_h2 4) 5 ex_f = Ok 191%Z /\
  base_integrate_sd_wfn (integrate_sd_sd (ex_h2 4)) 4 [1; 2] 5 ex_f = Ok 191%Z /\
  integrate_sd_wfn (ex_h2 4) 0 ex_f = Ok 0%Z /\
  sumf (K := Z_ring) (fun n => match integrate_sd_sd (ex_h2 4) 5 n with Ok e => e * ex_f n | _ => 0 end)%Z
       (map N.of_nat (seq 0 16)) = 191%Z.
Proof. vm_compute. repeat split. Qed.
