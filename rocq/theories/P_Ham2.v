(** C30, C31, C33: the restricted and unrestricted chemical Hamiltonians. *)
From Coq Require Import Ring_theory List ZArith NArith Bool Lia Arith Permutation.
From Verif Require Import Py BitSpec BitLemmas Slater Fock FockLemmas Alg PermLemmas HamSpec HamGen FockInner HamLemmas
  HamSC HamMain HamWfn HamRes SpinSpec HamSpin HamSpinSum HamEx P_Ham1.
Import ListNotations.
Local Open Scope nat_scope.

(** the caches of the restricted and unrestricted Hamiltonians agree with the integrals *)
Definition r_cached {K : CRing} (h : rham K) : Prop :=
  forall i j, rh_ijij h i j = rh_two h i j i j /\ rh_ijji h i j = rh_two h i j j i.
Definition u_cached {K : CRing} (h : uham K) : Prop :=
  forall i j, uh_0_ijij h i j = uh_two0 h i j i j /\ uh_1_ijij h i j = uh_two1 h i j i j /\
              uh_2_ijij h i j = uh_two2 h i j i j /\ uh_0_ijji h i j = uh_two0 h i j j i /\
              uh_2_ijji h i j = uh_two2 h i j j i.

(** [g] is a generalized Hamiltonian with the given spin orbital integrals *)
Definition has_ints {K : CRing} (g : gham K) (k : nat) (one : nat -> nat -> K) (two : nat -> nat -> nat -> nat -> K) : Prop :=
  gh_n g = k /\ cached g /\ (forall i j, gh_one g i j = one i j) /\ (forall i j p q, gh_two g i j p q = two i j p q).

Theorem C30_cache : forall {K : CRing} (h : rham K), r_cached (r_cache_two_ints h) /\
  rh_n (r_cache_two_ints h) = rh_n h /\ rh_one (r_cache_two_ints h) = rh_one h /\ rh_two (r_cache_two_ints h) = rh_two h.
Proof. intros. repeat split; reflexivity. Qed.
Print Assumptions C30_cache.

(** C30 *)
Theorem C30_restricted : forall {K : CRing} (h : rham K) (g : gham K) m n,
  r_cached h -> has_ints g (2 * rh_n h) (expand1 (rh_n h) (rh_one h)) (expand2 (rh_n h) (rh_two h)) ->
  0 < rh_n h -> fits m (2 * rh_n h) -> fits n (2 * rh_n h) -> (m <> 0%N \/ n <> 0%N) ->
  r_decomposed h m n = integrate_sd_sd_decomposed g m n /\ r_sd_sd h m n = integrate_sd_sd g m n.
Proof.
  intros K h g m n C (G0 & G1 & G2 & G3) P Fm Fn Z.
  assert (E : r_decomposed h m n = integrate_sd_sd_decomposed g m n).
  { rewrite r_decomposed_eq by (auto; tauto). apply decomposed_ext; auto; intros i j;
      destruct (G1 i j) as [X Y]; cbn [gen_of_r cache_two_ints gh_ijij gh_ijji gh_one gh_two]; rewrite ?X, ?Y, ?G2; auto; intros; now rewrite G3. }
  split; auto. unfold r_sd_sd, integrate_sd_sd. now rewrite E.
Qed.
Print Assumptions C30_restricted.

(** with C28: the matrix element of the Hamiltonian with the expanded integrals.  The vacuum is included:
    unlike the generalized class, the restricted class returns 0 there *)
Theorem C30_elements : forall {K : CField} (h : rham K) m n, (@radd K rI rI <> rO) ->
  r_cached h -> two_sym (rh_two h) -> 0 < rh_n h -> fits m (2 * rh_n h) -> fits n (2 * rh_n h) ->
  r_sd_sd h m n = Ok (ham_elem (2 * rh_n h) (expand1 (rh_n h) (rh_one h)) (expand2 (rh_n h) (rh_two h)) m n).
Proof.
  intros K h m n H2 C S P Fm Fn.
  assert (D : (m = 0%N /\ n = 0%N) \/ (m <> 0%N \/ n <> 0%N)) by lia. destruct D as [[-> ->]|D].
  - unfold r_sd_sd. rewrite r_vacuum by auto. cbn [bind]. f_equal.
    unfold ham_elem. rewrite two_body_pairs by (now apply expand2_sym).
    rewrite one_same, pair_same by (auto; now apply expand2_sym).
    change (occ_indices (Some 0%N)) with (@nil nat). cbn. rewrite half_double by auto. unfold t_sum. cbn.
    rewrite !(Radd_0_l (rth K)). rewrite (Rsub_def (rth K)). symmetry. apply (Ropp_def (rth K)).
  - destruct (C30_restricted h (gen_of_r h) m n C) as [_ E]; auto.
    + repeat split; auto.
    + rewrite E. rewrite C28_elements; auto; [intros i j; split; reflexivity|now apply expand2_sym].
Qed.
Print Assumptions C30_elements.

Theorem C30_hermitian : forall {K : CRing} (h : rham K) m n, r_cached h -> two_sym (rh_two h) -> 0 < rh_n h ->
  (forall i j, rh_one h i j = rh_one h j i) -> (forall i j k l, rh_two h i j k l = rh_two h k l i j) ->
  fits m (2 * rh_n h) -> fits n (2 * rh_n h) ->
  r_sd_sd h m n = r_sd_sd h n m.
Proof.
  intros K h m n C S P H1 H2 Fm Fn.
  assert (D : (m = 0%N /\ n = 0%N) \/ (m <> 0%N \/ n <> 0%N)) by lia. destruct D as [[-> ->]|D]; auto.
  assert (Hg : has_ints (gen_of_r h) (2 * rh_n h) (expand1 (rh_n h) (rh_one h)) (expand2 (rh_n h) (rh_two h))) by (repeat split; auto).
  destruct (C30_restricted h (gen_of_r h) m n C Hg) as [_ ->]; auto.
  assert (D' : n <> 0%N \/ m <> 0%N) by tauto.
  destruct (C30_restricted h (gen_of_r h) n m C Hg) as [_ ->]; auto.
  apply C29_hermitian; cbn [gen_of_r cache_two_ints gh_one gh_two].
  - now apply expand2_sym.
  - intros i j. unfold expand1, same_spin. destruct (up (rh_n h) i), (up (rh_n h) j); cbn; auto.
  - intros i j k l. unfold expand2, same_spin.
    destruct (up (rh_n h) i), (up (rh_n h) j), (up (rh_n h) k), (up (rh_n h) l); cbn; auto.
Qed.
Print Assumptions C30_hermitian.

(** C31 *)
Theorem C31_cache : forall {K : CRing} (h : uham K), u_cached (u_cache_two_ints h) /\
  uh_n (u_cache_two_ints h) = uh_n h /\
  uh_one0 (u_cache_two_ints h) = uh_one0 h /\ uh_one1 (u_cache_two_ints h) = uh_one1 h /\
  uh_two0 (u_cache_two_ints h) = uh_two0 h /\ uh_two1 (u_cache_two_ints h) = uh_two1 h /\
  uh_two2 (u_cache_two_ints h) = uh_two2 h.
Proof. intros. repeat split; reflexivity. Qed.
Print Assumptions C31_cache.
Theorem C31_unrestricted : forall {K : CRing} (h : uham K) (g : gham K) m n,
  u_cached h -> has_ints g (2 * uh_n h) (uexpand1 (uh_n h) (uh_one0 h) (uh_one1 h))
                          (uexpand2 (uh_n h) (uh_two0 h) (uh_two1 h) (uh_two2 h)) ->
  0 < uh_n h -> fits m (2 * uh_n h) -> fits n (2 * uh_n h) -> (m <> 0%N \/ n <> 0%N) ->
  u_decomposed h m n = integrate_sd_sd_decomposed g m n /\ u_sd_sd h m n = integrate_sd_sd g m n.
Proof.
  intros K h g m n C (G0 & G1 & G2 & G3) P Fm Fn Z.
  assert (E : u_decomposed h m n = integrate_sd_sd_decomposed g m n).
  { rewrite u_decomposed_eq by (auto; tauto). apply decomposed_ext; auto; intros i j;
      destruct (G1 i j) as [X Y]; cbn [gen_of_u cache_two_ints gh_ijij gh_ijji gh_one gh_two]; rewrite ?X, ?Y, ?G2; auto; intros; now rewrite G3. }
  split; auto. unfold u_sd_sd, integrate_sd_sd. now rewrite E.
Qed.
Print Assumptions C31_unrestricted.

Theorem C31_elements : forall {K : CField} (h : uham K) m n, (@radd K rI rI <> rO) ->
  u_cached h -> two_sym (uh_two0 h) -> two_sym (uh_two2 h) -> 0 < uh_n h ->
  fits m (2 * uh_n h) -> fits n (2 * uh_n h) ->
  u_sd_sd h m n = Ok (ham_elem (2 * uh_n h) (uexpand1 (uh_n h) (uh_one0 h) (uh_one1 h))
                               (uexpand2 (uh_n h) (uh_two0 h) (uh_two1 h) (uh_two2 h)) m n).
Proof.
  intros K h m n H2 C S0 S2 P Fm Fn.
  assert (D : (m = 0%N /\ n = 0%N) \/ (m <> 0%N \/ n <> 0%N)) by lia. destruct D as [[-> ->]|D].
  - unfold u_sd_sd. rewrite u_vacuum by auto. cbn [bind]. f_equal.
    unfold ham_elem. rewrite two_body_pairs by (now apply uexpand2_sym).
    rewrite one_same, pair_same by (auto; now apply uexpand2_sym).
    change (occ_indices (Some 0%N)) with (@nil nat). cbn. rewrite half_double by auto. unfold t_sum. cbn.
    rewrite !(Radd_0_l (rth K)). rewrite (Rsub_def (rth K)). symmetry. apply (Ropp_def (rth K)).
  - destruct (C31_unrestricted h (gen_of_u h) m n C) as [_ E]; auto.
    + repeat split; auto.
    + rewrite E. rewrite C28_elements; auto; [intros i j; split; reflexivity|now apply uexpand2_sym].
Qed.
Print Assumptions C31_elements.

Example C30_ex :
  r_decomposed (ex_r 3) 11 11 = Ok (68, 72, -52)%Z /\
  r_decomposed (ex_r 3) 11 13 = Ok (10, 2, -10)%Z /\
  r_decomposed (ex_r 3) 11 19 = Ok (24, 70, 0)%Z /\
  r_decomposed (ex_r 3) 9 18 = Ok (0, 52, 0)%Z /\
  r_decomposed (ex_r 3) 27 45 = Ok (0, 1, 0)%Z /\
  r_decomposed (ex_r 3) 3 9 = Ok (0, 0, 0)%Z /\ r_sd_sd (ex_r 3) 0 0 = Ok 0%Z.
Proof. vm_compute. repeat split. Qed.
Example C30_ex_hyps : r_cached (ex_r 3) /\ two_sym (rh_two (ex_r 3)) /\ u_cached (ex_u 3) /\
  two_sym (uh_two0 (ex_u 3)) /\ two_sym (uh_two2 (ex_u 3)).
Proof.
  repeat split; intros i j k l; cbn; unfold ex_two; lia.
Qed.
Example C31_ex :
  u_decomposed (ex_u 3) 11 11 = Ok (68, 74, -52)%Z /\
  u_decomposed (ex_u 3) 11 13 = Ok (10, 4, -10)%Z /\
  u_decomposed (ex_u 3) 25 49 = Ok (-50, -23, 2)%Z /\
  u_decomposed (ex_u 3) 24 48 = Ok (-50, -20, 2)%Z /\
  u_decomposed (ex_u 3) 25 50 = Ok (0, -8, 0)%Z /\
  u_decomposed (ex_u 3) 56 56 = Ok (118, 54, -80)%Z /\
  u_decomposed (ex_u 3) 48 40 = Ok (25, 14, -7)%Z /\
  u_decomposed (ex_u 3) 10 20 = Ok (0, 3, 0)%Z.
Proof. vm_compute. repeat split. Qed.

(** C33 for the two classes: every component is the sum of the decomposed elements over all determinants *)
Theorem C33_unrestricted_components : forall {K : CRing} (h : uham K) m (f : N -> K), u_cached h ->
  0 < uh_n h -> fits m (2 * uh_n h) -> 2 * uh_n h <= 63 ->
  exists a b c, u_wfn3 h m f = Ok (a, b, c) /\
    sum_over (fun n => fits n (2 * uh_n h)) (fun n => rmul (f n) (comp1 (value3 (u_decomposed h m n)))) a /\
    sum_over (fun n => fits n (2 * uh_n h)) (fun n => rmul (f n) (comp2 (value3 (u_decomposed h m n)))) b /\
    sum_over (fun n => fits n (2 * uh_n h)) (fun n => rmul (f n) (comp3 (value3 (u_decomposed h m n)))) c.
Proof.
  intros K h m f C P F L. rewrite u_wfn3_value by auto. eexists _, _, _. split; [reflexivity|].
  apply tsum_over. intros n Fn. unfold decT.
  assert (D : (m = 0%N /\ n = 0%N) \/ ~ (m = 0%N /\ n = 0%N)) by lia. destruct D as [[-> ->]|D].
  - now rewrite u_vacuum.
  - now rewrite u_decomposed_eq.
Qed.
Print Assumptions C33_unrestricted_components.

Theorem C33_unrestricted : forall {K : CField} (h : uham K) m (f : N -> K), (@radd K rI rI <> rO) ->
  u_cached h -> two_sym (uh_two0 h) -> two_sym (uh_two2 h) -> 0 < uh_n h -> fits m (2 * uh_n h) -> 2 * uh_n h <= 63 ->
  exists v, u_wfn h m f = Ok v /\
    sum_over (fun n => fits n (2 * uh_n h))
      (fun n => rmul (ham_elem (2 * uh_n h) (uexpand1 (uh_n h) (uh_one0 h) (uh_one1 h))
                               (uexpand2 (uh_n h) (uh_two0 h) (uh_two1 h) (uh_two2 h)) m n) (f n)) v.
Proof.
  intros K h m f H2 C S0 S2 P F L. unfold u_wfn. rewrite u_wfn3_value by auto. cbn [bind]. eexists. split; [reflexivity|].
  apply tsum_elem with (e := fun n => integrate_sd_sd_decomposed (gen_of_u h) m n).
  intros n Fn. assert (D : (m = 0%N /\ n = 0%N) \/ (m <> 0%N \/ n <> 0%N)) by lia. destruct D as [[-> ->]|D].
  - assert (X := C31_elements h 0 0 H2 C S0 S2 P F Fn). unfold u_sd_sd in X. rewrite u_vacuum in X by auto.
    cbn [bind] in X. apply Ok_inj in X. rewrite <- X. reflexivity.
  - assert (X := C31_elements h m n H2 C S0 S2 P F Fn). unfold u_sd_sd in X. rewrite u_decomposed_eq in X by (auto; tauto).
    destruct (integrate_sd_sd_decomposed (gen_of_u h) m n); [|discriminate]. cbn [bind] in X. apply Ok_inj in X. now rewrite <- X.
Qed.
Print Assumptions C33_unrestricted.

(** the restricted class has no limit on the number of orbitals, except that it fails for 64 spin orbitals *)
Theorem C33_restricted_components : forall {K : CRing} (h : rham K) m (f : N -> K), r_cached h -> two_sym (rh_two h) ->
  0 < rh_n h -> fits m (2 * rh_n h) -> 2 * rh_n h <> 64 ->
  exists a b c, r_wfn3 h m f = Ok (a, b, c) /\
    sum_over (fun n => fits n (2 * rh_n h)) (fun n => rmul (f n) (comp1 (value3 (r_decomposed h m n)))) a /\
    sum_over (fun n => fits n (2 * rh_n h)) (fun n => rmul (f n) (comp2 (value3 (r_decomposed h m n)))) b /\
    sum_over (fun n => fits n (2 * rh_n h)) (fun n => rmul (f n) (comp3 (value3 (r_decomposed h m n)))) c.
Proof.
  intros K h m f C S P F L. rewrite r_wfn3_value by auto. eexists _, _, _. split; [reflexivity|].
  apply tsum_over. intros n Fn. unfold decT.
  assert (D : (m = 0%N /\ n = 0%N) \/ ~ (m = 0%N /\ n = 0%N)) by lia. destruct D as [[-> ->]|D].
  - now rewrite r_vacuum.
  - now rewrite r_decomposed_eq.
Qed.
Print Assumptions C33_restricted_components.

Theorem C33_restricted : forall {K : CField} (h : rham K) m (f : N -> K), (@radd K rI rI <> rO) ->
  r_cached h -> two_sym (rh_two h) -> 0 < rh_n h -> fits m (2 * rh_n h) -> 2 * rh_n h <> 64 ->
  exists v, r_wfn h m f = Ok v /\
    sum_over (fun n => fits n (2 * rh_n h))
      (fun n => rmul (ham_elem (2 * rh_n h) (expand1 (rh_n h) (rh_one h)) (expand2 (rh_n h) (rh_two h)) m n) (f n)) v.
Proof.
  intros K h m f H2 C S P F L. unfold r_wfn. rewrite r_wfn3_value by auto. cbn [bind]. eexists. split; [reflexivity|].
  apply tsum_elem with (e := fun n => integrate_sd_sd_decomposed (gen_of_r h) m n).
  intros n Fn. assert (D : (m = 0%N /\ n = 0%N) \/ (m <> 0%N \/ n <> 0%N)) by lia. destruct D as [[-> ->]|D].
  - assert (X := C30_elements h 0 0 H2 C S P F Fn). unfold r_sd_sd in X. rewrite r_vacuum in X by auto.
    cbn [bind] in X. apply Ok_inj in X. rewrite <- X. reflexivity.
  - assert (X := C30_elements h m n H2 C S P F Fn). unfold r_sd_sd in X. rewrite r_decomposed_eq in X by (auto; tauto).
    destruct (integrate_sd_sd_decomposed (gen_of_r h) m n); [|discriminate]. cbn [bind] in X. apply Ok_inj in X. now rewrite <- X.
Qed.
Print Assumptions C33_restricted.

(** finding: with exactly 64 spin orbitals the int64 masks are used although they hold only 63 orbitals *)
Theorem C33_restricted_64_refuted : exists (h : rham Z_ring) m f, r_cached h /\ two_sym (rh_two h) /\
  rh_n h = 32 /\ fits m 64 /\ r_wfn h m f = Err OverflowError.
Proof.
  exists (ex_r 32), (2 ^ 63)%N, ex_f. split; [intros i j; split; reflexivity|].
  split; [intros i j k l; cbn; unfold ex_two; lia|]. split; [reflexivity|]. split; [|vm_compute; reflexivity].
  apply fits_pow2. reflexivity.
Qed.
Print Assumptions C33_restricted_64_refuted.

Example C33_spin_ex : r_wfn3 (ex_r 3) 11 ex_f = Ok (88, -262, 76)%Z /\ u_wfn3 (ex_u 3) 11 ex_f = Ok (88, -267, 76)%Z /\
  u_wfn3 (ex_u 4) 49 ex_f = Ok (-290, 0, -9)%Z /\
  r_wfn (ex_r 33) (2 ^ 65 + 1) ex_f = Ok (-439)%Z /\ r_wfn (ex_r 3) 0 ex_f = Ok 0%Z /\
  sumf (K := Z_ring) (fun n => match u_sd_sd (ex_u 3) 11 n with Ok e => e * ex_f n | _ => 0 end)%Z
       (map N.of_nat (seq 0 64)) = (-103)%Z.
Proof. vm_compute. repeat split. Qed.
