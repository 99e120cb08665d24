(** Lemmas for AP1roG *)
From Coq Require Import List ZArith NArith Arith Bool Lia Permutation Sorted Ring_theory.
From Verif Require Import Py Slater BitSpec BitLemmas SlaterBits SlaterBits2 Combos Fock Alg FockInner SignSpec SignLemmas
  Graphs GraphSpec MatchSpec MatchLemmas GeneralLemmas MathTools SdLemmas PermLemmas HamLemmas P_Permanent
  BicliqueLemmas BicliqueMain WfnCI Geminal GemPairs CreSpec CreLemmas P_Slater1 P_Slater2 P_Graphs GemSpec P_GemPairs
  GemMain GemSchemes GemOlp GemWf CILemmas GemFinal AP1roG Ap1Spec.
Import ListNotations.
Local Open Scope nat_scope.

Definition key (k i : nat) : Z * Z := (Z.of_nat i, Z.of_nat (i + k)).
Lemma key_inj : forall k i j, key k i = key k j -> i = j.
Proof. unfold key. intros k i j H. injection H. lia. Qed.
Lemma diag_key : forall k p, is_diag k p <-> exists i, i < k /\ p = key k i. Proof. reflexivity. Qed.

(** *** closed-shell determinants *)
Definition alphas (k : nat) (m : N) : list nat := filter (bit m) (seq 0 k).
Lemma alphas_In : forall k m i, In i (alphas k m) <-> i < k /\ bit m i = true.
Proof. intros. unfold alphas. rewrite filter_In, in_seq. intuition lia. Qed.
Lemma alphas_increasing : forall k m, increasing (alphas k m).
Proof. intros. apply increasing_filter, increasing_seq. Qed.
Lemma alphas_NoDup : forall k m, NoDup (alphas k m).
Proof. intros. apply increasing_NoDup, alphas_increasing. Qed.
Lemma split_alphas : forall k m a b, 0 < k -> split_spin m (Z.of_nat k) = Ok (a, b) -> occ_indices (Some a) = alphas k m.
Proof.
  intros k m a b H E. destruct (split_spin_ok m (Z.of_nat k)) as (a' & b' & E' & Ha & _); [lia|]. rewrite E in E'. injection E' as <- <-.
  apply increasing_ext; [apply occ_indices_increasing|apply alphas_increasing|]. intros i. rewrite occ_indices_In, Ha, alphas_In, Nat2Z.id, andb_true_iff, Nat.ltb_lt. reflexivity.
Qed.
Lemma closed_occ : forall k m, closed_shell k m -> zocc m = map Z.of_nat (alphas k m) ++ map (fun i => Z.of_nat (i + k)) (alphas k m).
Proof.
  intros k m H. apply sorted_perm_eq; [apply occZ_sorted| |].
  - rewrite <- (map_map (fun i => i + k) Z.of_nat), <- map_app.
    assert (I : increasing (alphas k m ++ map (fun i => i + k) (alphas k m))).
    { apply increasing_app. split; [apply alphas_increasing|split].
      - pose proof (alphas_increasing k m) as S. induction S as [|x l S IH F]; cbn [map]; constructor; auto. apply Forall_map. eapply Forall_impl; [|exact F]. cbn. lia.
      - intros x y Hx Hy. apply alphas_In in Hx as [Hx _]. apply in_map_iff in Hy as (z & <- & _). lia. }
    induction I as [|x l S IH F]; cbn [map]; constructor; auto. apply Forall_map. eapply Forall_impl; [|exact F]. cbn. intros. lia.
  - apply NoDup_Permutation; [apply occZ_NoDup| |].
    + apply NoDup_app_iff. split; [|split].
      * apply FinFun.Injective_map_NoDup; [intros x y; lia|apply alphas_NoDup].
      * apply FinFun.Injective_map_NoDup; [intros x y; lia|apply alphas_NoDup].
      * intros z Hz Hz'. apply in_map_iff in Hz as (x & <- & Hx), Hz' as (y & E & Hy). apply alphas_In in Hx as [Hx _]. lia.
    + intros z. rewrite occZ_In, in_app_iff, !in_map_iff. split.
      * intros [P B]. destruct (Nat.ltb_spec (Z.to_nat z) k) as [L|L].
        -- left. exists (Z.to_nat z). rewrite alphas_In. split; [lia|auto].
        -- right. exists (Z.to_nat z - k). specialize (H (Z.to_nat z - k)). unfold alpha_at, beta_at in H. rewrite Nat.sub_add in H by auto. rewrite B in H.
           apply andb_true_iff in H as [H1 H2]. apply Nat.ltb_lt in H1. rewrite alphas_In. split; [lia|auto].
      * intros [(x & <- & Hx)|(x & <- & Hx)]; apply alphas_In in Hx as [Hx B]; rewrite Nat2Z.id; split; try lia; auto.
        specialize (H x). unfold alpha_at, beta_at in H. rewrite <- H, B. now rewrite (proj2 (Nat.ltb_lt _ _)).
Qed.
(** the sign of gathering the alpha orbitals *)
Lemma keys_swaps : forall k l, exists j, swaps j (flat (map (key k) l)) (map Z.of_nat l ++ map (fun i => Z.of_nat (i + k)) l) /\
  2 * j + length l = length l * length l.
Proof.
  intros k. induction l as [|i l (j & S & E)]; [exists 0; split; constructor|].
  exists (j + length l). split; [|cbn [length]; lia].
  cbn [map]. change (flat (key k i :: map (key k) l)) with (Z.of_nat i :: Z.of_nat (i + k) :: flat (map (key k) l)). cbn [app].
  apply swaps_cons. eapply swaps_trans; [apply swaps_cons; exact S|]. rewrite <- (map_length Z.of_nat l).
  generalize (map Z.of_nat l) (map (fun i0 => Z.of_nat (i0 + k)) l). intros a b. cbn [map].
  replace (a ++ Z.of_nat (i + k) :: b) with ((a ++ [Z.of_nat (i + k)]) ++ b) by (rewrite <- app_assoc; reflexivity). rewrite app_comm_cons. apply swaps_app_r, swaps_move.
Qed.
Lemma tri_half : forall j h, 2 * j + h = h * h -> j = h * (h - 1) / 2.
Proof.
  intros j h E. assert (X : h * (h - 1) = j * 2) by (destruct h; cbn in *; nia). rewrite X. now rewrite Nat.div_mul.
Qed.
Lemma closed_swaps : forall k m h, closed_shell k m -> length (alphas k m) = h ->
  swaps (h * (h - 1) / 2) (flat (map (key k) (alphas k m))) (zocc m).
Proof.
  intros k m h C L. rewrite (closed_occ k m C). destruct (keys_swaps k (alphas k m)) as (j & S & E). rewrite L in E. apply tri_half in E. now subst j.
Qed.
Lemma closed_count : forall k m, closed_shell k m -> length (zocc m) = 2 * length (alphas k m).
Proof. intros k m C. rewrite (closed_occ k m C), app_length, !map_length. lia. Qed.
(** determinants made of diagonal pairs are closed shells *)
Lemma diag_closed : forall k m qs, (forall p, In p qs -> is_diag k p) -> Permutation (flat qs) (zocc m) -> closed_shell k m.
Proof.
  intros k m qs D P i. unfold alpha_at, beta_at.
  assert (X : forall z, bit m z = true <-> exists j, j < k /\ In (key k j) qs /\ (z = j \/ z = j + k)).
  { intros z. transitivity (In (Z.of_nat z) (zocc m)); [rewrite occZ_In, Nat2Z.id; intuition lia|]. split.
    - intros Hz. apply (Permutation_in _ (Permutation_sym P)) in Hz. apply flat_In_inv in Hz as [y [Hy|Hy]]; pose proof (D _ Hy) as (j & Hj & Ej); injection Ej as E1 E2.
      + exists j. split; auto. split; [|left; lia]. unfold key. now rewrite <- E1, <- E2.
      + exists j. split; auto. split; [|right; lia]. unfold key. now rewrite <- E1, <- E2.
    - intros (j & Hj & Hq & Ez). apply (Permutation_in _ P). apply flat_In in Hq as [H1 H2]. destruct Ez as [->| ->]; auto. }
  destruct (bit m (i + k)) eqn:B.
  - apply X in B as (j & Hj & Hq & [E|E]); [lia|]. assert (i = j) by lia. subst j. rewrite (proj2 (Nat.ltb_lt _ _) Hj). cbn [andb]. apply X. exists i. auto.
  - destruct (Nat.ltb_spec i k) as [L|L]; auto. cbn [andb]. destruct (bit m i) eqn:B'; auto.
    apply X in B' as (j & Hj & Hq & [E|E]); [subst j|lia]. rewrite <- B. symmetry. apply X. exists i. auto.
Qed.
Lemma diag_perm : forall k m qs, (forall p, In p qs -> is_diag k p) -> Permutation (flat qs) (zocc m) -> Permutation qs (map (key k) (alphas k m)).
Proof.
  intros k m qs D P. apply NoDup_Permutation.
  - apply (flat_perm_NoDup qs (zocc m)); auto. apply occZ_NoDup.
  - apply FinFun.Injective_map_NoDup; [intros x y; apply key_inj|apply alphas_NoDup].
  - intros p. rewrite in_map_iff. split.
    + intros Hp. destruct (D p Hp) as (i & Hi & ->). exists i. split; auto. apply alphas_In. split; auto.
      apply flat_In in Hp as [Hp _]. apply (Permutation_in _ P), occZ_In in Hp as [_ Hp]. now rewrite Nat2Z.id in Hp.
    + intros (i & <- & Hi). apply alphas_In in Hi as [Hi B].
      assert (Z1 : In (Z.of_nat i) (zocc m)) by (apply occZ_In; rewrite Nat2Z.id; split; [lia|auto]).
      apply (Permutation_in _ (Permutation_sym P)) in Z1. apply flat_In_inv in Z1 as [y [Hy|Hy]]; pose proof (D _ Hy) as (j & Hj & Ej); injection Ej as E1 E2.
      * assert (i = j) by lia. subst j. unfold key. now rewrite <- E2.
      * lia.
Qed.

(** *** orbital pairs *)
Definition posn (l : list (Z * Z)) (p : Z * Z) : nat := match pair_index p l with Some i => i | None => 0 end.
Lemma posn_nth : forall l p i, NoDup l -> nth_error l i = Some p -> posn l p = i.
Proof. intros l p i N H. unfold posn. apply pair_index_spec in H; auto. now rewrite H. Qed.
Lemma posn_lt : forall l p, NoDup l -> In p l -> posn l p < length l.
Proof. intros l p N H. apply In_nth_error in H as [i Hi]. rewrite (posn_nth l p i) by auto. apply nth_error_Some. congruence. Qed.
Lemma posn_error : forall l p, NoDup l -> In p l -> nth_error l (posn l p) = Some p.
Proof. intros l p N H. apply In_nth_error in H as [i Hi]. now rewrite (posn_nth l p i). Qed.
Lemma posn_NoDup : forall l qs, NoDup l -> NoDup qs -> incl qs l -> NoDup (map (posn l) qs).
Proof.
  intros l qs N Nq I. apply NoDup_map_inj; auto. intros x y Hx Hy E. apply I in Hx, Hy.
  apply posn_error in Hx, Hy; auto. congruence.
Qed.
Lemma diag_pair_iff : forall k p, 0 < k -> diag_pair (Z.of_nat k) p = true <-> is_diag k p.
Proof.
  intros k [x y] Hk. unfold diag_pair, is_diag. cbn [fst snd]. rewrite !andb_true_iff, Z.leb_le, Z.ltb_lt, Z.eqb_eq. split.
  - intros [[A B] C]. exists (Z.to_nat x). split; [lia|]. f_equal; lia.
  - intros (i & Hi & E). injection E as -> ->. lia.
Qed.
Lemma in_ref_key : forall ref k i, closed_shell k ref -> i < k -> in_ref ref (key k i) = bit ref i.
Proof.
  intros ref k i C H. unfold in_ref, key. cbn [fst snd]. rewrite !Nat2Z.id, !occ_bit. specialize (C i). unfold alpha_at, beta_at in C.
  rewrite (proj2 (Nat.ltb_lt _ _) H) in C. cbn [andb] in C. rewrite <- C. now destruct (bit ref i).
Qed.

(** *** the invariant of a constructed wavefunction *)
Section Wf.
Context {K : CField}.
Record wf_ap1 (w : ap1 K) (k h : nat) : Prop := mkwf1 {
  w1_k : 0 < k;
  w1_h : 0 < h;
  w1_nspin : a1_nspatial w = Z.of_nat k;
  w1_nelec : gm_nelec (a1_gem w) = Z.of_nat (2 * h);
  w1_spin : gm_nspin (a1_gem w) = Z.of_nat (2 * k);
  w1_ngem : gm_ngem (a1_gem w) = h;
  w1_closed : closed_shell k (a1_ref w);
  w1_count : length (alphas k (a1_ref w)) = h;
  w1_ref : Permutation (a1_refpairs w) (map (key k) (alphas k (a1_ref w)));
  w1_vir : Permutation (gm_pairs (a1_gem w)) (map (key k) (filter (fun i => negb (bit (a1_ref w) i)) (seq 0 k)));
  w1_len : length (a1_params w) = h * norbpair (a1_gem w)
}.
End Wf.
