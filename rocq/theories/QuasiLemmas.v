(** Lemmas for C68: subsets, partitions and products of quasiparticles *)
From Coq Require Import List ZArith NArith Arith Bool Lia Permutation Sorted.
From Verif Require Import Py BitSpec BitLemmas Fock Slater SlaterBits Combos Alg SignSpec SignLemmas MatchSpec MatchLemmas GeneralLemmas MathTools SdLemmas PermLemmas RyserLemmas BorchardtLemmas HamLemmas FockLemmas FockInner BicliqueLemmas BicliqueMain
  CreSpec CreLemmas P_Slater2 CCGen CILemmas Graphs GraphSpec PartLemmas PartMain P_Graphs CCRows GemMain GemFinal WfnCI Geminal Nonorth Quasi QuasiSpec.
Import ListNotations.
Local Open Scope nat_scope.

(** *** indices of subsets *)
Lemma zlist_eqb_eq : forall a b, zlist_eqb a b = true <-> a = b.
Proof.
  induction a as [|x a IH]; intros [|y b]; cbn [zlist_eqb]; split; intros H; try discriminate; auto.
  - apply andb_prop in H as [H1 H2]. apply Z.eqb_eq in H1. apply IH in H2. now subst.
  - injection H as -> ->. rewrite Z.eqb_refl. now apply IH.
Qed.
Lemma subset_index_some : forall s l i, subset_index s l = Some i -> nth_error l i = Some s.
Proof.
  induction l as [|t l IH]; intros i H; [discriminate|]. cbn [subset_index] in H. destruct (zlist_eqb t s) eqn:E.
  - injection H as <-. apply zlist_eqb_eq in E. now subst.
  - destruct (subset_index s l) as [j|]; [|discriminate]. injection H as <-. cbn [nth_error]. auto.
Qed.
Lemma subset_index_none : forall s l, subset_index s l = None <-> ~ In s l.
Proof.
  induction l as [|t l IH]; cbn [subset_index In]; [tauto|]. destruct (zlist_eqb t s) eqn:E.
  - apply zlist_eqb_eq in E. subst. split; [discriminate|]. intros H. exfalso. auto.
  - assert (t <> s) by (intros X; apply zlist_eqb_eq in X; congruence). destruct (subset_index s l) as [j|]; cbn [option_map].
    + split; [discriminate|]. intros X. exfalso. assert (Y : ~ In s l) by tauto. apply IH in Y. discriminate.
    + split; [|auto]. intros _ [X|X]; auto. now apply IH.
Qed.
Lemma subset_index_nth : forall l i s, NoDup l -> nth_error l i = Some s -> subset_index s l = Some i.
Proof.
  intros l i s N H. destruct (subset_index s l) as [j|] eqn:E.
  - apply subset_index_some in E. f_equal. rewrite NoDup_nth_error in N. apply N; [|congruence]. apply nth_error_Some. congruence.
  - apply subset_index_none in E. exfalso. apply E. eapply nth_error_In; eauto.
Qed.
Lemma col_ind_ok : forall l s, In s l -> exists i, q_col_ind l s = Ok i /\ nth_error l i = Some s.
Proof.
  intros l s H. unfold q_col_ind. destruct (subset_index s l) as [i|] eqn:E; [|apply subset_index_none in E; contradiction].
  exists i. split; auto. now apply subset_index_some.
Qed.
Definition cidx (l : list (list Z)) (s : list Z) : nat := match subset_index s l with Some i => i | None => 0 end.
Lemma cidx_ok : forall l s, In s l -> q_col_ind l s = Ok (cidx l s) /\ nth_error l (cidx l s) = Some s.
Proof. intros l s H. destruct (col_ind_ok l s H) as (i & E & Hn). unfold cidx, q_col_ind in *. destruct (subset_index s l); [|discriminate]. injection E as ->. auto. Qed.
Lemma cidx_lt : forall l s, In s l -> cidx l s < length l.
Proof. intros l s H. apply nth_error_Some. rewrite (proj2 (cidx_ok l s H)). discriminate. Qed.
Lemma cidx_inj : forall l s t, In s l -> In t l -> cidx l s = cidx l t -> s = t.
Proof. intros l s t Hs Ht E. pose proof (proj2 (cidx_ok l s Hs)). pose proof (proj2 (cidx_ok l t Ht)). rewrite E in *. congruence. Qed.
Lemma cidx_NoDup : forall l P, incl P l -> NoDup P -> NoDup (map (cidx l) P).
Proof.
  intros l P I N. induction N as [|s P Hn N IH]; cbn [map]; constructor.
  - intros X. apply in_map_iff in X as (t & E & Ht). apply cidx_inj in E; [subst; contradiction| |]; apply I; [now right|now left].
  - apply IH. intros t Ht. apply I. now right.
Qed.

(** *** the loop of assign_orbsubsets *)
Lemma z_nodup_iff : forall l, z_nodup l = true <-> NoDup l.
Proof.
  induction l as [|x l IH]; cbn [z_nodup]; [split; auto; constructor|]. rewrite andb_true_iff, IH, NoDup_cons_iff, negb_true_iff. split; intros [H1 H2]; split; auto.
  - intros X. rewrite (proj2 (existsb_exists _ _)) in H1; [discriminate|]. exists x. split; auto. apply Z.eqb_refl.
  - apply not_true_is_false. intros X. apply existsb_exists in X as (y & Hy & E). apply Z.eqb_eq in E. subst. contradiction.
Qed.
Lemma subsets_loop_spec : forall l dict out, q_subsets_loop l dict = Ok out <->
  (forall s, In s l -> NoDup s) /\ (forall s, In s (map sorted_Z l) -> ~ In s dict) /\ NoDup (map sorted_Z l) /\ out = dict ++ map sorted_Z l.
Proof.
  induction l as [|s l IH]; intros dict out; cbn [q_subsets_loop map].
  - rewrite app_nil_r. split; [intros H; apply Ok_inj in H; subst; repeat split; auto; try constructor; intros ? []|intros (_ & _ & _ & ->); reflexivity].
  - destruct (z_nodup s) eqn:E; cbn [negb].
    2:{ split; [discriminate|]. intros (H & _). exfalso. assert (X : NoDup s) by (apply H; now left). apply z_nodup_iff in X. congruence. }
    apply z_nodup_iff in E. destruct (subset_index (sorted_Z s) dict) as [i|] eqn:E'.
    + split; [discriminate|]. intros (_ & H & _). exfalso. apply subset_index_some, nth_error_In in E'. apply (H (sorted_Z s)); [now left|auto].
    + apply subset_index_none in E'. rewrite IH, NoDup_cons_iff. split.
      * intros (H1 & H2 & H3 & ->). rewrite <- app_assoc. cbn [app]. split; [intros t [<-|Ht]; auto|]. split; [intros t [<-|Ht]; auto; intros X; apply (H2 t Ht), in_or_app; auto|].
        split; auto. split; auto. intros X. apply (H2 _ X). apply in_or_app. right. now left.
      * intros (H1 & H2 & (H3 & H4) & ->). rewrite <- app_assoc. cbn [app]. split; [intros; apply H1; now right|]. split; [|auto].
        intros t Ht X. apply in_app_or in X as [X|[<-|[]]]; [|contradiction]. apply (H2 t); [now right|auto].
Qed.
Lemma subsets_loop_err : forall l dict e, q_subsets_loop l dict = Err e -> e = ValueError.
Proof.
  induction l as [|s l IH]; intros dict e H; [discriminate|]. cbn [q_subsets_loop] in H. destruct (negb _); [congruence|]. destruct (subset_index _ _); [congruence|]. eauto.
Qed.

(** *** quadruples *)
Lemma combinations_head : forall k n a, combinations (from_to a n) (S k) = flat_map (fun i => map (cons i) (combinations (from_to (i + 1) n) k)) (from_to a n).
Proof.
  intros k n. assert (G : forall d a, n - a = d -> combinations (from_to a n) (S k) = flat_map (fun i => map (cons i) (combinations (from_to (i + 1) n) k)) (from_to a n)).
  { induction d as [|d IH]; intros a E.
    - unfold from_to at 1 3. rewrite E. reflexivity.
    - assert (F : from_to a n = a :: from_to (a + 1) n) by (unfold from_to; rewrite E; replace (n - (a + 1)) with d by lia; now rewrite Nat.add_1_r).
      rewrite F. cbn [combinations flat_map]. rewrite IH by lia. reflexivity. }
  intros a. eapply G; eauto.
Qed.
Lemma flat_map_map : forall {A B C} (f : A -> B) (g : B -> list C) l, flat_map g (map f l) = flat_map (fun x => g (f x)) l.
Proof. induction l as [|x l IH]; [reflexivity|]. cbn [map flat_map]. now rewrite IH. Qed.
Lemma map_flat_map : forall {A B C} (f : B -> C) (g : A -> list B) l, map f (flat_map g l) = flat_map (fun x => map f (g x)) l.
Proof. induction l as [|x l IH]; [reflexivity|]. cbn [flat_map]. now rewrite map_app, IH. Qed.
Lemma flat_map_ext_in : forall {A B} (f g : A -> list B) l, (forall x, In x l -> f x = g x) -> flat_map f l = flat_map g l.
Proof. intros A B f g l H. induction l as [|x l IH]; [reflexivity|]. cbn [flat_map]. rewrite H by now left. rewrite IH; auto. intros y Hy. apply H. now right. Qed.
Lemma quadruples_combinations : forall n, quadruples n = map (map Z.of_nat) (combinations (seq 0 n) 4).
Proof.
  intros n. unfold quadruples. replace (seq 0 n) with (from_to 0 n) by (unfold from_to; now rewrite Nat.sub_0_r).
  rewrite combinations_head, map_flat_map. apply flat_map_ext_in. intros i _.
  rewrite map_map, combinations_head, map_flat_map. apply flat_map_ext_in. intros j _.
  rewrite map_map, combinations_head, map_flat_map. apply flat_map_ext_in. intros k _.
  rewrite map_map, combinations_1, map_map. reflexivity.
Qed.
Lemma increasing_sorted_Z : forall l, increasing l <-> StronglySorted Z.lt (map Z.of_nat l).
Proof.
  induction l as [|x l IH]; cbn [map]; [split; constructor|]. split; intros H; inversion H as [|? ? H1 H2]; subst; constructor; try (now apply IH); rewrite Forall_forall in *.
  - intros y Hy. apply in_map_iff in Hy as (z & <- & Hz). apply H2 in Hz. lia.
  - intros y Hy. assert (X : In (Z.of_nat y) (map Z.of_nat l)) by now apply in_map. apply H2 in X. lia.
Qed.
Lemma quadruples_In : forall n s, In s (quadruples n) <-> StronglySorted Z.lt s /\ length s = 4 /\ forall i, In i s -> (0 <= i < Z.of_nat n)%Z.
Proof.
  intros n s. rewrite quadruples_combinations, in_map_iff. split.
  - intros (c & <- & Hc). apply combinations_increasing_In in Hc as (I1 & I2 & L); [|apply increasing_seq]. rewrite map_length. split; [now apply increasing_sorted_Z|]. split; auto.
    intros i Hi. apply in_map_iff in Hi as (j & <- & Hj). apply I2, in_seq in Hj. lia.
  - intros (S & L & B). assert (E : map Z.of_nat (map Z.to_nat s) = s). { rewrite map_map. transitivity (map (fun x => x) s); [|apply map_id]. apply map_ext_in. intros i Hi. rewrite Z2Nat.id; auto. now apply B. }
    exists (map Z.to_nat s). split; auto. apply combinations_increasing_In; [apply increasing_seq|]. split; [apply increasing_sorted_Z; now rewrite E|]. split; [|now rewrite map_length].
    intros j Hj. apply in_map_iff in Hj as (i & <- & Hi). apply B in Hi. apply in_seq. lia.
Qed.
Lemma map_of_nat_inj : forall a b, map Z.of_nat a = map Z.of_nat b -> a = b.
Proof. induction a as [|x a IH]; intros [|y b] H; try discriminate; auto. cbn [map] in H. injection H as H1 H2. f_equal; [lia|auto]. Qed.
Lemma quadruples_NoDup : forall n, NoDup (quadruples n).
Proof. intros n. rewrite quadruples_combinations. apply FinFun.Injective_map_NoDup; [intros a b; apply map_of_nat_inj|]. apply combinations_NoDup, seq_NoDup. Qed.
Lemma quadruples_length : forall n, length (quadruples n) = binom n 4.
Proof. intros n. rewrite quadruples_combinations, map_length, combinations_length, seq_length. reflexivity. Qed.
Lemma sorted_Z_id : forall l, StronglySorted Z.lt l -> sorted_Z l = l.
Proof.
  intros l S. apply sorted_perm_eq; auto; [|apply sorted_Z_perm]. apply sorted_strict; [|apply sorted_Z_sorted].
  eapply Permutation_NoDup; [symmetry; apply sorted_Z_perm|]. now apply SS_NoDup.
Qed.
Lemma quadruples_assigned : forall n, q_subsets_loop (quadruples n) [] = Ok (quadruples n).
Proof.
  intros n. assert (E : map sorted_Z (quadruples n) = quadruples n). { rewrite <- (map_id (quadruples n)) at 2. apply map_ext_in. intros s Hs. apply quadruples_In in Hs as (S & _). now apply sorted_Z_id. }
  apply subsets_loop_spec. rewrite E. split; [intros s Hs; apply quadruples_In in Hs as (S & _); now apply SS_NoDup|]. split; [intros s _ []|]. split; [apply quadruples_NoDup|reflexivity].
Qed.

(** *** permutations of blocks of even size are even *)
Definition evens (P : list (list Z)) : Prop := forall s, In s P -> s <> [] /\ Nat.even (length s) = true.
Lemma concat_swaps : forall P Q, evens P -> Permutation P Q -> exists k, swaps (2 * k) (concat P) (concat Q).
Proof.
  intros P Q E H. induction H as [|s P Q H IH|s t P|P Q R H1 IH1 H2 IH2].
  - exists 0. constructor.
  - destruct IH as [k IH]; [intros x Hx; apply E; now right|]. exists k. cbn [concat]. now apply swaps_app_l.
  - cbn [concat]. rewrite !app_assoc. destruct (E t) as [_ Et]; [now left|]. apply Nat.even_spec in Et as [j Ej].
    exists (j * length s). replace (2 * (j * length s)) with (length t * length s) by (rewrite Ej; lia). apply swaps_app_r, swaps_block.
  - destruct IH1 as [k1 IH1]; auto. destruct IH2 as [k2 IH2]; [intros x Hx; apply E; eapply Permutation_in; [symmetry; exact H1|auto]|].
    exists (k1 + k2). replace (2 * (k1 + k2)) with (2 * k1 + 2 * k2) by lia. eapply swaps_trans; eauto.
Qed.
Lemma blocks_NoDup : forall P occ, evens P -> NoDup occ -> Permutation (concat P) occ -> NoDup P.
Proof.
  intros P occ E N H. assert (F : NoDup (concat P)) by (eapply Permutation_NoDup; [symmetry; exact H|auto]). clear N H.
  induction P as [|s P IH]; [constructor|]. cbn [concat] in F. apply NoDup_app_iff in F as (F1 & F2 & F3). constructor; [|apply IH; auto; intros x Hx; apply E; now right].
  intros I. destruct (E s) as [Ne _]; [now left|]. destruct s as [|i s]; [congruence|]. apply (F3 i); [now left|]. apply in_concat. exists (i :: s). split; auto. now left.
Qed.

Section Product.
Context {K : CRing}.
Local Open Scope cr_scope.
Add Ring K_ring113 : (rth K).
Lemma fold_cres : forall l (psi : state K), fold_right cre psi l = cres l psi.
Proof. induction l as [|i l IH]; intros psi; [reflexivity|]. cbn [fold_right]. now rewrite IH, cres_cons. Qed.
Lemma cres_scale : forall l (psi : state K) a m, cres l (fun m => a * psi m) m = a * cres l psi m.
Proof.
  induction l as [|i l IH]; intros psi a m; [reflexivity|]. rewrite !cres_cons. rewrite (cre_ext i _ (fun m => a * cres l psi m)) by (intros; apply IH). apply cre_scale.
Qed.
Lemma cres_sum : forall {A} l (f : A -> state K) xs m, cres l (fun m => sumf (fun x => f x m) xs) m = sumf (fun x => cres l (f x) m) xs.
Proof.
  intros A. induction l as [|i l IH]; intros f xs m; [reflexivity|]. rewrite cres_cons. rewrite (cre_ext i _ (fun m => sumf (fun x => cres l (f x) m) xs)) by (intros; apply IH).
  rewrite (cre_sum i (fun x => cres l (f x))). reflexivity.
Qed.
Lemma product_blocks : forall subsets (cs : list (list Z -> K)) m,
  quasi_product subsets cs m = sumf (fun P => prod2 cs P * cres (concat P) vacuum m) (words subsets (length cs)).
Proof.
  intros subsets. induction cs as [|c cs IH]; intros m; cbn [quasi_product fold_right length words].
  - change (vacuum (K := K) m = 1 * vacuum m + 0). ring.
  - unfold quasi_op at 1. rewrite sumf_flat_map. apply sumf_ext. intros s _. rewrite sumf_map, fold_cres.
    rewrite (cres_ext s _ (fun m => sumf (fun P => prod2 cs P * cres (concat P) vacuum m) (words subsets (length cs)))) by (intros; apply IH).
    rewrite (cres_sum s (fun P m => prod2 cs P * cres (concat P) vacuum m)), <- sumf_mul_l. apply sumf_ext. intros P _. rewrite cres_scale. unfold prod2. cbn [combine]. rewrite prodf_cons. cbn [fst snd concat]. rewrite cres_app. ring.
Qed.
Lemma distinct_blocks : forall (R : list (list Z) -> list (list Z) -> Prop) l, (forall x, R x x) -> (forall x y, R x y -> R y x) -> pairwise_distinct R l ->
  NoDup l /\ forall p q, In p l -> In q l -> R p q -> p = q.
Proof.
  intros R l Rf Rs H. unfold pairwise_distinct in H. induction l as [|x l IH]; [split; [constructor|intros p q []]|].
  inversion H as [|? ? F H']; subst. destruct (IH H') as [N U]. rewrite Forall_forall in F. split.
  - constructor; auto. intros I. now apply (F x).
  - intros p q [<-|Hp] [<-|Hq] E; auto; exfalso; [apply (F q)|apply (F p)]; auto.
Qed.
Lemma product_partitions : forall subsets L (cs : list (list Z -> K)) m (sg : list (list Z) -> Z), NoDup subsets -> evens subsets ->
  lists_partitions subsets (zocc m) (length cs) L -> (forall P, In P L -> exists k, swaps k (concat P) (zocc m) /\ sg P = pow_m1 k) ->
  quasi_product subsets cs m = sumf (fun P => sgnr (sg P) * permR cs P) L.
Proof.
  intros subsets L cs m sg N Ev (G1 & G2 & G3) Sg. rewrite product_blocks. set (h := length cs) in *.
  destruct (distinct_blocks (@Permutation (list Z)) L (fun x => Permutation_refl x) (fun x y H => Permutation_sym H) G3) as [NL UL].
  assert (EvP : forall P, incl P subsets -> evens P) by (intros P I s Hs; apply Ev; auto).
  assert (Hl : forall P, In P L -> NoDup P) by (intros P HP; destruct (G1 P HP) as (I & Pm & _); eapply blocks_NoDup; eauto; apply occZ_NoDup).
  assert (Hp : forall P Q, In P L -> In Q (permutations P h) -> Permutation Q P).
  { intros P Q HP HQ. destruct (G1 P HP) as (I & Pm & Ln). apply permutations_In in HQ as (L2 & N2 & I2); auto. apply NoDup_Permutation_bis; auto. lia. }
  transitivity (sumf (fun P => prod2 cs P * cres (concat P) vacuum m) (flat_map (fun P => permutations P h) L)).
  { apply sumf_support.
    - now apply words_NoDup.
    - apply NoDup_flat_map; auto.
      + intros P Hi. apply permutations_NoDup. now apply Hl.
      + intros P Q qs H1 H2 Q1 Q2. apply UL; auto. apply Hp in Q1, Q2; auto. rewrite <- Q1. exact Q2.
    - intros Q Hq. apply in_flat_map in Hq as (P & Hi & Hq). apply words_In. destruct (G1 P Hi) as (I & _ & Ln).
      apply permutations_In in Hq as (L2 & _ & I2); auto. split; auto. intros x Hx. auto.
    - intros Q Hq. apply words_In in Hq as [L1 I].
      destruct (perm_dec (concat Q) (zocc m)) as [P|P].
      + right. destruct (G2 Q I P L1) as (P' & Hi & Pq). apply in_flat_map. exists P'. split; auto.
        apply permutations_In; auto. split; [lia|]. split; [eapply blocks_NoDup; eauto; apply occZ_NoDup|]. intros x. now apply Permutation_in.
      + left. rewrite cres_zero by auto. ring. }
  rewrite sumf_flat_map. apply sumf_ext. intros P Hi. destruct (Sg P Hi) as (k & Sw & ->). destruct (G1 P Hi) as (I & _ & Ln).
  rewrite <- permR_sum. fold h. rewrite <- sumf_mul_l. apply sumf_ext. intros Q Hq.
  destruct (concat_swaps Q P) as [k' Sw']; [|now apply (Hp P)|].
  { apply EvP. intros x Hx. apply I. eapply Permutation_in; [|exact Hx]. now apply (Hp P). }
  rewrite (cres_value (2 * k' + k) (concat Q) m) by (eapply swaps_trans; eauto). rewrite pow_m1_even. ring.
Qed.
End Product.

(** *** the sign *)
Lemma pow_m1_add : forall a b, pow_m1 (a + b) = (pow_m1 a * pow_m1 b)%Z.
Proof. intros a b. unfold pow_m1. rewrite Nat.odd_add. destruct (Nat.odd a), (Nat.odd b); reflexivity. Qed.
Lemma decreasing_sign : forall l occ k, StronglySorted Z.lt occ -> swaps k l occ -> Nat.even (length occ) = true ->
  sign_perm l (Some occ) true = Ok (pow_m1 (length occ / 2) * pow_m1 k)%Z.
Proof.
  intros l occ k So Sw Ev. assert (No : NoDup occ) by now apply SS_NoDup. assert (N : NoDup l) by (eapply Permutation_NoDup; [symmetry; eapply swaps_perm; eauto|auto]).
  change (sign_perm l (Some occ) true) with (sign_perm (rev l) (Some occ) false).
  pose proof (swaps_rev _ _ _ Sw) as Sr. destruct (GemMain.swaps_reverse (rev occ)) as (j & Sj & Ej). rewrite rev_involutive in Sj. rewrite rev_length in Ej.
  rewrite (C10_ordered_set (rev l) occ (k + j) occ); auto.
  - f_equal. rewrite Nat.add_comm, pow_m1_add. f_equal. apply Nat.even_spec in Ev as [h Eh]. rewrite Eh in *. rewrite (Nat.mul_comm 2 h), Nat.div_mul by lia.
    assert (Ej' : j = 2 * (h * h - h) + h) by nia. rewrite Ej'. apply pow_m1_even.
  - now apply NoDup_rev.
  - transitivity l; [symmetry; apply Permutation_rev|eapply swaps_perm; eauto].
  - eapply swaps_trans; eauto.
Qed.
