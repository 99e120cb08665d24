(** The pairings enumerated by generate_possible_exops: every way to split the excitation into
    operators occurs exactly once *)
From Coq Require Import List ZArith NArith Arith Bool Lia Permutation Sorted.
From Verif Require Import Py Slater SignSpec SignLemmas Graphs GraphSpec MatchSpec MathTools PermLemmas SdLemmas Combos
  GeneralLemmas BicliqueLemmas P_Graphs CC.
Import ListNotations.
Local Open Scope nat_scope.

Definition row := list (list Z * list Z).
Definition same_size (r : row) : Prop := Forall (fun p => length (fst p) = length (snd p)) r.

(** ** pairings of one pair of partitions *)
Fixpoint rows_of (As Cs : list (list (list Z))) : list row :=
  match As, Cs with
  | A :: As, C :: Cs => flat_map (fun x => map (app x) (rows_of As Cs)) (map (combine A) (permutations C (length C)))
  | _, _ => [[]]
  end.
Lemma cart_concat : forall {A} (ls : list (list (list A))), map (@concat A) (cart ls) =
  fold_right (fun l acc => flat_map (fun x => map (app x) acc) l) [[]] ls.
Proof.
  induction ls as [|l ls IH]; [reflexivity|]. cbn [cart fold_right]. rewrite flat_map_concat_map, concat_map, map_map.
  rewrite flat_map_concat_map, <- IH. f_equal. apply map_ext. intros x. rewrite !map_map. reflexivity.
Qed.
(** a grouping of blocks by size *)
Definition grouped (bsn : list (nat * nat)) (Gs : list (list (list Z))) : Prop :=
  Forall2 (fun sn G => length G = snd sn /\ Forall (fun b => length b = fst sn) G) bsn Gs.
Lemma filter_len_all : forall {A} (G : list (list A)) s, Forall (fun b => length b = s) G -> filter (fun b => Nat.eqb (length b) s) G = G.
Proof. induction 1 as [|b G H _ IH]; [reflexivity|]. cbn [filter]. now rewrite (proj2 (Nat.eqb_eq _ _) H), IH. Qed.
Lemma filter_len_none : forall {A} (G : list (list A)) s, Forall (fun b => length b <> s) G -> filter (fun b => Nat.eqb (length b) s) G = [].
Proof. induction 1 as [|b G H _ IH]; [reflexivity|]. cbn [filter]. now rewrite (proj2 (Nat.eqb_neq _ _) H). Qed.
Lemma grouped_sizes : forall bsn Gs b, grouped bsn Gs -> In b (concat Gs) -> In (length b) (map fst bsn).
Proof.
  induction 1 as [|sn G bsn Gs [_ H] _ IH]; intros Hb; [destruct Hb|]. cbn [concat map] in *. apply in_app_or in Hb as [Hb|Hb]; [left|right; auto].
  rewrite Forall_forall in H. symmetry. auto.
Qed.
Lemma grouped_length : forall bsn Gs, grouped bsn Gs -> length Gs = length bsn.
Proof. induction 1; simpl; auto. Qed.
Lemma group_all : forall bsn Gs, grouped bsn Gs -> NoDup (map fst bsn) -> positive bsn ->
  forall pre, Forall (fun b => ~ In (length b) (map fst bsn)) pre ->
  mapM (fun sn => group (fst sn) (pre ++ concat Gs)) bsn = Ok Gs.
Proof.
  induction 1 as [|[s n] G bsn Gs [HL H] HG IH]; intros Nd Pos pre Hpre; [reflexivity|]. cbn [map fst snd] in *. inversion Nd; subst.
  cbn [mapM concat fst]. unfold group. rewrite !filter_app. rewrite (filter_len_none pre).
  2:{ eapply Forall_impl; [|exact Hpre]. intros b Hb E. apply Hb. now left. }
  rewrite (filter_len_all G), (filter_len_none (concat Gs)); auto.
  2:{ apply Forall_forall. intros b Hb E. apply (grouped_sizes _ _ _ HG) in Hb. congruence. }
  rewrite app_nil_r. cbn [app]. destruct G as [|g G]; [specialize (Pos _ (or_introl eq_refl)); simpl in *; lia|]. cbn [bind].
  change (g :: G ++ concat Gs) with ((g :: G) ++ concat Gs). rewrite app_assoc.
  assert (E : mapM (fun sn : nat * nat => group (fst sn) ((pre ++ g :: G) ++ concat Gs)) bsn = Ok Gs).
  { apply IH; auto. intros p Hp. apply Pos. now right. apply Forall_app. split.
    - eapply Forall_impl; [|exact Hpre]. intros b Hb X. apply Hb. now right.
    - eapply Forall_impl; [|exact H]. cbn beta. intros b Hb X. rewrite Hb in X. contradiction. }
  unfold group in E. rewrite E. reflexivity.
Qed.
Lemma mapM_pair : forall {A B C D} (f : A -> res B) (g : A -> res C) (h : B -> C -> D) l bs cs, mapM f l = Ok bs -> mapM g l = Ok cs ->
  mapM (fun x => do b <- f x; do c <- g x; Ok (h b c)) l = Ok (map (fun p => h (fst p) (snd p)) (combine bs cs)).
Proof.
  intros A B C D f g h. induction l as [|x l IH]; intros bs cs E1 E2; cbn [mapM] in *.
  - apply Ok_inj in E1. subst. reflexivity.
  - destruct (f x); [|discriminate]. destruct (g x); [|discriminate]. cbn [bind] in *.
    destruct (mapM f l) as [bs'|]; [|discriminate]. destruct (mapM g l) as [cs'|]; [|discriminate]. cbn [bind] in *.
    apply Ok_inj in E1, E2. subst. rewrite (IH bs' cs') by reflexivity. reflexivity.
Qed.
Lemma rows_of_fold : forall As Cs, length As = length Cs ->
  fold_right (fun l acc => flat_map (fun x => map (app x) acc) l) [[]]
    (map (fun p => map (fun q => combine (fst p) q) (permutations (snd p) (length (snd p)))) (combine As Cs)) = rows_of As Cs.
Proof.
  induction As as [|A As IH]; intros [|C Cs] L; try discriminate; [reflexivity|]. cbn [combine map fold_right fst snd rows_of].
  rewrite IH by (simpl in L; lia). reflexivity.
Qed.
Lemma pairings_rows : forall bsn As Cs, grouped bsn As -> grouped bsn Cs -> NoDup (map fst bsn) -> positive bsn ->
  pairings bsn (concat As) (concat Cs) = Ok (rows_of As Cs).
Proof.
  intros bsn As Cs GA GC Nd Pos. unfold pairings.
  rewrite (mapM_pair (fun sn => group (fst sn) (concat As)) (fun sn => group (fst sn) (concat Cs))
     (fun A C => map (fun p => combine A p) (permutations C (length C))) bsn As Cs).
  - cbn [bind]. f_equal. rewrite cart_concat. apply rows_of_fold. apply grouped_length in GA, GC. congruence.
  - apply (group_all bsn As GA Nd Pos []). constructor.
  - apply (group_all bsn Cs GC Nd Pos []). constructor.
Qed.

Lemma combine_fst : forall {A B} (l : list A) (r : list B), length l = length r -> map fst (combine l r) = l.
Proof. induction l as [|x l IH]; intros [|y r] L; try discriminate; auto. cbn [combine map fst]. rewrite IH; auto. Qed.
Lemma combine_snd : forall {A B} (l : list A) (r : list B), length l = length r -> map snd (combine l r) = r.
Proof. induction l as [|x l IH]; intros [|y r] L; try discriminate; auto. cbn [combine map snd]. rewrite IH; auto. Qed.
Lemma combine_split' : forall {A B} (l : list (A * B)), combine (map fst l) (map snd l) = l.
Proof. induction l as [|[a b] l IH]; auto. cbn [map combine fst snd]. now rewrite IH. Qed.
Lemma perm_NoDup_iff : forall {A} (C p : list A), NoDup C -> (In p (permutations C (length C)) <-> Permutation p C).
Proof.
  intros A C p N. rewrite permutations_In by auto. split.
  - intros (L & Np & I). apply NoDup_Permutation_bis; auto. lia.
  - intros P. split; [now apply Permutation_length|]. split; [eapply Permutation_NoDup; [symmetry; exact P|auto]|].
    intros x. now apply Permutation_in.
Qed.
Lemma perm_filter : forall {A} (f : A -> bool) l l', Permutation l l' -> Permutation (filter f l) (filter f l').
Proof.
  induction 1; simpl; auto.
  - destruct (f x); auto.
  - destruct (f x), (f y); auto using perm_swap.
  - etransitivity; eauto.
Qed.
Lemma split_map : forall {A B} (f : A -> B) r l1 l2, map f r = l1 ++ l2 -> exists r1 r2, r = r1 ++ r2 /\ map f r1 = l1 /\ map f r2 = l2.
Proof. intros A B f r l1 l2 E. apply map_eq_app in E as (r1 & r2 & -> & H1 & H2). eauto. Qed.

Lemma rows_of_In : forall bsn As Cs, grouped bsn As -> grouped bsn Cs -> NoDup (map fst bsn) -> NoDup (concat Cs) ->
  forall r, In r (rows_of As Cs) <-> map fst r = concat As /\ Permutation (map snd r) (concat Cs) /\ same_size r.
Proof.
  intros bsn As Cs GA. revert Cs. induction GA as [|[s n] A bsn As [LA HA] GA IH]; intros Cs GC Nd Nc r; inversion GC as [|? C ? Cs' [LC HC] GC']; subst.
  - cbn [rows_of concat]. split.
    + intros [<-|[]]. split; [reflexivity|]. split; constructor.
    + intros (E & _ & _). left. destruct r; [reflexivity|discriminate].
  - cbn [fst snd] in *. cbn [map fst] in Nd. inversion Nd as [|? ? Ns Nd']; subst. cbn [concat] in *.
    apply NoDup_app_iff in Nc as (NC1 & NC2 & _). cbn [rows_of]. rewrite in_flat_map. specialize (IH Cs' GC' Nd' NC2). split.
    + intros (x & Hx & Hr). apply in_map_iff in Hx as (p & <- & Hp). apply in_map_iff in Hr as (r' & <- & Hr'). apply IH in Hr' as (E & P & S).
      apply perm_NoDup_iff in Hp; auto. pose proof (Permutation_length Hp) as Lp.
      assert (Lc : length A = length p) by lia. rewrite !map_app, combine_fst, combine_snd, E by auto. split; [auto|]. split.
      * now apply Permutation_app.
      * apply Forall_app. split; auto. apply Forall_forall. intros [u v] Hin. cbn [fst snd].
        rewrite Forall_forall in HA, HC. rewrite (HA u), (HC v); auto.
        -- eapply Permutation_in; [exact Hp|]. eapply in_combine_r; eauto.
        -- eapply in_combine_l; eauto.
    + intros (E & P & S). apply split_map in E as (r1 & r2 & -> & E1 & E2). rewrite map_app in P. apply Forall_app in S as [S1 S2].
      assert (Hlen : forall b, In b (map snd r2) -> In (length b) (map fst bsn)).
      { intros b Hb. apply in_map_iff in Hb as (p & <- & Hp). rewrite Forall_forall in S2. rewrite <- (S2 p Hp).
        apply (grouped_sizes bsn As); auto. rewrite <- E2. now apply in_map. }
      assert (H1 : Forall (fun b => length b = s) (map snd r1)).
      { apply Forall_forall. intros b Hb. apply in_map_iff in Hb as (p & <- & Hp). rewrite Forall_forall in S1. rewrite <- (S1 p Hp).
        rewrite Forall_forall in HA. apply HA. rewrite <- E1. now apply in_map. }
      assert (N2 : forall s', In s' (map fst bsn) -> s' <> s) by (intros s' Hs ->; contradiction).
      assert (P1 : Permutation (map snd r1) C).
      { pose proof (perm_filter (fun b => Nat.eqb (length b) s) _ _ P) as Q. rewrite !filter_app in Q.
        rewrite (filter_len_all _ s H1), (filter_len_all C s HC) in Q.
        rewrite (filter_len_none (map snd r2)), (filter_len_none (concat Cs')) in Q.
        - now rewrite !app_nil_r in Q.
        - apply Forall_forall. intros b Hb. apply N2. eapply grouped_sizes; eauto.
        - apply Forall_forall. intros b Hb. apply N2. auto. }
      exists r1. split.
      * apply in_map_iff. exists (map snd r1). split; [rewrite <- E1; apply combine_split'|]. now apply perm_NoDup_iff.
      * apply in_map_iff. exists r2. split; [reflexivity|]. apply IH. split; [auto|]. split; [|auto].
        eapply Permutation_app_inv_l. etransitivity; [exact P|]. now apply Permutation_app_tail.
Qed.
Lemma rows_of_NoDup : forall bsn As Cs, grouped bsn As -> grouped bsn Cs -> NoDup (concat Cs) -> NoDup (rows_of As Cs).
Proof.
  intros bsn As Cs GA. revert Cs. induction GA as [|[s n] A bsn As [LA HA] GA IH]; intros Cs GC Nc; inversion GC as [|? C ? Cs' [LC HC] GC']; subst.
  - repeat constructor. intros [].
  - cbn [concat] in Nc. apply NoDup_app_iff in Nc as (NC1 & NC2 & _). cbn [rows_of fst snd] in *.
    assert (Lx : forall x, In x (map (combine A) (permutations C (length C))) -> length x = length A).
    { intros x Hx. apply in_map_iff in Hx as (p & <- & Hp). apply permutations_In in Hp as (Lp & _ & _); auto. rewrite combine_length. lia. }
    apply NoDup_flat_map.
    + apply NoDup_map_inj; [|now apply permutations_NoDup]. intros p q Hp Hq E. apply permutations_In in Hp as (Lp & _ & _), Hq as (Lq & _ & _); auto.
      apply (f_equal (map snd)) in E. rewrite !combine_snd in E by lia. auto.
    + intros x Hx. apply NoDup_map_inj; [|apply IH; auto]. intros u v _ _ E. now apply app_inv_head in E.
    + intros x y b Hx Hy Hb Hb'. apply in_map_iff in Hb as (u & <- & _), Hb' as (v & E & _).
      apply (f_equal (firstn (length A))) in E. rewrite !firstn_app, !Lx, Nat.sub_diag in E by auto.
      rewrite (firstn_all2 y), (firstn_all2 x) in E by (rewrite Lx; auto). cbn [firstn] in E. rewrite !app_nil_r in E. auto.
Qed.

(** ** bins of a partition *)
Lemma sorted_set_sorted : forall l, StronglySorted Z.lt (sorted_set l).
Proof.
  intros l. unfold sorted_set. apply sorted_strict; [|apply sorted_Z_sorted].
  eapply Permutation_NoDup; [symmetry; apply sorted_Z_perm|]. apply NoDup_nodup.
Qed.
Lemma sorted_set_In : forall l x, In x (sorted_set l) <-> In x l.
Proof.
  intros l x. unfold sorted_set. rewrite <- (nodup_In Z.eq_dec l x).
  split; apply Permutation_in; [|symmetry]; apply sorted_Z_perm.
Qed.
Lemma SS_NoDup : forall l, StronglySorted Z.lt l -> NoDup l.
Proof. induction 1; constructor; auto. intros X. rewrite Forall_forall in H0. apply H0 in X. lia. Qed.
Lemma bins_positive : forall p, (forall x, In x p -> (0 < x)%Z) -> positive (bins_of p).
Proof.
  intros p H sn Hs. unfold bins_of in Hs. apply in_map_iff in Hs as (s & <- & Hs). apply (proj1 (sorted_set_In _ _)) in Hs. cbn [fst snd].
  specialize (H s Hs). apply (proj1 (count_occ_In Z.eq_dec p s)) in Hs. lia.
Qed.
Lemma bins_NoDup : forall p, (forall x, In x p -> (0 < x)%Z) -> NoDup (map fst (bins_of p)).
Proof.
  intros p H. unfold bins_of. rewrite map_map. cbn [fst]. apply NoDup_map_inj; [|apply SS_NoDup, sorted_set_sorted].
  intros x y Hx Hy E. apply (proj1 (sorted_set_In _ _)) in Hx, Hy. apply H in Hx, Hy. lia.
Qed.
Lemma count_sum_perm : forall (p : list Z) l, NoDup l -> incl p l ->
  Permutation (flat_map (fun s => repeat s (count_occ Z.eq_dec p s)) l) p.
Proof.
  intros p l N I. apply (proj2 (Permutation_count_occ Z.eq_dec _ _)). intros x.
  assert (G : forall l, NoDup l -> count_occ Z.eq_dec (flat_map (fun s => repeat s (count_occ Z.eq_dec p s)) l) x =
     if in_dec Z.eq_dec x l then count_occ Z.eq_dec p x else 0).
  { clear. induction l as [|y l IH]; intros N; [reflexivity|]. inversion N; subst. cbn [flat_map]. rewrite count_occ_app, IH by auto.
    destruct (Z.eq_dec y x) as [->|Hn].
    - rewrite (count_occ_repeat_eq Z.eq_dec) by reflexivity. destruct (in_dec Z.eq_dec x l); [contradiction|]. destruct (in_dec Z.eq_dec x (x :: l)) as [|X]; [lia|]. destruct X. now left.
    - rewrite (count_occ_repeat_neq Z.eq_dec) by congruence. destruct (in_dec Z.eq_dec x l) as [i|i]; destruct (in_dec Z.eq_dec x (y :: l)) as [j|j]; try reflexivity.
      + destruct j. now right.
      + destruct j; contradiction. }
  rewrite G by auto. destruct (in_dec Z.eq_dec x l) as [|X]; [reflexivity|]. symmetry. apply count_occ_not_In. intros H. apply X. auto.
Qed.
Lemma bins_capacities : forall p, Permutation (capacities (bins_of p)) (map Z.to_nat p).
Proof.
  intros p. unfold capacities, bins_of.
  assert (E : flat_map (fun sn : nat * nat => repeat (fst sn) (snd sn)) (map (fun s => (Z.to_nat s, count_occ Z.eq_dec p s)) (sorted_set p))
    = map Z.to_nat (flat_map (fun s => repeat s (count_occ Z.eq_dec p s)) (sorted_set p))).
  { induction (sorted_set p) as [|s l IH]; [reflexivity|]. cbn [map flat_map fst snd]. rewrite IH, map_app. f_equal. induction (count_occ Z.eq_dec p s) as [|k IHk]; [reflexivity|]. cbn [repeat map]. now rewrite IHk. }
  rewrite E. apply Permutation_map, count_sum_perm; [apply SS_NoDup, sorted_set_sorted|]. intros x Hx. now apply sorted_set_In.
Qed.
Lemma list_sum_perm' : forall l l', Permutation l l' -> list_sum l = list_sum l'.
Proof. induction 1; simpl in *; lia. Qed.
Lemma bins_total : forall p, list_sum (map (fun q => fst q * snd q) (bins_of p)) = list_sum (map Z.to_nat p).
Proof.
  intros p. rewrite <- (list_sum_perm' _ _ (bins_capacities p)). unfold capacities. induction (bins_of p) as [|[s n] l IH]; [reflexivity|].
  cbn [map flat_map fst snd list_sum fold_right]. unfold list_sum in *. rewrite fold_right_app. cbn [fold_right]. rewrite IH.
  clear. induction n as [|n IH]; [simpl; rewrite Nat.mul_0_r; reflexivity|]. cbn [repeat fold_right]. rewrite <- IH. lia.
Qed.
Lemma caps_grouped : forall bsn P, map (@length Z) P = capacities bsn -> exists Gs, grouped bsn Gs /\ P = concat Gs.
Proof.
  induction bsn as [|[s n] bsn IH]; intros P E.
  - cbn in E. apply map_eq_nil in E. subst. exists []. split; [constructor|reflexivity].
  - cbn [capacities flat_map fst snd] in E. apply split_map in E as (P1 & P2 & -> & E1 & E2). destruct (IH P2 E2) as (Gs & G & ->).
    exists (P1 :: Gs). split; [|reflexivity]. constructor; auto. cbn [fst snd]. split.
    + apply (f_equal (@length nat)) in E1. now rewrite map_length, repeat_length in E1.
    + apply Forall_forall. intros b Hb. apply (in_map (@length Z)) in Hb. rewrite E1 in Hb. now apply repeat_spec in Hb.
Qed.

(** ** partitions of the collections *)
Lemma concat_NoDup_blocks : forall (P : list (list Z)), NoDup (concat P) -> Forall (fun b => b <> []) P -> NoDup P.
Proof.
  induction P as [|b P IH]; intros N F; [constructor|]. cbn [concat] in N. apply NoDup_app_iff in N as (N1 & N2 & D). inversion F; subst.
  constructor; auto. intros Hb. destruct b as [|x b]; [congruence|]. apply (D x); [now left|]. apply in_concat. exists (x :: b). split; auto. now left.
Qed.
Lemma same_bins_sorted : forall P Q, Forall (StronglySorted Z.lt) P -> Forall (StronglySorted Z.lt) Q -> same_bins P Q -> Permutation P Q.
Proof.
  intros P Q SP SQ (Q' & Pm & F). assert (SQ' : Forall (StronglySorted Z.lt) Q') by (eapply Permutation_Forall; eauto).
  assert (E : P = Q'); [|subst; now symmetry]. clear Pm SQ. induction F as [|b b' P Q' Hb F IH]; [reflexivity|].
  inversion SP; subst. inversion SQ'; subst. f_equal; [now apply sorted_perm_eq|auto].
Qed.
Lemma perm_same_bins : forall P Q, Permutation P Q -> same_bins P Q.
Proof. intros P Q H. exists P. split; [now symmetry|]. clear. induction P; constructor; auto. Qed.

(** all rows of one partition of the excitation rank *)
Definition part_rows (a c : list Z) (p : list Z) : list row :=
  match generate_unordered_partition a (bins_of p), generate_unordered_partition c (bins_of p) with
  | Ok As, Ok Cs => flat_map (fun annhs => flat_map (fun creas => match pairings (bins_of p) annhs creas with Ok rs => rs | Err _ => [] end) Cs) As
  | _, _ => []
  end.
(** what a row is: blocks of equal sizes taken from the ranks, whose union is the excitation *)
Definition row_of (ranks a c : list Z) (r : row) : Prop :=
  Forall (fun p => StronglySorted Z.lt (fst p) /\ StronglySorted Z.lt (snd p) /\ length (fst p) = length (snd p)
                   /\ In (Z.of_nat (length (fst p))) ranks) r /\
  Permutation (concat (map fst r)) a /\ Permutation (concat (map snd r)) c.

Section Part.
Variables (a c : list Z).
Hypothesis Sa : StronglySorted Z.lt a.
Hypothesis Sc : StronglySorted Z.lt c.
Variable p : list Z.
Hypothesis Hp : forall x, In x p -> (0 < x)%Z.
Hypothesis Hsum : list_sum (map Z.to_nat p) = length a.

(** more creators than annihilators *)
Lemma part_rows_more : length a < length c -> exists As, generate_unordered_partition a (bins_of p) = Ok As /\ generate_unordered_partition c (bins_of p) = Ok [].
Proof.
  intros H. destruct (C21_distributions (bins_of p) a (bins_positive p Hp) Sa) as (As & EA & _).
  destruct (C21_distributions (bins_of p) c (bins_positive p Hp) Sc) as (Cs & EC & D & _). exists As. split; [auto|]. rewrite EC. f_equal.
  destruct Cs as [|P Cs]; [reflexivity|]. exfalso. destruct (D P (or_introl eq_refl)) as [P1 F].
  assert (X : length (concat P) <= list_sum (capacities (bins_of p))).
  { clear - F. induction F as [|b s P cs Hb F IH]; [simpl; lia|]. cbn [concat list_sum fold_right]. rewrite app_length. unfold list_sum in IH. lia. }
  rewrite (Permutation_length P1) in X. rewrite (list_sum_perm' _ _ (bins_capacities p)), Hsum in X. lia.
Qed.

Hypothesis Lac : length a = length c.
Lemma part_facts : exists As Cs, generate_unordered_partition a (bins_of p) = Ok As /\ generate_unordered_partition c (bins_of p) = Ok Cs /\
  (forall P, In P As -> Permutation (concat P) a /\ map (@length Z) P = capacities (bins_of p) /\ Forall (StronglySorted Z.lt) P) /\
  (forall P, In P Cs -> Permutation (concat P) c /\ map (@length Z) P = capacities (bins_of p) /\ Forall (StronglySorted Z.lt) P) /\
  (forall Q, Forall (StronglySorted Z.lt) Q -> Permutation (concat Q) a -> Permutation (map (@length Z) Q) (capacities (bins_of p)) -> exists P, In P As /\ Permutation P Q) /\
  (forall Q, Forall (StronglySorted Z.lt) Q -> Permutation (concat Q) c -> Permutation (map (@length Z) Q) (capacities (bins_of p)) -> exists P, In P Cs /\ Permutation P Q) /\
  pairwise_distinct (@Permutation (list Z)) As /\ pairwise_distinct (@Permutation (list Z)) Cs.
Proof.
  assert (G : forall l, StronglySorted Z.lt l -> length l = length a -> exists out, generate_unordered_partition l (bins_of p) = Ok out /\
    (forall P, In P out -> Permutation (concat P) l /\ map (@length Z) P = capacities (bins_of p) /\ Forall (StronglySorted Z.lt) P) /\
    (forall Q, Forall (StronglySorted Z.lt) Q -> Permutation (concat Q) l -> Permutation (map (@length Z) Q) (capacities (bins_of p)) -> exists P, In P out /\ Permutation P Q) /\
    pairwise_distinct (@Permutation (list Z)) out).
  { intros l Sl Ll. destruct (C21_partitions (bins_of p) l) as (out & E & A & B & D); auto using bins_positive, bins_NoDup.
    { rewrite bins_total. lia. }
    assert (SO : forall P, In P out -> Forall (StronglySorted Z.lt) P).
    { intros P HP. apply Forall_forall. intros b Hb. eapply C21_ordered; eauto using bins_positive. }
    exists out. split; [auto|]. split; [|split].
    - intros P HP. destruct (A P HP). auto.
    - intros Q SQ PQ LQ. destruct (B Q PQ LQ) as (P & HP & Sm). exists P. split; auto. apply same_bins_sorted; auto.
    - clear - D. unfold pairwise_distinct in *. induction D as [|x l F D IH]; constructor; auto.
      eapply Forall_impl; [|exact F]. intros y Hy X. apply Hy. now apply perm_same_bins. }
  destruct (G a Sa eq_refl) as (As & EA & A1 & A2 & A3). destruct (G c Sc ltac:(lia)) as (Cs & EC & C1 & C2 & C3).
  exists As, Cs. split; [auto|]. split; [auto|]. split; [auto|]. split; [auto|]. split; [auto|]. split; [auto|]. split; auto.
Qed.
Lemma part_pairings : forall annhs creas, Permutation (concat annhs) a -> Permutation (concat creas) c ->
  map (@length Z) annhs = capacities (bins_of p) -> map (@length Z) creas = capacities (bins_of p) ->
  exists rs, pairings (bins_of p) annhs creas = Ok rs /\ NoDup rs /\
    forall r, In r rs <-> map fst r = annhs /\ Permutation (map snd r) creas /\ same_size r.
Proof.
  intros annhs creas P1 P2 E1 E2. destruct (caps_grouped _ _ E1) as (As & GA & ->). destruct (caps_grouped _ _ E2) as (Cs & GC & ->).
  assert (Nc : NoDup (concat Cs)).
  { apply concat_NoDup_blocks; [eapply Permutation_NoDup; [symmetry; exact P2|now apply SS_NoDup]|]. apply Forall_forall. intros b Hb ->.
    apply (grouped_sizes _ _ _ GC) in Hb. apply in_map_iff in Hb as (sn & E & Hs). apply bins_positive in Hs; auto. simpl in E. lia. }
  exists (rows_of As Cs). split; [apply pairings_rows; auto using bins_NoDup, bins_positive|]. split; [eapply rows_of_NoDup; eauto|].
  apply (rows_of_In (bins_of p)); auto using bins_NoDup.
Qed.
End Part.
