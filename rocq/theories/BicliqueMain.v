From Coq Require Import List ZArith Bool Lia Arith Permutation Sorted.
From Verif Require Import Py Slater SignSpec SignLemmas Combos Graphs MatchSpec MatchLemmas GraphSpec
  BicliqueLemmas P_Slater2.
Import ListNotations.

Lemma flatten_flat : forall ps, flatten_pairs ps = flat ps.
Proof. induction ps as [|[x y] ps IH]; simpl; auto. now rewrite <- IH. Qed.

Lemma flat_combine_perm : forall a b, length a = length b -> Permutation (flat (combine a b)) (a ++ b).
Proof.
  induction a as [|x a IH]; intros [|y b] H; try discriminate; simpl; auto.
  constructor. transitivity (y :: a ++ b); [constructor; apply IH; simpl in H; lia|].
  apply Permutation_middle.
Qed.

Lemma combine_app : forall {A B} (a1 a2 : list A) (b1 b2 : list B), length a1 = length b1 ->
  combine (a1 ++ a2) (b1 ++ b2) = combine a1 b1 ++ combine a2 b2.
Proof.
  induction a1 as [|x a1 IH]; intros a2 [|y b1] b2 H; try discriminate; simpl; auto.
  rewrite IH; auto.
Qed.

Lemma swaps_combine : forall k ys ys' one, swaps k ys ys' -> length one = length ys ->
  swaps (3 * k) (flat (combine one ys)) (flat (combine one ys')).
Proof.
  intros k ys ys' one H. revert one. induction H as [l|k l1 a b l2 l' H IH]; intros one L.
  - constructor.
  - replace (3 * S k) with (3 + 3 * k) by lia.
    eapply swaps_trans; [|apply IH; rewrite L, !app_length; reflexivity].
    assert (Sp : exists o1 p q o2, one = o1 ++ p :: q :: o2 /\ length o1 = length l1).
    { rewrite app_length in L. simpl in L. exists (firstn (length l1) one).
      assert (E := firstn_skipn (length l1) one).
      assert (L' := skipn_length (length l1) one).
      destruct (skipn (length l1) one) as [|p [|q o2]] eqn:X; simpl in L'; try lia.
      exists p, q, o2. split; [now rewrite <- E at 1|]. rewrite firstn_length. lia. }
    destruct Sp as (o1 & p & q & o2 & -> & Lo).
    rewrite !combine_app by auto. rewrite !flat_app. apply swaps_app_l. cbn [combine flat].
    apply swaps_cons. change 3 with (1 + (1 + 1)).
    eapply swaps_trans; [apply (swaps_one [] a q)|]. cbn [app].
    eapply swaps_trans; [apply (swaps_one [q] a b)|]. cbn [app].
    apply (swaps_one [] q b).
Qed.

Lemma swaps_map : forall {A B} (f : A -> B) k l l', swaps k l l' -> swaps k (map f l) (map f l').
Proof.
  induction 1 as [|k l1 a b l2 l' H IH]; [constructor|]. rewrite map_app in *. simpl in *. now constructor.
Qed.

Lemma map_nth_seq : forall (l : list Z), map (fun i => nth i l 0%Z) (seq 0 (length l)) = l.
Proof.
  assert (G : forall (l p : list Z), map (fun i => nth i (p ++ l) 0%Z) (seq (length p) (length l)) = l).
  { induction l as [|x l IH]; intros p; auto. cbn [length seq map]. f_equal.
    - now rewrite app_nth2, Nat.sub_diag by lia.
    - specialize (IH (p ++ [x])). rewrite app_length, <- app_assoc in IH. simpl in IH.
      rewrite Nat.add_1_r in IH. exact IH. }
  intros l. apply (G l []).
Qed.

Lemma combine_inj : forall {A B} (a : list A) (b b' : list B), length a = length b -> length a = length b' ->
  combine a b = combine a b' -> b = b'.
Proof.
  induction a as [|x a IH]; intros [|y b] [|y' b'] L L' E; try discriminate; auto.
  simpl in *. injection E as -> E. f_equal. apply IH; auto.
Qed.

Lemma filter_all_true : forall {A} (f : A -> bool) l, (forall x, In x l -> f x = true) -> filter f l = l.
Proof.
  induction l as [|x l IH]; intros H; simpl; auto. rewrite (H x) by now left. f_equal. apply IH. intros; apply H; now right.
Qed.

(** ** the guard on the two index lists *)
Lemma memZ_In : forall x l, memZ x l = true <-> In x l.
Proof.
  intros. unfold memZ. rewrite existsb_exists. split.
  - intros (y & Hy & E). apply Z.eqb_eq in E. now subst.
  - intros H. exists x. split; auto. apply Z.eqb_refl.
Qed.
Lemma filter_len_le : forall {A} (f : A -> bool) l, length (filter f l) <= length l.
Proof. induction l as [|x l IH]; simpl; auto. destruct (f x); simpl; lia. Qed.
Lemma nodup_len : forall (l : list Z), length (nodup Z.eq_dec l) <= length l.
Proof. induction l as [|x l IH]; simpl; auto. destruct (in_dec Z.eq_dec x l); simpl; lia. Qed.
Lemma nodup_len_eq : forall (l : list Z), length (nodup Z.eq_dec l) = length l -> NoDup l.
Proof.
  induction l as [|x l IH]; simpl; intros H; [constructor|].
  destruct (in_dec Z.eq_dec x l); simpl in H.
  - pose proof (nodup_len l). lia.
  - constructor; auto.
Qed.
Lemma filter_all_len : forall {A} (f : A -> bool) l, length (filter f l) = length l -> forall x, In x l -> f x = true.
Proof.
  induction l as [|y l IH]; simpl; intros H x; [tauto|]. pose proof (filter_len_le f l).
  destruct (f y) eqn:E; simpl in H; [|lia]. intros [->|Hx]; auto.
Qed.

Lemma sym_diff_full : forall a b,
  Nat.ltb (sym_diff_size a b) (length (a ++ b)) = false <-> NoDup (a ++ b).
Proof.
  intros a b. rewrite Nat.ltb_ge, app_length. unfold sym_diff_size.
  pose proof (filter_len_le (fun x => negb (memZ x b)) (nodup Z.eq_dec a)).
  pose proof (filter_len_le (fun x => negb (memZ x a)) (nodup Z.eq_dec b)).
  pose proof (nodup_len a). pose proof (nodup_len b). rewrite NoDup_app_iff. split.
  - intros G. split; [apply nodup_len_eq; lia|]. split; [apply nodup_len_eq; lia|].
    intros x Ha Hb. assert (E := filter_all_len (fun x => negb (memZ x b)) (nodup Z.eq_dec a) ltac:(lia) x).
    rewrite nodup_In in E. specialize (E Ha). apply negb_true_iff in E. apply memZ_In in Hb. congruence.
  - intros (Na & Nb & D). rewrite !nodup_fixed_point by auto. rewrite !filter_all_true; auto.
    + intros x Hx. apply negb_true_iff. destruct (memZ x a) eqn:E; auto. apply memZ_In in E. now apply D in E.
    + intros x Hx. apply negb_true_iff. destruct (memZ x b) eqn:E; auto. apply memZ_In in E. now apply D in E.
Qed.

(** ** main lemma *)
Lemma biclique_main : forall one two ord d orig, one <> [] -> length one = length two -> NoDup (one ++ two) ->
  sign_perm (flat (combine one two)) ord d = Ok orig ->
  exists out, generate_biclique_pmatch one two ord d = Ok out /\
    length out = factorial (length two) /\
    (forall p, In p out -> exists ys k, fst p = combine one ys /\ swaps k ys two /\ snd p = (pow_m1 k * orig)%Z) /\
    (forall ys, Permutation ys two -> In (combine one ys) (map fst out)) /\
    NoDup (map fst out).
Proof.
  intros one two ord d orig Ne L N Hs. unfold generate_biclique_pmatch. rewrite flatten_flat, Hs. cbn [bind].
  assert (Nz : length one <> 0) by (destruct one; simpl; congruence).
  replace (Nat.eqb (length one) 0) with false by (symmetry; now apply Nat.eqb_neq).
  replace (Nat.eqb (length two) 0) with false by (symmetry; apply Nat.eqb_neq; lia).
  rewrite L, Nat.eqb_refl. cbn [orb negb]. rewrite (proj2 (sym_diff_full one two) N).
  destruct (machine_main (length two)) as (outs & W & Lo & [B1 B2 B3]). cbv zeta. rewrite W.
  set (all := (seq 0 (length two), rev (seq 1 (length two)), 1%Z) :: outs) in *.
  set (f := fun i => nth i two 0%Z).
  set (g := fun st : bp_state => let '(indices, _, sign) := st in (combine one (map f indices), (sign * orig)%Z)).
  exists (map g all). split; [reflexivity|].
  assert (G1 : forall st, fst (g st) = combine one (map f (idx st))) by (intros [[i c] s]; reflexivity).
  assert (G2 : forall st, snd (g st) = (sg_of st * orig)%Z) by (intros [[i c] s]; reflexivity).
  apply NoDup_app_iff in N as (N1 & N2 & _).
  split; [|split; [|split]].
  - rewrite map_length. unfold all. cbn [length]. lia.
  - intros p Hp. apply in_map_iff in Hp as (st & <- & Hst). destruct (B1 st Hst) as (T & k & E & Sw & Sg & _).
    cbn [app] in E. exists (map f T), k. rewrite G1, G2, E, Sg. split; auto. split; [|lia].
    rewrite <- (map_nth_seq two) at 1. now apply swaps_map.
  - intros ys P. rewrite <- (map_nth_seq two) in P. apply Permutation_map_inv in P as (T & -> & P).
    apply Permutation_sym in P.
    specialize (B2 T P). cbn [app] in B2.
    assert (X : In T (map idx all)).
    { apply B2. intros x T' ->. eapply Permutation_in; [exact P|]. now left. }
    apply in_map_iff in X as (st & E & Hst). rewrite map_map. apply in_map_iff. exists st. split; auto. now rewrite G1, E.
  - rewrite map_map. rewrite (map_ext _ (fun st => combine one (map f (idx st))) G1).
    rewrite <- (map_map idx (fun T => combine one (map f T))).
    assert (AllP : forall T, In T (map idx all) -> Permutation T (seq 0 (length two))).
    { intros T HT. apply in_map_iff in HT as (st & <- & Hst). destruct (B1 st Hst) as (T & k & E & Sw & _).
      rewrite E. cbn [app]. eapply swaps_perm; eauto. }
    revert B3 AllP. generalize (map idx all) as l. clear - L N2. induction l as [|T l IH]; intros B3 AllP; simpl; [constructor|].
    inversion B3; subst. constructor.
    + intros X. apply in_map_iff in X as (T' & E & HT'). 
      assert (PT := AllP T ltac:(now left)). assert (PT' := AllP T' ltac:(now right)).
      apply combine_inj in E.
      2,3: rewrite map_length; (rewrite (Permutation_length PT) || rewrite (Permutation_length PT')); now rewrite seq_length.
      assert (T' = T); [|congruence].
      assert (I : forall i, In i T -> i < length two) by (intros i Hi; apply (Permutation_in _ PT), in_seq in Hi; lia).
      assert (I' : forall i, In i T' -> i < length two) by (intros i Hi; apply (Permutation_in _ PT'), in_seq in Hi; lia).
      clear - E I I' N2. revert T E I. induction T' as [|i T' IH]; intros [|j T] E I; try discriminate; auto.
      simpl in E. injection E as E1 E2. f_equal.
      * unfold f in E1. apply (proj1 (NoDup_nth two 0%Z) N2); auto; [apply I'; now left|apply I; now left].
      * apply IH; auto; intros; [apply I'|apply I]; now right.
    + apply IH; auto. intros; apply AllP; now right.
Qed.

(** the signs *)
Lemma biclique_sign : forall one two d orig k ys,
  length one = length two -> NoDup (one ++ two) ->
  sign_perm (flat (combine one two)) None d = Ok orig -> swaps k ys two ->
  sign_sorting d (flat (combine one ys)) (pow_m1 k * orig)%Z.
Proof.
  intros one two d orig k ys L N Hs Sw k' l' Sw' So.
  assert (Ly : length one = length ys) by (rewrite L; symmetry; apply Permutation_length; eapply swaps_perm; eauto).
  assert (S1 := swaps_combine k ys two one Sw Ly). apply swaps_sym in S1.
  assert (S2 := swaps_trans _ _ _ _ _ S1 Sw').
  assert (Nf : NoDup (flat (combine one two))) by (eapply Permutation_NoDup; [symmetry; now apply flat_combine_perm|auto]).
  assert (E : sign_perm (flat (combine one two)) None d = Ok (pow_m1 (3 * k + k'))).
  { destruct d; [eapply C10_sign_perm_decreasing|eapply C10_sign_perm]; eauto. }
  rewrite E in Hs. apply Ok_inj in Hs. subst orig. rewrite pow_m1_add. 
  replace (3 * k) with (k + (k + k)) by lia. rewrite pow_m1_add, pow_m1_even.
  assert ((pow_m1 k * pow_m1 k)%Z = 1%Z) by (rewrite <- pow_m1_add; apply pow_m1_even). 
  rewrite Z.mul_1_r, Z.mul_assoc, H. lia.
Qed.

Lemma sign_perm_None : forall l d, exists s, sign_perm l None d = Ok s.
Proof. intros. unfold sign_perm. eauto. Qed.

Lemma combine_map_fst_snd : forall {A B} (ps : list (A * B)), combine (map fst ps) (map snd ps) = ps.
Proof. induction ps as [|[x y] ps IH]; simpl; auto. now rewrite IH. Qed.
Lemma map_fst_combine : forall {A B} (a : list A) (b : list B), length a = length b -> map fst (combine a b) = a.
Proof. induction a as [|x a IH]; intros [|y b] H; try discriminate; simpl; auto. rewrite IH; auto. Qed.
Lemma map_snd_combine : forall {A B} (a : list A) (b : list B), length a = length b -> map snd (combine a b) = b.
Proof. induction a as [|x a IH]; intros [|y b] H; try discriminate; simpl; auto. rewrite IH; auto. Qed.

Lemma bipartite_combine : forall one two ps, bipartite one two ps ->
  exists ys, Permutation ys two /\ Permutation ps (combine one ys).
Proof.
  intros one two ps [P1 P2]. apply Permutation_sym, Permutation_map_inv in P1 as (ps' & -> & P).
  exists (map snd ps'). split; [transitivity (map snd ps); auto; apply Permutation_map; now symmetry|].
  now rewrite combine_map_fst_snd.
Qed.

Lemma combine_perm_inj : forall (one ys ys' : list Z), NoDup one -> length one = length ys -> length one = length ys' ->
  Permutation (combine one ys) (combine one ys') -> ys = ys'.
Proof.
  induction one as [|x one IH]; intros [|y ys] [|y' ys'] N L L' P; try discriminate; auto.
  simpl in *. inversion N; subst.
  assert (Hx : In (x, y) ((x, y') :: combine one ys')) by (eapply Permutation_in; [exact P|now left]).
  destruct Hx as [[= ->]|Hx].
  - f_equal. apply IH; auto. eapply Permutation_cons_inv; eauto.
  - apply in_combine_l in Hx. contradiction.
Qed.

Lemma sign_perm_ord_None : forall l ord d, NoDup l -> Permutation l ord -> StronglySorted Z.lt ord ->
  sign_perm l (Some ord) d = sign_perm l None d.
Proof.
  assert (F : forall l ord, NoDup l -> Permutation l ord -> StronglySorted Z.lt ord ->
     sign_perm l (Some ord) false = sign_perm l None false).
  { intros l ord N P So. destruct (C10_sortable l N) as (k & l' & Sw & S').
    rewrite (C10_ordered_set l ord k l'), (C10_sign_perm l k l'); auto. }
  intros l ord [|] N P So; [|auto].
  change (sign_perm l (Some ord) true) with (sign_perm (rev l) (Some ord) false).
  change (sign_perm l None true) with (sign_perm (rev l) None false). apply F; auto.
  - now apply NoDup_rev.
  - transitivity l; auto. symmetry. apply Permutation_rev.
Qed.
