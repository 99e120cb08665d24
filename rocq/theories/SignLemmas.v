From Coq Require Import List ZArith NArith Bool Lia Arith Sorted Permutation.
From Verif Require Import Py BitSpec BitLemmas Slater SlaterBits SlaterBits2 SignSpec Fock FockLemmas.
Import ListNotations.

Lemma sgn_xorb : forall a b, sgn (xorb a b) = (sgn a * sgn b)%Z.
Proof. intros [|] [|]; reflexivity. Qed.
Lemma sgn_negb : forall a, sgn (negb a) = (- sgn a)%Z.
Proof. intros [|]; reflexivity. Qed.

(** ** sign_perm *)
Fixpoint before_gt (i : Z) (l : list Z) : nat :=
  match l with
  | [] => 0
  | j :: t => if (i <? j)%Z then S (before_gt i t) else if (j =? i)%Z then 0 else before_gt i t
  end.

Lemma sign_perm_inner_eq : forall i l s,
  sign_perm_inner i l s = (s * sgn (Nat.odd (before_gt i l)))%Z.
Proof.
  induction l as [|j t IH]; intros s; cbn [sign_perm_inner before_gt].
  - simpl. lia.
  - destruct (i <? j)%Z; [|destruct (j =? i)%Z; [simpl; lia|apply IH]].
    rewrite IH, Nat.odd_succ, <- Nat.negb_odd, sgn_negb. lia.
Qed.

Lemma sign_perm_fold : forall l ord s,
  fold_left (fun s i => sign_perm_inner i l s) ord s
  = (s * sgn (Nat.odd (list_sum (map (fun i => before_gt i l) ord))))%Z.
Proof.
  intros l. induction ord as [|i ord IH]; intros s; cbn [fold_left map list_sum fold_right].
  - simpl. lia.
  - rewrite IH, sign_perm_inner_eq. change (list_sum (?a :: ?b)) with (a + list_sum b).
    fold (list_sum (map (fun i0 => before_gt i0 l) ord)).
    rewrite Nat.odd_add, sgn_xorb. lia.
Qed.

Fixpoint inversions (l : list Z) : nat :=
  match l with
  | [] => 0
  | a :: t => length (filter (fun b => (b <? a)%Z) t) + inversions t
  end.

Lemma list_sum_perm : forall l l', Permutation l l' -> list_sum l = list_sum l'.
Proof. induction 1; simpl; lia. Qed.

Lemma before_gt_inversions : forall l, NoDup l ->
  list_sum (map (fun i => before_gt i l) l) = inversions l.
Proof.
  induction l as [|a t IH]; intros H; [reflexivity|].
  inversion H as [|? ? Ha Ht]; subst. cbn [map]. 
  change (list_sum (before_gt a (a :: t) :: map (fun i => before_gt i (a :: t)) t))
    with (before_gt a (a :: t) + list_sum (map (fun i => before_gt i (a :: t)) t)).
  cbn [before_gt]. rewrite Z.ltb_irrefl, Z.eqb_refl. cbn [inversions]. rewrite <- IH by auto.
  assert (G : forall u, ~ In a u ->
    list_sum (map (fun i => if (i <? a)%Z then S (before_gt i t) else if (a =? i)%Z then 0 else before_gt i t) u)
    = length (filter (fun b => (b <? a)%Z) u) + list_sum (map (fun i => before_gt i t) u)).
  { induction u as [|x u IHu]; intros Hu; auto.
    assert (x <> a) by (intros ->; apply Hu; now left).
    assert (Hu' : ~ In a u) by (intros ?; apply Hu; now right).
    specialize (IHu Hu'). cbn [map filter].
    destruct (Z.ltb_spec x a); cbn [length]; unfold list_sum in *; cbn [fold_right]; rewrite IHu.
    - lia.
    - destruct (Z.eqb_spec a x); [congruence|]. lia. }
  rewrite G by auto. lia.
Qed.

Lemma filter_length_app : forall {A} (f : A -> bool) l1 l2,
  length (filter f (l1 ++ l2)) = length (filter f l1) + length (filter f l2).
Proof. intros. now rewrite filter_app, app_length. Qed.

Lemma inversions_swap : forall l1 a b l2, a <> b ->
  Nat.odd (inversions (l1 ++ a :: b :: l2)) = negb (Nat.odd (inversions (l1 ++ b :: a :: l2))).
Proof.
  induction l1 as [|x l1 IH]; intros a b l2 H.
  - cbn [app inversions filter].
    set (p := length (filter (fun c => (c <? a)%Z) l2)).
    set (q := length (filter (fun c => (c <? b)%Z) l2)).
    destruct (Z.ltb_spec b a), (Z.ltb_spec a b); try lia; cbn [length]; fold p q.
    + replace (S p + (q + inversions l2)) with (S (p + q + inversions l2)) by lia.
      replace (q + (p + inversions l2)) with (p + q + inversions l2) by lia.
      now rewrite Nat.odd_succ, Nat.negb_odd.
    + replace (S q + (p + inversions l2)) with (S (p + q + inversions l2)) by lia.
      replace (p + (q + inversions l2)) with (p + q + inversions l2) by lia.
      now rewrite Nat.odd_succ, Nat.negb_even.
  - cbn [app inversions]. rewrite !Nat.odd_add, (IH a b l2 H).
    rewrite !filter_length_app. cbn [filter].
    assert (E : length (if (a <? x)%Z then a :: (if (b <? x)%Z then b :: filter (fun c => (c <? x)%Z) l2 else filter (fun c => (c <? x)%Z) l2) else if (b <? x)%Z then b :: filter (fun c => (c <? x)%Z) l2 else filter (fun c => (c <? x)%Z) l2)
       = length (if (b <? x)%Z then b :: (if (a <? x)%Z then a :: filter (fun c => (c <? x)%Z) l2 else filter (fun c => (c <? x)%Z) l2) else if (a <? x)%Z then a :: filter (fun c => (c <? x)%Z) l2 else filter (fun c => (c <? x)%Z) l2)).
    { destruct (a <? x)%Z, (b <? x)%Z; reflexivity. }
    rewrite E. now rewrite negb_xorb_r.
Qed.

Lemma inversions_sorted : forall l, StronglySorted Z.lt l -> inversions l = 0.
Proof.
  induction 1 as [|a l H IH F]; auto. cbn [inversions]. rewrite IH.
  rewrite filter_false; auto. intros x Hx. rewrite Forall_forall in F. specialize (F x Hx).
  apply Z.ltb_ge. lia.
Qed.

Lemma swaps_perm : forall {A} k (l l' : list A), swaps k l l' -> Permutation l l'.
Proof.
  induction 1 as [|k l1 a b l2 l' H IH]; auto.
  rewrite <- IH. apply Permutation_app_head, perm_swap.
Qed.

Lemma NoDup_swap_neq : forall {A} l1 (a b : A) l2, NoDup (l1 ++ a :: b :: l2) -> a <> b.
Proof.
  intros A l1 a b l2 H E. subst b. apply NoDup_remove_2 in H. apply H.
  apply in_or_app. right. now left.
Qed.

Lemma swaps_inversions : forall k l l', swaps k l l' -> NoDup l ->
  Nat.odd (inversions l) = xorb (Nat.odd k) (Nat.odd (inversions l')).
Proof.
  induction 1 as [l|k l1 a b l2 l' H IH]; intros N.
  - now rewrite xorb_false_l.
  - rewrite inversions_swap by (eapply NoDup_swap_neq; eauto).
    rewrite IH.
    + rewrite Nat.odd_succ, <- Nat.negb_odd. now rewrite negb_xorb_l.
    + eapply Permutation_NoDup; [|exact N]. apply Permutation_app_head, perm_swap.
Qed.

Lemma insert_Z_perm : forall x l, Permutation (insert_Z x l) (x :: l).
Proof.
  induction l as [|y l IH]; simpl; auto. destruct (x <=? y)%Z; auto.
  rewrite IH. apply perm_swap.
Qed.
Lemma sorted_Z_perm : forall l, Permutation (sorted_Z l) l.
Proof.
  induction l as [|x l IH]; simpl; auto. rewrite insert_Z_perm. now constructor.
Qed.
Lemma insert_Z_sorted : forall x l, StronglySorted Z.le l -> StronglySorted Z.le (insert_Z x l).
Proof.
  induction l as [|y l IH]; intros H; cbn [insert_Z].
  - repeat constructor.
  - inversion H as [|? ? H1 H2]; subst. destruct (Z.leb_spec x y).
    + constructor; auto. constructor; auto. eapply Forall_impl; [|exact H2]. cbn. lia.
    + constructor; auto. rewrite Forall_forall in *. intros z Hz.
      apply (Permutation_in _ (insert_Z_perm x l)) in Hz as [->|Hz]; auto. lia.
Qed.
Lemma sorted_Z_sorted : forall l, StronglySorted Z.le (sorted_Z l).
Proof. induction l as [|x l IH]; simpl; [constructor|now apply insert_Z_sorted]. Qed.

Lemma sorted_strict : forall l, NoDup l -> StronglySorted Z.le l -> StronglySorted Z.lt l.
Proof.
  induction l as [|a l IH]; intros N H; [constructor|].
  inversion N; subst. inversion H as [|? ? H1 H2']; subst. constructor; auto.
  rewrite Forall_forall in *. intros x Hx. specialize (H2' x Hx).
  assert (x <> a) by congruence. lia.
Qed.

Lemma sign_perm_value : forall l, NoDup l ->
  sign_perm l None false = Ok (sgn (Nat.odd (inversions l))).
Proof.
  intros l N. unfold sign_perm. rewrite sign_perm_fold. f_equal. rewrite Z.mul_1_l.
  rewrite <- (before_gt_inversions l N). do 2 f_equal. apply list_sum_perm, Permutation_map, sorted_Z_perm.
Qed.

Lemma strictly_increasing_iff : forall l, strictly_increasing l = true <-> StronglySorted Z.lt l.
Proof.
  induction l as [|x [|y t] IH].
  - split; auto. constructor.
  - split; auto. repeat constructor.
  - change (strictly_increasing (x :: y :: t)) with ((x <? y)%Z && strictly_increasing (y :: t)).
    rewrite andb_true_iff, IH, Z.ltb_lt. split.
    + intros [H1 H2]. constructor; auto. inversion H2 as [|? ? H3 H4]; subst. constructor; auto.
      eapply Forall_impl; [|exact H4]. cbn. lia.
    + intros H. inversion H as [|? ? H3 H4]; subst. split; auto. now inversion H4.
Qed.

Lemma sign_perm_ord_value : forall l ord, NoDup l -> Permutation l ord -> StronglySorted Z.lt ord ->
  sign_perm l (Some ord) false = Ok (sgn (Nat.odd (inversions l))).
Proof.
  intros l ord N P S. unfold sign_perm. rewrite (proj2 (strictly_increasing_iff ord) S). cbn [negb].
  rewrite sign_perm_fold. f_equal. rewrite Z.mul_1_l.
  rewrite <- (before_gt_inversions l N). do 2 f_equal.
  apply list_sum_perm, Permutation_map. now symmetry.
Qed.

Lemma signature_inversions : forall l s, NoDup l -> signature l s -> s = sgn (Nat.odd (inversions l)).
Proof.
  intros l s N (k & l' & W & S & ->).
  rewrite (swaps_inversions _ _ _ W N), (inversions_sorted _ S), xorb_false_r.
  unfold pow_m1. now destruct (Nat.odd k).
Qed.

(** every list of distinct integers can be sorted by adjacent exchanges *)
Lemma swaps_cons : forall {A} k (x : A) l l', swaps k l l' -> swaps k (x :: l) (x :: l').
Proof.
  induction 1 as [|k l1 a b l2 l' H IH]; [constructor|].
  rewrite app_comm_cons. constructor. exact IH.
Qed.
Lemma swaps_trans : forall {A} k1 k2 (l1 l2 l3 : list A),
  swaps k1 l1 l2 -> swaps k2 l2 l3 -> swaps (k1 + k2) l1 l3.
Proof. induction 1; intros; auto. simpl. constructor. auto. Qed.
Lemma swaps_insert : forall x l, exists k, swaps k (x :: l) (insert_Z x l).
Proof.
  induction l as [|y l [k IH]]; cbn [insert_Z].
  - exists 0. constructor.
  - destruct (x <=? y)%Z.
    + exists 0. constructor.
    + exists (S k). apply (swaps_S k [] x y l). simpl. now apply swaps_cons.
Qed.
Lemma swaps_sorted_Z : forall l, exists k, swaps k l (sorted_Z l).
Proof.
  induction l as [|x l [k IH]]; [exists 0; constructor|].
  destruct (swaps_insert x (sorted_Z l)) as [k' H]. exists (k + k').
  eapply swaps_trans; [|exact H]. now apply swaps_cons.
Qed.
Lemma signature_exists : forall l, NoDup l -> signature l (sgn (Nat.odd (inversions l))).
Proof.
  intros l N. destruct (swaps_sorted_Z l) as [k W].
  assert (N' : NoDup (sorted_Z l)) by (eapply Permutation_NoDup; [symmetry; apply sorted_Z_perm|auto]).
  assert (S : StronglySorted Z.lt (sorted_Z l)) by (apply sorted_strict; auto; apply sorted_Z_sorted).
  exists k, (sorted_Z l). repeat split; auto.
  rewrite (swaps_inversions _ _ _ W N), (inversions_sorted _ S), xorb_false_r.
  unfold pow_m1. now destruct (Nat.odd k).
Qed.

Lemma swaps_app_r : forall {A} k (l l' r : list A), swaps k l l' -> swaps k (l ++ r) (l' ++ r).
Proof.
  induction 1 as [|k l1 a b l2 l' H IH]; [constructor|].
  rewrite <- app_assoc. simpl. constructor. rewrite <- app_assoc in IH. exact IH.
Qed.
Lemma swaps_app_l : forall {A} k (l l' r : list A), swaps k l l' -> swaps k (r ++ l) (r ++ l').
Proof.
  intros A k l l' r H. induction r as [|x r IH]; auto. now apply swaps_cons.
Qed.

Lemma swaps_rev : forall {A} k (l l' : list A), swaps k l l' -> swaps k (rev l) (rev l').
Proof.
  induction 1 as [|k l1 a b l2 l' H IH]; [constructor|].
  rewrite rev_app_distr in *. cbn [rev] in *. rewrite <- !app_assoc in *. simpl in *.
  constructor. exact IH.
Qed.

(** ** sign_excite *)
Lemma jumped_0 : forall n c, jumped n c 0 = nbelow n c.
Proof.
  intros. unfold jumped, nbelow. rewrite Nat.min_0_r, Nat.max_0_r, Nat.sub_0_r.
  rewrite seq_S, filter_app, app_length. cbn [filter Nat.add]. rewrite Nat.eqb_refl, andb_false_r.
  simpl. rewrite Nat.add_0_r. f_equal. apply filter_seq_ext. intros i Hi.
  rewrite (proj2 (Nat.eqb_neq i c)) by lia. now rewrite andb_true_r.
Qed.

Lemma sign_swap_0 : forall n c, bit n c = true ->
  sign_swap (Some n) (Z.of_nat c) 0 = Ok (sgn (par n c)).
Proof.
  intros n c B. change 0%Z with (Z.of_nat 0). rewrite sign_swap_ok by auto. now rewrite jumped_0.
Qed.

Lemma annihilate_one : forall n i, bit n i = true -> annihilate (Some n) [i] = Some (flip n i).
Proof. intros n i B. cbn [annihilate]. rewrite occ_bit, B. reflexivity. Qed.

Lemma create_one : forall n i,
  create (Some n) [i] = if bit n i then None else Some (flip n i).
Proof.
  intros n i. cbn [create]. rewrite occ_bit. destruct (bit n i) eqn:B; cbn [negb]; auto.
  f_equal. apply bit_ext. intros j. rewrite bit_lor, bit_single, bit_flip.
  destruct (Nat.eqb_spec i j); [subst; now rewrite B|]. now destruct (bit n j).
Qed.

Lemma sign_excite_ann_eq : forall anns n s,
  sign_excite_ann (Some n) s anns
  = match applys (map Ann anns) (Some (false, n)) with
    | None => Err ValueError
    | Some (b, m) => Ok (Some m, (s * sgn b)%Z)
    end.
Proof.
  induction anns as [|i t IH]; intros n s.
  - simpl. now rewrite Z.mul_1_r.
  - cbn [sign_excite_ann map]. rewrite applys_cons. unfold Ann at 2. cbn [apply1 fst snd].
    rewrite occ_bit. destruct (bit n i) eqn:B; cbn [negb Bool.eqb].
    + rewrite sign_swap_0 by auto. cbn [bind]. rewrite annihilate_one by auto. rewrite IH.
      rewrite xorb_false_l.
      replace (Some (par n i, flip n i)) with (xor_ket (par n i) (Some (false, flip n i)))
        by (simpl; now rewrite xorb_false_r).
      rewrite applys_xor. destruct (applys _ _) as [[b m]|]; auto. cbn [xor_ket].
      rewrite sgn_xorb. do 2 f_equal. ring.
    + now rewrite applys_None.
Qed.

Lemma sign_excite_cre_eq : forall cres n s,
  sign_excite_cre (Some n) s cres
  = match applys (map Cre cres) (Some (false, n)) with
    | None => Err ValueError
    | Some (b, m) => Ok (s * sgn b)%Z
    end.
Proof.
  induction cres as [|i t IH]; intros n s.
  - simpl. now rewrite Z.mul_1_r.
  - cbn [sign_excite_cre map]. rewrite applys_cons. unfold Cre at 2. cbn [apply1 fst snd].
    rewrite create_one. destruct (bit n i) eqn:B; cbn [negb Bool.eqb].
    + now rewrite applys_None.
    + rewrite sign_swap_0 by (rewrite bit_flip_eq, B; auto). cbn [bind]. rewrite IH.
      rewrite par_flip, Nat.ltb_irrefl, xorb_false_r.
      replace (Some (xorb false (par n i), flip n i)) with (xor_ket (par n i) (Some (false, flip n i)))
        by (simpl; now rewrite xorb_false_r; destruct (par n i)).
      rewrite applys_xor. destruct (applys _ _) as [[b m]|]; auto. cbn [xor_ket].
      rewrite sgn_xorb. f_equal. ring.
Qed.

Lemma sign_excite_eq : forall n anns cres,
  sign_excite (Some n) anns cres
  = match applys (map Ann anns ++ map Cre cres) (Some (false, n)) with
    | None => Err ValueError
    | Some (b, m) => Ok (sgn b)
    end.
Proof.
  intros. unfold sign_excite. rewrite sign_excite_ann_eq, applys_app.
  destruct (applys (map Ann anns) _) as [[b m]|]; cbn [bind].
  - cbn [fst snd]. rewrite sign_excite_cre_eq, Z.mul_1_l.
    replace (Some (b, m)) with (xor_ket b (Some (false, m))) by (simpl; now rewrite xorb_false_r).
    rewrite applys_xor. destruct (applys (map Cre cres) _) as [[b' m']|]; auto.
    cbn [xor_ket]. now rewrite sgn_xorb.
  - now rewrite applys_None.
Qed.

Lemma sign_excite_None : forall anns cres,
  sign_excite None anns cres
  = match anns, cres with [], [] => Ok 1%Z | _, _ => Err ValueError end.
Proof. intros [|a anns] [|c cres]; reflexivity. Qed.
