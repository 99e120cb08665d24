(** Lemmas about bits, increasing lists and digit strings. *)
From Coq Require Import List ZArith NArith Bool Lia Sorted Permutation Arith.
From Verif Require Import Py BitSpec.
Import ListNotations.

(** ** Increasing lists *)
Lemma SS_cons_inv : forall (a : nat) l, increasing (a :: l) -> increasing l /\ Forall (lt a) l.
Proof. intros a l H. inversion H; auto. Qed.

Lemma increasing_NoDup : forall l, increasing l -> NoDup l.
Proof.
  induction l as [|a l IH]; intros H; constructor.
  - apply SS_cons_inv in H as [_ H]. rewrite Forall_forall in H.
    intros Hin. specialize (H _ Hin). lia.
  - apply IH. now apply SS_cons_inv in H.
Qed.

Lemma increasing_seq : forall n a, increasing (seq a n).
Proof.
  induction n as [|n IH]; intros a; simpl; constructor.
  - apply IH.
  - apply Forall_forall. intros x Hx. apply in_seq in Hx. lia.
Qed.

Lemma increasing_filter : forall f l, increasing l -> increasing (filter f l).
Proof.
  induction l as [|a l IH]; intros H; simpl; [constructor|].
  apply SS_cons_inv in H as [H1 H2].
  destruct (f a); [|now apply IH].
  constructor; [now apply IH|].
  apply Forall_forall. intros x Hx. apply filter_In in Hx as [Hx _].
  rewrite Forall_forall in H2. now apply H2.
Qed.

Lemma increasing_ext : forall l1 l2,
  increasing l1 -> increasing l2 -> (forall x, In x l1 <-> In x l2) -> l1 = l2.
Proof.
  induction l1 as [|a l1 IH]; intros [|b l2] H1 H2 Hx; auto.
  - exfalso. now apply (proj2 (Hx b)); left.
  - exfalso. now apply (proj1 (Hx a)); left.
  - apply SS_cons_inv in H1 as [S1 F1]. apply SS_cons_inv in H2 as [S2 F2].
    rewrite Forall_forall in F1, F2.
    assert (a = b).
    { destruct (proj1 (Hx a) (or_introl eq_refl)) as [E|Hin]; [now symmetry|].
      destruct (proj2 (Hx b) (or_introl eq_refl)) as [E|Hin2]; [exact E|].
      specialize (F1 _ Hin2). specialize (F2 _ Hin). lia. }
    subst b. f_equal. apply IH; auto.
    intros x. split; intros Hin.
    + destruct (proj1 (Hx x) (or_intror Hin)) as [E|?]; auto.
      subst. specialize (F1 _ Hin). lia.
    + destruct (proj2 (Hx x) (or_intror Hin)) as [E|?]; auto.
      subst. specialize (F2 _ Hin). lia.
Qed.

Lemma increasing_app : forall l1 l2,
  increasing (l1 ++ l2) <->
  increasing l1 /\ increasing l2 /\ (forall x y, In x l1 -> In y l2 -> x < y).
Proof.
  induction l1 as [|a l1 IH]; intros l2; simpl.
  - split; [intros H; repeat split; auto; [constructor|intros ? ? []]|tauto].
  - split.
    + intros H. apply SS_cons_inv in H as [H F]. apply IH in H as (H1 & H2 & H3).
      rewrite Forall_forall in F.
      repeat split; auto.
      * constructor; auto. apply Forall_forall. intros x Hx. apply F, in_or_app. now left.
      * intros x y [->|Hx] Hy; [apply F, in_or_app; now right|now apply H3].
    + intros (H1 & H2 & H3). apply SS_cons_inv in H1 as [H1 F].
      constructor.
      * apply IH. repeat split; auto.
      * rewrite Forall_forall in *. intros x Hx. apply in_app_or in Hx as [Hx|Hx]; auto.
Qed.

(** ** Bits *)
Lemma bit_ext : forall m n, (forall i, bit m i = bit n i) -> m = n.
Proof.
  intros m n H. apply N.bits_inj. intros k.
  specialize (H (N.to_nat k)). unfold bit in H. now rewrite N2Nat.id in H.
Qed.

Lemma bit_0 : forall i, bit 0 i = false.
Proof. intros. unfold bit. now rewrite N.bits_0. Qed.

Lemma bit_lxor : forall m n i, bit (N.lxor m n) i = xorb (bit m i) (bit n i).
Proof. intros. apply N.lxor_spec. Qed.
Lemma bit_lor : forall m n i, bit (N.lor m n) i = bit m i || bit n i.
Proof. intros. apply N.lor_spec. Qed.
Lemma bit_land : forall m n i, bit (N.land m n) i = bit m i && bit n i.
Proof. intros. apply N.land_spec. Qed.
Lemma bit_shiftr : forall n k i, bit (N.shiftr n (N.of_nat k)) i = bit n (i + k).
Proof. intros. unfold bit. rewrite N.shiftr_spec'. f_equal. lia. Qed.
Lemma bit_shiftl : forall n k i,
  bit (N.shiftl n (N.of_nat k)) i = Nat.leb k i && bit n (i - k).
Proof.
  intros. unfold bit. destruct (Nat.leb_spec k i).
  - rewrite N.shiftl_spec_high' by lia. simpl. f_equal. lia.
  - rewrite N.shiftl_spec_low by lia. reflexivity.
Qed.
Lemma bit_1 : forall i, bit 1 i = Nat.eqb i 0.
Proof.
  intros [|i]; [reflexivity|]. unfold bit. simpl.
  destruct (N.of_nat (S i)) eqn:E; [lia|reflexivity].
Qed.
Lemma bit_single : forall k i, bit (N.shiftl 1 (N.of_nat k)) i = Nat.eqb k i.
Proof.
  intros. rewrite bit_shiftl, bit_1.
  destruct (Nat.leb_spec k i), (Nat.eqb_spec k i), (Nat.eqb_spec (i - k) 0); simpl; auto; lia.
Qed.
Lemma bit_odd : forall n, bit n 0 = N.odd n.
Proof. intros. unfold bit. apply N.bit0_odd. Qed.
Lemma bit_double : forall n i, bit (2 * n) i = match i with O => false | S j => bit n j end.
Proof.
  intros n [|i]; unfold bit.
  - now rewrite N.testbit_even_0.
  - replace (N.of_nat (S i)) with (N.succ (N.of_nat i)) by lia.
    now rewrite N.testbit_even_succ by lia.
Qed.
Lemma bit_double1 : forall n i, bit (2 * n + 1) i = match i with O => true | S j => bit n j end.
Proof.
  intros n [|i]; unfold bit.
  - now rewrite N.testbit_odd_0.
  - replace (N.of_nat (S i)) with (N.succ (N.of_nat i)) by lia.
    now rewrite N.testbit_odd_succ by lia.
Qed.

(** ** Digit strings *)
Lemma pdigits_nth : forall p i, nth i (pdigits p) false = bit (Npos p) i.
Proof.
  induction p as [p IH|p IH|]; intros i.
  - change (Npos (xI p)) with (2 * Npos p + 1)%N. rewrite bit_double1.
    destruct i; simpl; auto; now rewrite ?IH.
  - change (Npos (xO p)) with (2 * Npos p)%N. rewrite bit_double.
    destruct i; simpl; auto; now rewrite ?IH.
  - rewrite bit_1. destruct i as [|[|]]; reflexivity.
Qed.

Lemma bin_lsb_nth : forall n i, nth i (bin_lsb n) false = bit n i.
Proof.
  intros [|p] i.
  - rewrite bit_0. destruct i as [|[|i]]; reflexivity.
  - apply pdigits_nth.
Qed.

Lemma fits_bin_lsb : forall n, fits n (length (bin_lsb n)).
Proof.
  intros n i Hi. rewrite <- bin_lsb_nth. now apply nth_overflow.
Qed.

Lemma bin_lsb_eq : forall n, bin_lsb n = map (bit n) (seq 0 (length (bin_lsb n))).
Proof.
  intros n. apply nth_ext with (d := false) (d' := bit n 0).
  - now rewrite map_length, seq_length.
  - intros i Hi. rewrite bin_lsb_nth.
    rewrite map_nth, seq_nth; auto.
Qed.

(** [digits_to_N] in terms of bits *)
Lemma digits_to_N_app : forall l b,
  digits_to_N (l ++ [b]) = (2 * digits_to_N l + (if b then 1 else 0))%N.
Proof. intros. unfold digits_to_N. now rewrite fold_left_app. Qed.

Lemma digits_to_N_rev_bit : forall l i, bit (digits_to_N (rev l)) i = nth i l false.
Proof.
  induction l as [|b l IH]; intros i.
  - change (digits_to_N (rev [])) with 0%N. rewrite bit_0. now destruct i.
  - simpl. rewrite digits_to_N_app. destruct b.
    + rewrite bit_double1. destruct i; auto.
    + rewrite N.add_0_r, bit_double. destruct i; auto.
Qed.

Lemma digits_to_N_bit : forall l i, bit (digits_to_N l) i = nth i (rev l) false.
Proof. intros. rewrite <- digits_to_N_rev_bit, rev_involutive. reflexivity. Qed.

Lemma nth_repeat_lt : forall {A} (x d : A) n i, i < n -> nth i (repeat x n) d = x.
Proof. induction n; intros [|i] H; simpl; auto; try lia. apply IHn. lia. Qed.

Lemma nth_repeat_any : forall n i (b:bool), nth i (repeat b n) false = b && Nat.ltb i n.
Proof.
  intros. destruct (Nat.ltb_spec i n).
  - rewrite nth_repeat_lt by auto. now rewrite andb_true_r.
  - rewrite nth_overflow; [now rewrite andb_false_r|rewrite repeat_length; lia].
Qed.

(** ** Filters over [seq] *)
Lemma filter_seq_ext : forall (f g : nat -> bool) a n,
  (forall i, a <= i < a + n -> f i = g i) -> filter f (seq a n) = filter g (seq a n).
Proof. intros. apply filter_ext_in. intros i Hi. apply in_seq in Hi. now apply H. Qed.

Lemma filter_false : forall {A} (f : A -> bool) l, (forall x, In x l -> f x = false) -> filter f l = [].
Proof.
  induction l as [|x l IH]; intros H; simpl; auto.
  rewrite (H x) by now left. apply IH. intros; apply H; now right.
Qed.

Lemma filter_true : forall {A} (f : A -> bool) l, (forall x, In x l -> f x = true) -> filter f l = l.
Proof.
  induction l as [|x l IH]; intros H; simpl; auto.
  rewrite (H x) by now left. f_equal. apply IH. intros; apply H; now right.
Qed.

Lemma orbs_fits_indep : forall n k1 k2, fits n k1 -> k1 <= k2 ->
  filter (bit n) (seq 0 k2) = filter (bit n) (seq 0 k1).
Proof.
  intros n k1 k2 Hf Hle.
  replace k2 with (k1 + (k2 - k1)) by lia.
  rewrite seq_app, filter_app. simpl.
  rewrite (filter_false _ (seq k1 _)); [now rewrite app_nil_r|].
  intros x Hx. apply in_seq in Hx. apply Hf. lia.
Qed.

Lemma orbs_fits_indep' : forall n k1 k2, fits n k1 -> fits n k2 ->
  filter (bit n) (seq 0 k2) = filter (bit n) (seq 0 k1).
Proof.
  intros. destruct (Nat.le_ge_cases k1 k2).
  - now apply orbs_fits_indep.
  - symmetry. now apply orbs_fits_indep.
Qed.

Lemma fits_mono : forall n k1 k2, fits n k1 -> k1 <= k2 -> fits n k2.
Proof. intros n k1 k2 H L i Hi. apply H. lia. Qed.

Lemma nbelow_S : forall n k, nbelow n (S k) = nbelow n k + (if bit n k then 1 else 0).
Proof.
  intros. unfold nbelow. rewrite seq_S, filter_app, app_length. simpl.
  destruct (bit n k); reflexivity.
Qed.

Lemma nbelow_fits : forall n k1 k2, fits n k1 -> fits n k2 -> nbelow n k1 = nbelow n k2.
Proof. intros. unfold nbelow. f_equal. now apply orbs_fits_indep'. Qed.

Lemma nbelow_le : forall n k, nbelow n k <= k.
Proof. induction k; [auto|]. rewrite nbelow_S. destruct (bit n k); lia. Qed.

Lemma nbelow_ext : forall m n k, (forall i, i < k -> bit m i = bit n i) -> nbelow m k = nbelow n k.
Proof.
  intros m n k H. unfold nbelow. f_equal. apply filter_seq_ext. intros. apply H. lia.
Qed.

Lemma fits_pow2 : forall n k, fits n k <-> (n < 2 ^ N.of_nat k)%N.
Proof.
  intros n k. split.
  - intros Hf. destruct (N.eq_0_gt_0_cases n) as [->|Hpos].
    + apply N.neq_0_lt_0, N.pow_nonzero. lia.
    + apply N.log2_lt_pow2; auto.
      assert (Hb : bit n (N.to_nat (N.log2 n)) = true).
      { unfold bit. rewrite N2Nat.id. apply N.bit_log2. lia. }
      destruct (Nat.le_gt_cases k (N.to_nat (N.log2 n))) as [L|L]; [|lia].
      rewrite Hf in Hb by lia. discriminate.
  - intros Hlt i Hi. unfold bit.
    destruct (N.eq_0_gt_0_cases n) as [->|Hpos]; [apply N.bits_0|].
    apply N.bits_above_log2. apply N.log2_lt_pow2 in Hlt; auto. lia.
Qed.

Lemma has_electrons_fits : forall n k, fits n k -> has_electrons n (nbelow n k).
Proof.
  intros n k Hf. exists (filter (bit n) (seq 0 k)). repeat split.
  - apply NoDup_filter, seq_NoDup.
  - intros H. now apply filter_In in H.
  - intros H. apply filter_In. split; auto. apply in_seq.
    destruct (Nat.le_gt_cases k i); [rewrite Hf in H by auto; discriminate|lia].
Qed.

Lemma has_electrons_unique : forall n k1 k2, has_electrons n k1 -> has_electrons n k2 -> k1 = k2.
Proof.
  intros n k1 k2 (l1 & N1 & H1 & <-) (l2 & N2 & H2 & <-).
  apply Permutation_length, NoDup_Permutation; auto.
  intros x. now rewrite H1, H2.
Qed.
