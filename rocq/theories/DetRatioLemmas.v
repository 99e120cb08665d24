(** Lemmas for C67 *)
From Coq Require Import List ZArith NArith Arith Bool Lia Permutation Sorted.
From Verif Require Import Py BitSpec BitLemmas Fock FockLemmas Slater SlaterBits SlaterBits2 Combos Alg MathTools PermLemmas DetLemmas BicliqueLemmas CILemmas OrbSpec OrbLemmas OrbMain WedgeLemmas
  JacobiSpec WfnCI Geminal Composite Nonorth NonorthLemmas NonorthMain NonorthValues Cache WfnCached DetRatio DetRatioSpec.
Import ListNotations.
Local Open Scope nat_scope.

Lemma two_digits : forall n a b a' b', b < n -> b' < n -> a * n + b = a' * n + b' -> a = a' /\ b = b'.
Proof.
  intros n a b a' b' H H' E. assert (a = a') by (destruct (Nat.lt_trichotomy a a') as [L|[L|L]]; nia). subst. split; [reflexivity|lia].
Qed.
Lemma three_digits : forall n m d r c d' r' c', r < n -> r' < n -> c < m -> c' < m ->
  d * (n * m) + r * m + c = d' * (n * m) + r' * m + c' -> d = d' /\ r = r' /\ c = c'.
Proof.
  intros n m d r c d' r' c' H1 H2 H3 H4 E.
  destruct (two_digits m (d * n + r) c (d' * n + r') c' H3 H4) as [E1 ->]; [nia|]. destruct (two_digits n d r d' r' H1 H2 E1) as [-> ->]. auto.
Qed.
Lemma index_bound : forall k n m d r c, d < k -> r < n -> c < m -> d * (n * m) + r * m + c < k * (n * m).
Proof. intros. assert (r * m + c < n * m) by nia. nia. Qed.
Lemma slice_nth : forall {A} (l : list A) a b i x, i < b - a -> nth i (slice l a b) x = nth (a + i) l x.
Proof.
  intros A l a b i x H. unfold slice. assert (F : forall n (l : list A), i < n -> nth i (firstn n l) x = nth i l x).
  { intros n. generalize i. induction n as [|n IH]; intros j l' Hj; [lia|]. destruct l'; [reflexivity|]. destruct j; [reflexivity|]. cbn [firstn nth]. apply IH. lia. }
  rewrite F by lia. clear F H. revert i. induction a as [|a IH] in l |- *; intros i; [reflexivity|]. destruct l; [destruct i; reflexivity|]. cbn [skipn plus nth]. apply IH.
Qed.
Lemma slice_length : forall {A} (l : list A) a b, b <= length l -> length (slice l a b) = b - a.
Proof. intros A l a b H. unfold slice. rewrite firstn_length, skipn_length. lia. Qed.
Lemma without_In : forall x y l, In y (without x l) <-> In y l /\ y <> x.
Proof.
  intros x y l. unfold without. rewrite filter_In. destruct (Nat.eqb_spec y x); cbn; intuition congruence.
Qed.
Lemma without_not : forall x l, ~ In x l -> without x l = l.
Proof.
  intros x l. unfold without. induction l as [|y l IH]; intros H; [reflexivity|]. cbn [filter]. destruct (Nat.eqb_spec y x) as [->|]; [destruct H; now left|].
  cbn [negb]. f_equal. apply IH. intros X. apply H. now right.
Qed.
Lemma without_app : forall x a b, ~ In x a -> ~ In x b -> without x (a ++ x :: b) = a ++ b.
Proof.
  intros x a b Ha Hb. unfold without. rewrite filter_app. cbn [filter]. rewrite Nat.eqb_refl. cbn [negb]. f_equal; [now apply without_not|now apply without_not].
Qed.
Lemma position_app : forall x a b, ~ In x a -> position x (a ++ x :: b) = length a.
Proof.
  intros x a b. induction a as [|y a IH]; intros H; cbn [app position length]; [now rewrite Nat.eqb_refl|].
  destruct (Nat.eqb_spec y x) as [->|]; [destruct H; now left|]. f_equal. apply IH. intros X. apply H. now right.
Qed.
Lemma nodup_split : forall (x : nat) l, NoDup l -> In x l -> exists a b, l = a ++ x :: b /\ ~ In x a /\ ~ In x b.
Proof.
  intros x l N H. apply in_split in H as (a & b & ->). exists a, b. split; [reflexivity|]. apply NoDup_remove_2 in N. rewrite in_app_iff in N. tauto.
Qed.
Lemma delete_map : forall {A B} (f : A -> B) d l, delete d (map f l) = map f (delete d l).
Proof. intros A B f d l. unfold delete. now rewrite firstn_map, skipn_map, map_app. Qed.
Lemma delete_seq : forall d n, d < n -> delete d (seq 0 n) = without d (seq 0 n).
Proof.
  intros d n H. replace n with (d + S (n - S d)) at 1 2 by lia. rewrite seq_app. cbn [seq plus]. unfold delete.
  rewrite firstn_app, skipn_app, seq_length, Nat.sub_diag. replace (S d - d) with 1 by lia. rewrite firstn_all2 by (rewrite seq_length; lia). rewrite skipn_all2 by (rewrite seq_length; lia).
  cbn [firstn skipn app]. rewrite app_nil_r, without_app; auto; rewrite in_seq; lia.
Qed.

Lemma Forall2_map_both : forall {A B} (P : B -> B -> Prop) (f g : A -> B) l, (forall i, In i l -> P (f i) (g i)) -> Forall2 P (map f l) (map g l).
Proof.
  intros A B P f g l. induction l as [|x l IH]; intros H; constructor; [apply H; now left|apply IH; intros i Hi; apply H; now right].
Qed.
Section L.
Context {K : CRing}.
Local Open Scope cr_scope.
Add Ring K_ring109 : (rth K).

(** ** determinants *)
Lemma detR_front : forall {A} pre (r : A -> K) post l, detR (pre ++ r :: post) l = m1pow (length pre) * detR (r :: pre ++ post) l.
Proof.
  intros A pre. induction pre as [|q pre IH] using rev_ind; intros r post l; [cbn [length app]; replace (m1pow 0) with (1 : K) by reflexivity; ring|].
  rewrite <- app_assoc. cbn [app]. rewrite detR_swap, IH, app_length. cbn [length]. rewrite Nat.add_1_r, m1pow_S, <- app_assoc. cbn [app]. ring.
Qed.
Lemma spicks_at : forall a c b (G : nat -> list nat -> K), ~ In c a -> ~ In c b ->
  sumf (fun p => fst p * ((if Nat.eqb (fst (snd p)) c then 1 else 0) * G (fst (snd p)) (snd (snd p)))) (spicks (K := K) (a ++ c :: b)) = m1pow (length a) * G c (a ++ b).
Proof.
  induction a as [|x a IH]; intros c b G Ha Hb; cbn [app length]; rewrite spicks_cons, sumf_cons, sumf_map; cbn [fst snd].
  - rewrite Nat.eqb_refl. rewrite sumf_zero; [replace (m1pow 0) with (1 : K) by reflexivity; ring|]. intros p Hp. apply spicks_In in Hp. apply in_map with (f := fst) in Hp. rewrite picks_fst in Hp.
    destruct (Nat.eqb_spec (fst (snd p)) c) as [E|]; [congruence|ring].
  - destruct (Nat.eqb_spec x c) as [->|]; [destruct Ha; now left|].
    transitivity (0 - sumf (fun p => fst p * ((if Nat.eqb (fst (snd p)) c then 1 else 0) * G (fst (snd p)) (x :: snd (snd p)))) (spicks (K := K) (a ++ c :: b))).
    + transitivity (0 + sumf (fun p => (- (1)) * (fst p * ((if Nat.eqb (fst (snd p)) c then 1 else 0) * G (fst (snd p)) (x :: snd (snd p))))) (spicks (K := K) (a ++ c :: b))).
      * f_equal; [ring|]. apply sumf_ext. intros p _. ring.
      * rewrite sumf_mul_l. ring.
    + rewrite (IH c b (fun u v => G u (x :: v))) by (intros X; apply Ha || apply Hb; auto; now right). rewrite m1pow_S. ring.
Qed.
Lemma detR_entry : forall (C C' : nat -> nat -> K) rows cols r c y, NoDup rows -> NoDup cols -> In r rows -> In c cols ->
  (forall i j, In i rows -> In j cols -> C' i j = if (Nat.eqb i r && Nat.eqb j c)%bool then y else C i j) ->
  detR (map C' rows) cols = detR (map C rows) cols + (y - C r c) * (m1pow (position r rows) * m1pow (position c cols) * detR (map C (without r rows)) (without c cols)).
Proof.
  intros C C' rows cols r c y Nr Nc Hr Hc E.
  destruct (nodup_split _ _ Nr Hr) as (p & q & -> & Hp & Hq). destruct (nodup_split _ _ Nc Hc) as (a & b & -> & Ha & Hb).
  rewrite !without_app, !position_app by auto.
  transitivity (detR (map C p ++ (fun j => C r j + (y - C r c) * (if Nat.eqb j c then 1 else 0)) :: map C q) (a ++ c :: b)).
  - rewrite map_app. cbn [map]. apply detR_ext. apply Forall2_app; [|constructor].
    + apply Forall2_map_both. intros i Hi j Hj. rewrite E; auto; [|apply in_or_app; now left]. destruct (Nat.eqb_spec i r) as [->|]; [contradiction|]. reflexivity.
    + intros j Hj. rewrite E; auto. rewrite Nat.eqb_refl. cbn [andb]. destruct (Nat.eqb_spec j c) as [->|]; ring.
    + apply Forall2_map_both. intros i Hi j Hj. rewrite E; auto; [|apply in_or_app; right; now right]. destruct (Nat.eqb_spec i r) as [->|]; [contradiction|]. reflexivity.
  - rewrite detR_row_add, map_app. cbn [map]. f_equal. rewrite detR_row_scale. f_equal. rewrite detR_front, map_length. cbn [detR].
    rewrite (spicks_at a c b (fun _ l => detR (map C p ++ map C q) l)) by auto. rewrite <- map_app. ring.
Qed.
Lemma slater_det : forall n m (C : nat -> nat -> K) sd, within m sd -> has_electrons sd n ->
  slater_overlap n m C sd = detR (map C (seq 0 n)) (occ_indices (Some sd)).
Proof.
  intros n m C sd W El. unfold slater_overlap. rewrite through_det, linsf_minors; [|apply increasing_seq|intros i Hi; unfold bit in Hi; rewrite N.bits_0 in Hi; discriminate]. rewrite map_length, seq_length.
  apply electrons_occ in El. pose proof (occ_indices_increasing (Some sd)) as Io.
  assert (Ea : adds 0 (occ_indices (Some sd)) = sd).
  { apply N.bits_inj. intros k. rewrite <- (N2Nat.id k). fold (bit (adds 0 (occ_indices (Some sd))) (N.to_nat k)). fold (bit sd (N.to_nat k)).
    rewrite adds_zero_bit by (now apply increasing_NoDup). apply eq_true_iff_eq. rewrite existsb_In, occ_indices_In. reflexivity. }
  rewrite (sumf_single _ _ (occ_indices (Some sd))).
  - rewrite Ea, N.eqb_refl. ring.
  - apply combinations_NoDup. apply seq_NoDup.
  - apply combinations_increasing_In; [apply increasing_seq|]. repeat split; auto. intros i Hi. apply occ_indices_In, W in Hi. apply in_seq. lia.
  - intros s Hs Ns. apply combinations_increasing_In in Hs as (Is & _ & _); [|apply increasing_seq]. destruct (N.eqb_spec (adds 0 s) sd) as [E|]; [|ring]. exfalso. apply Ns.
    apply increasing_ext; auto. intros i. rewrite occ_indices_In, <- E, adds_zero_bit by (now apply increasing_NoDup). now rewrite existsb_In.
Qed.

End L.
(** ** masks *)
Section F.
Context {K : CField}.
Local Open Scope cr_scope.
Add Ring K_ring110 : (rth K).
Lemma masked_map : forall {A} (g : A -> bool) (D : A -> K) l, masked (map g l) (map D l) = prodf D (filter g l).
Proof.
  intros A g D l. unfold masked. induction l as [|x l IH]; [reflexivity|]. cbn [map combine filter fst]. destruct (g x); cbn [prodf fold_right snd] in *; [|exact IH]. f_equal. exact IH.
Qed.
End F.
