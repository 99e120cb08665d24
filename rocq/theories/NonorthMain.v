(** The overlaps as overlaps with transformed determinants, and their dependence on one parameter, for C64 *)
From Coq Require Import List ZArith NArith Arith Bool Lia Permutation Sorted.
From Verif Require Import Py BitSpec BitLemmas Fock FockLemmas Combos Slater SlaterBits SlaterBits2 SignLemmas Alg MathTools PermLemmas DetLemmas CILemmas Composite OrbSpec OrbLemmas OrbMain WedgeLemmas
  Jacobi JacobiSpec Nonorth NonorthSpec NonorthLemmas.
Import ListNotations.

Lemma ascending_increasing : forall rows, ascending rows -> increasing rows.
Proof.
  induction rows as [|k t IH]; intros H; [constructor|]. apply ascending_cons in H as [H1 H2]. constructor; auto. now apply Forall_forall.
Qed.
Lemma occupies_occ : forall sd rows, occupies sd rows -> rows = occ_indices (Some sd).
Proof.
  intros sd rows [H1 H2]. apply increasing_ext; [now apply ascending_increasing|apply occ_indices_increasing|]. intros i. now rewrite H1, occ_indices_In.
Qed.
Lemma occ_occupies : forall sd, occupies sd (occ_indices (Some sd)).
Proof.
  intros sd. split; [intros i; apply occ_indices_In|]. pose proof (occ_indices_increasing (Some sd)) as I. revert I. generalize (occ_indices (Some sd)) as l. clear. intros l I.
  induction I as [|x l I IH F]; intros a b L; [cbn in L; lia|]. rewrite Forall_forall in F. destruct b as [|b]; [lia|]. destruct a as [|a]; cbn [nth]; cbn [length] in L.
  - apply F, nth_In. lia.
  - apply IH. lia.
Qed.
Lemma shifted_increasing : forall k l, increasing l -> increasing (shifted k l).
Proof.
  intros k l H. induction H as [|x l H IH F]; [constructor|]. constructor; [exact IH|]. apply Forall_forall. intros y Hy. apply shifted_In in Hy as (j & Hj & ->). rewrite Forall_forall in F. specialize (F j Hj). lia.
Qed.
Lemma shifted_length : forall k l, length (shifted k l) = length l.
Proof. intros. apply map_length. Qed.
Lemma split_rows : forall sd nspin, (0 < nspin / 2)%Z -> let ns := Z.to_nat (nspin / 2) in
  exists al be, split_spin sd (nspin / 2) = Ok (al, be) /\ occ_indices (Some sd) = occ_indices (Some al) ++ shifted ns (occ_indices (Some be)) /\
    (forall i, In i (occ_indices (Some al)) <-> i < ns /\ bit sd i = true) /\ (forall i, In i (occ_indices (Some be)) <-> bit sd (i + ns) = true).
Proof.
  intros sd nspin H ns. destruct (split_spin_ok sd (nspin / 2) H) as (al & be & E & Ha & Hb). fold ns in Ha, Hb. exists al, be. split; [exact E|].
  assert (A : forall i, In i (occ_indices (Some al)) <-> i < ns /\ bit sd i = true) by (intros i; now rewrite occ_indices_In, Ha, andb_true_iff, Nat.ltb_lt).
  assert (B : forall i, In i (occ_indices (Some be)) <-> bit sd (i + ns) = true) by (intros i; now rewrite occ_indices_In, Hb).
  split; [|auto]. apply increasing_ext; [apply occ_indices_increasing| |].
  - apply increasing_app. split; [apply occ_indices_increasing|]. split; [apply shifted_increasing, occ_indices_increasing|].
    intros x y Hx Hy. apply A in Hx. apply shifted_In in Hy as (j & _ & ->). lia.
  - intros i. rewrite occ_indices_In, in_app_iff, A, shifted_In. split.
    + intros X. destruct (Nat.lt_ge_cases i ns); [now left|right]. exists (i - ns). rewrite B. now replace (i - ns + ns) with i by lia.
    + intros [[_ X]|(j & Hj & ->)]; auto. now apply B.
Qed.
(** an orbital taken out *)
Lemma occ_taken : forall n r, bit n r = true -> exists l1 l2, occ_indices (Some n) = l1 ++ r :: l2 /\ occ_indices (annihilate (Some n) [r]) = l1 ++ l2 /\
  (forall i, In i l1 -> i < r) /\ (forall i, In i l2 -> r < i).
Proof.
  intros n r B. assert (I : In r (occ_indices (Some n))) by now apply occ_indices_In. apply in_split in I as (l1 & l2 & E). exists l1, l2.
  pose proof (occ_indices_increasing (Some n)) as Inc. rewrite E in Inc. apply increasing_app in Inc as (I1 & I2 & I3). inversion I2 as [|? ? I4 I5]; subst. rewrite Forall_forall in I5.
  assert (L1 : forall i, In i l1 -> i < r) by (intros; apply I3; auto; now left).
  split; [exact E|]. split; [|auto]. rewrite annihilate_one by auto. apply increasing_ext; [apply occ_indices_increasing| |].
  - apply increasing_app. repeat split; auto. intros x y Hx Hy. apply L1 in Hx. apply I5 in Hy. lia.
  - intros i. rewrite occ_indices_In, bit_flip, <- (occ_indices_In n i) || rewrite occ_indices_In, bit_flip. destruct (Nat.eqb_spec r i) as [->|Hn].
    + rewrite B. cbn. split; [discriminate|]. intros X. apply in_app_iff in X as [X|X]; [apply L1 in X|apply I5 in X]; lia.
    + rewrite xorb_false_r. rewrite <- occ_indices_In, E, !in_app_iff. cbn [In]. split; intros [X|X]; auto; try (now right; right); destruct X; auto; congruence.
Qed.
Section L.
Context {K : CRing}.
Local Open Scope cr_scope.
Add Ring K_ring91 : (rth K).
Lemma below_taken : forall l1 l2 r, (forall i, In i l1 -> (i < r)%nat) -> (forall i, In i l2 -> (r < i)%nat) -> below_sign (K := K) (l1 ++ l2) r = m1pow (length l1).
Proof.
  intros l1 l2 r H1 H2. unfold below_sign. rewrite filter_app, app_length. replace (filter (fun i => Nat.ltb i r) l1) with l1; [replace (filter (fun i => Nat.ltb i r) l2) with (@nil nat); [f_equal; cbn; lia|]|].
  - symmetry. clear - H2. induction l2 as [|x l IH]; [reflexivity|]. cbn [filter]. rewrite (proj2 (Nat.ltb_ge x r)) by (specialize (H2 x (or_introl eq_refl)); lia). apply IH. intros; apply H2; now right.
  - symmetry. clear - H1. induction l1 as [|x l IH]; [reflexivity|]. cbn [filter]. rewrite (proj2 (Nat.ltb_lt x r)) by (apply H1; now left). f_equal. apply IH. intros; apply H1; now right.
Qed.
(** one entry of one row *)
Lemma linf_unit : forall cols c (f : N -> K) n, NoDup cols -> In c cols -> linf cols (fun j => if Nat.eqb j c then 1 else 0) f n = opf (Cre c) f n.
Proof.
  intros cols c f n D H. unfold linf. rewrite (sumf_single _ _ c); auto; [rewrite Nat.eqb_refl; ring|]. intros j _ Hj. rewrite (proj2 (Nat.eqb_neq j c)) by auto. ring.
Qed.
Lemma Forall2_map_in : forall {A B} (P : B -> B -> Prop) (g h : A -> B) l, (forall x, In x l -> P (g x) (h x)) -> Forall2 P (map g l) (map h l).
Proof. intros A B P g h l H. induction l as [|x l IH]; cbn; constructor; [apply H; now left|]. apply IH. intros; apply H; now right. Qed.
Lemma linsf_affine : forall cols (C C' : nat -> nat -> K) r c x l1 l2 (f : N -> K) n, NoDup cols -> In c cols -> ~ In r l1 -> ~ In r l2 ->
  (forall k j, In k (l1 ++ r :: l2) -> In j cols -> C' k j = if (Nat.eqb k r && Nat.eqb j c)%bool then x else C k j) ->
  linsf cols (map C' (l1 ++ r :: l2)) f n = linsf cols (map C (l1 ++ r :: l2)) f n + (x - C r c) * (m1pow (length l1) * linsf cols (map C (l1 ++ l2)) (opf (Cre c) f) n).
Proof.
  intros cols C C' r c x l1 l2 f n D Hc H1 H2 E. rewrite !map_app. cbn [map]. rewrite !linsf_move, !map_length. cbn [linsf].
  assert (Rest : Forall2 (fun s s' => forall j, In j cols -> s j = s' j) (map C' l1 ++ map C' l2) (map C l1 ++ map C l2)).
  { rewrite <- !map_app. apply Forall2_map_in. intros k Hk j Hj. rewrite E; auto.
    - rewrite (proj2 (Nat.eqb_neq k r)); [reflexivity|]. intros ->. apply in_app_iff in Hk. tauto.
    - apply in_app_iff in Hk as [?|?]; apply in_app_iff; [now left|right; now right]. }
  rewrite (linsf_rows cols _ _ _ n Rest).
  rewrite (linsf_ext cols _ (linf cols (C' r) f) (fun m => 1 * linf cols (C r) f m + (x - C r c) * opf (Cre c) f m)).
  - rewrite linsf_comb. change (fun m => linf cols (C r) f m) with (linf cols (C r) f). change (fun m => opf (Cre c) f m) with (opf (Cre c) f). ring.
  - intros m. rewrite (linf_row cols (C' r) (fun j => C r j + (x - C r c) * (if Nat.eqb j c then 1 else 0))).
    + rewrite linf_add, linf_unit by auto. ring.
    + intros j Hj. rewrite E by (auto; apply in_app_iff; right; now left). rewrite Nat.eqb_refl. cbn [andb]. destruct (Nat.eqb_spec j c) as [->|]; ring.
Qed.
(** the expansion of the overlap with a determinant of separately transformed spins *)
Definition block_sum (nc : nat) (a b : nat -> nat -> K) (ar br : list nat) (f : N -> K) : K :=
  sumf (fun s => sumf (fun u => detR (map a ar) s * detR (map b br) u * f (adds 0 (s ++ shifted nc u))) (combinations (seq 0 nc) (length br))) (combinations (seq 0 nc) (length ar)).
Lemma linsf_block_rows : forall ns (a b : nat -> nat -> K) ar br (f : N -> K), (forall i, In i ar -> (i < ns)%nat) ->
  linsf (seq 0 (ns + ns)) (map (blocks ns ns a b) (ar ++ shifted ns br)) f 0%N = block_sum ns a b ar br f.
Proof.
  intros ns a b ar br f H. rewrite map_app, linsf_blocks.
  - rewrite !map_length, shifted_length. unfold block_sum. apply sumf_ext. intros s Hs. apply sumf_ext. intros u Hu.
    apply sub_perm in Hs as (_ & _ & Hs); [|apply increasing_seq]. f_equal. f_equal.
    + apply detR_map_ext. intros i x Hi Hx. unfold blocks. rewrite (proj2 (Nat.ltb_lt i ns)) by auto. apply Hs, in_seq in Hx. rewrite (proj2 (Nat.ltb_lt x ns)) by lia. reflexivity.
    + unfold shifted. rewrite !map_map. apply detR_map_ext. intros i x Hi Hx. unfold blocks. rewrite (proj2 (Nat.ltb_ge (i + ns) ns)), (proj2 (Nat.ltb_ge (x + ns) ns)) by lia. now rewrite !Nat.add_sub.
  - intros r Hr j Hj. apply in_map_iff in Hr as (i & <- & Hi). unfold blocks. rewrite (proj2 (Nat.ltb_lt i ns)), (proj2 (Nat.ltb_ge j ns)) by auto. reflexivity.
  - intros r Hr j Hj. apply in_map_iff in Hr as (i & <- & Hi). apply shifted_In in Hi as (i' & _ & ->). unfold blocks. rewrite (proj2 (Nat.ltb_ge (i' + ns) ns)), (proj2 (Nat.ltb_lt j ns)) by lia. reflexivity.
Qed.
(** creation operators under the expansion *)
Lemma zero_bits : forall cols i, bit 0 i = true -> forall k, In k cols -> (k < i)%nat.
Proof. intros cols i B. unfold bit in B. now rewrite N.bits_0 in B. Qed.
Lemma opf_zero : forall s j (f : N -> K), NoDup s -> opf (Cre j) f (adds 0 s) = if existsb (Nat.eqb j) s then 0 else m1pow (length (filter (fun k => Nat.ltb k j) s)) * f (adds 0 (j :: s)).
Proof. intros s j f D. apply (opf_adds [j]); [now left|auto|apply zero_bits]. Qed.
Lemma filter_none : forall {A} (p : A -> bool) l, (forall x, In x l -> p x = false) -> filter p l = [].
Proof. intros A p l H. induction l as [|x l IH]; [reflexivity|]. cbn. rewrite H by now left. apply IH. intros; apply H; now right. Qed.
Lemma filter_whole : forall {A} (p : A -> bool) l, (forall x, In x l -> p x = true) -> filter p l = l.
Proof. intros A p l H. induction l as [|x l IH]; [reflexivity|]. cbn. rewrite H by now left. f_equal. apply IH. intros; apply H; now right. Qed.
Lemma block_sum_alpha : forall nc a b ar br c (f : N -> K), (c < nc)%nat ->
  block_sum nc a b ar br (opf (Cre c) f) =
  sumf (fun s => sumf (fun u => detR (map a ar) s * detR (map b br) u * (below_sign s c * f (adds 0 (s ++ shifted nc u ++ [c])))) (combinations (seq 0 nc) (length br))) (combinations (others nc c) (length ar)).
Proof.
  intros nc a b ar br c f Hc. unfold block_sum, others. rewrite <- sumf_without. apply sumf_ext. intros s Hs. apply sub_perm in Hs as (Ds & _ & Is); [|apply increasing_seq].
  destruct (existsb (Nat.eqb c) s) eqn:E.
  - apply sumf_zero. intros u Hu. apply sub_perm in Hu as (Du & _ & _); [|apply increasing_seq]. rewrite opf_zero by (apply both_NoDup; auto; intros i Hi; apply Is, in_seq in Hi; lia).
    rewrite existsb_app, E. cbn. ring.
  - apply sumf_ext. intros u Hu. apply sub_perm in Hu as (Du & _ & _); [|apply increasing_seq]. rewrite opf_zero by (apply both_NoDup; auto; intros i Hi; apply Is, in_seq in Hi; lia).
    rewrite existsb_app, E. cbn [orb]. replace (existsb (Nat.eqb c) (shifted nc u)) with false.
    + rewrite filter_app, (filter_none _ (shifted nc u)), app_nil_r; [|intros x Hx; apply shifted_In in Hx as (j & _ & ->); apply Nat.ltb_ge; lia].
      rewrite (adds_perm 0 (c :: s ++ shifted nc u) (s ++ shifted nc u ++ [c])); [reflexivity|]. rewrite app_assoc. apply Permutation_cons_append.
    + symmetry. apply not_true_is_false. intros X. apply existsb_In, shifted_In in X as (j & _ & X). lia.
Qed.
Lemma block_sum_beta : forall nc a b ar br c (f : N -> K), (c < nc)%nat ->
  block_sum nc a b ar br (opf (Cre (c + nc)) f) =
  sumf (fun s => sumf (fun u => detR (map a ar) s * detR (map b br) u * (m1pow (length ar) * below_sign u c * f (adds 0 (s ++ shifted nc u ++ [(c + nc)%nat])))) (combinations (others nc c) (length br))) (combinations (seq 0 nc) (length ar)).
Proof.
  intros nc a b ar br c f Hc. unfold block_sum, others. apply sumf_ext. intros s Hs. apply sub_perm in Hs as (Ds & Ls & Is); [|apply increasing_seq]. rewrite <- sumf_without.
  apply sumf_ext. intros u Hu. apply sub_perm in Hu as (Du & _ & _); [|apply increasing_seq]. rewrite opf_zero by (apply both_NoDup; auto; intros i Hi; apply Is, in_seq in Hi; lia).
  assert (X : existsb (Nat.eqb (c + nc)) (s ++ shifted nc u) = existsb (Nat.eqb c) u).
  { apply eq_true_iff_eq. rewrite !existsb_In, in_app_iff, shifted_In. split.
    - intros [X|(j & Hj & X)]; [apply Is, in_seq in X; lia|]. now replace c with j by lia.
    - intros X. right. eauto. }
  rewrite X. destruct (existsb (Nat.eqb c) u); [ring|].
  rewrite filter_app, (filter_whole _ s), app_length by (intros x Hx; apply Is, in_seq in Hx; apply Nat.ltb_lt; lia). rewrite Ls, m1pow_add.
  rewrite (adds_perm 0 ((c + nc)%nat :: s ++ shifted nc u) (s ++ shifted nc u ++ [(c + nc)%nat])) by (rewrite app_assoc; apply Permutation_cons_append).
  f_equal. f_equal. f_equal. unfold below_sign. f_equal. unfold shifted. clear. induction u as [|x u IH]; [reflexivity|]. cbn [map filter].
  replace (Nat.ltb (x + nc) (c + nc)) with (Nat.ltb x c); [destruct (Nat.ltb x c); cbn [length]; congruence|].
  apply eq_true_iff_eq. rewrite !Nat.ltb_lt. lia.
Qed.
End L.
