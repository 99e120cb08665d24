(** Lemmas: the permutations of the creation coupled cluster wavefunction are the perfect matchings *)
From Coq Require Import List ZArith NArith Arith Bool Lia Permutation Sorted Ring_theory.
From Verif Require Import Py Slater BitSpec BitLemmas SlaterBits Combos Alg SdLemmas SignSpec SignLemmas PermLemmas MatchSpec MatchLemmas BicliqueLemmas GeneralLemmas
  Graphs WfnCI Geminal GemPairs CreSpec CreLemmas GemMain GemSchemes CCLemmas Creation CreationSpec.
Import ListNotations.
Local Open Scope nat_scope.

(** ** signs *)
Lemma sign_below_value : forall x t s, sign_below x t s = (s * pow_m1 (length (filter (fun b => (b <? x)%Z) t)))%Z.
Proof.
  intros x t. induction t as [|y t IH]; intros s; cbn [sign_below filter]; [cbn; lia|]. rewrite IH. destruct (y <? x)%Z; cbn [length]; auto.
  unfold pow_m1. rewrite Nat.odd_succ, <- Nat.negb_odd. destruct (Nat.odd _); cbn; lia.
Qed.
Lemma sign_loop_value : forall l s, sign_loop l s = (s * pow_m1 (inversions l))%Z.
Proof.
  induction l as [|x l IH]; intros s; cbn [sign_loop inversions]; [cbn; lia|]. rewrite IH, sign_below_value, pow_m1_add. lia.
Qed.
Lemma cr_sign_value : forall ps, cr_sign ps = pow_m1 (inversions (flat ps)).
Proof. intros ps. unfold cr_sign. rewrite <- pair_orbs_flat, sign_loop_value. unfold pair_orbs. lia. Qed.
Lemma inversions_map : forall (f : Z -> Z) l, (forall x y, In x l -> In y l -> (x < y)%Z -> (f x < f y)%Z) -> NoDup l -> inversions (map f l) = inversions l.
Proof.
  intros f l. induction l as [|x l IH]; intros M N; auto. cbn [map inversions]. inversion N; subst. rewrite IH; auto; [|intros; apply M; auto; now right]. f_equal.
  assert (X : forall t, incl t l -> length (filter (fun b => (b <? f x)%Z) (map f t)) = length (filter (fun b => (b <? x)%Z) t)).
  { induction t as [|y t It]; intros I; auto. cbn [map filter]. assert (Iy : In y l) by (apply I; now left). assert (D : x <> y) by (intros ->; auto).
    specialize (It ltac:(intros z Hz; apply I; now right)). destruct (Z.ltb_spec y x) as [L|L].
    - rewrite (proj2 (Z.ltb_lt _ _)) by (apply M; auto; [now right|now left]). cbn [length]. now rewrite It.
    - rewrite (proj2 (Z.ltb_ge _ _)); auto. apply Z.lt_le_incl, M; [now left|now right|lia]. }
  apply X. apply incl_refl.
Qed.
Lemma flat_map_pairs : forall (f : Z -> Z) ps, flat (map (fun p => (f (fst p), f (snd p))) ps) = map f (flat ps).
Proof. induction ps as [|[a b] ps IH]; cbn [map flat fst snd]; auto. now rewrite IH. Qed.
Lemma flatten_flat : forall ps, map Z.of_nat (flatten ps) = flat (zpairs ps).
Proof. induction ps as [|[a b] ps IH]; auto. cbn. unfold flatten, zpairs in *. cbn. now rewrite IH. Qed.

(** ** matchings of positions *)
Lemma index_pairs_In : forall l i j, In (i, j) (index_pairs l) -> In i l /\ In j l.
Proof.
  induction l as [|x l IH]; intros i j H; [destruct H|]. cbn [index_pairs] in H. apply in_app_iff in H as [H|H].
  - apply in_map_iff in H as (y & [= <- <-] & Hy). split; [now left|now right].
  - destruct (IH i j H). split; now right.
Qed.
Lemma index_pairs_seq : forall n s i j, In (i, j) (index_pairs (seq s n)) <-> s <= i < j /\ j < s + n.
Proof.
  induction n as [|n IH]; intros s i j; cbn [seq index_pairs]; [cbn; lia|]. rewrite in_app_iff, IH, in_map_iff. split.
  - intros [(y & [= <- <-] & Hy)|H]; [|lia]. apply in_seq in Hy. lia.
  - intros H. destruct (Nat.eq_dec i s) as [->|D]; [left; exists j; split; auto; apply in_seq; lia|right; lia].
Qed.
Lemma index_pairs_NoDup : forall l, NoDup l -> NoDup (index_pairs l).
Proof.
  induction l as [|x l IH]; intros N; cbn [index_pairs]; [constructor|]. inversion N; subst. apply NoDup_app_iff. split; [|split; auto].
  - apply FinFun.Injective_map_NoDup; auto. congruence.
  - intros [a b] H1' H2'. apply in_map_iff in H1' as (y & [= <- <-] & Hy). apply index_pairs_In in H2' as [? _]. auto.
Qed.
Lemma flatten_length : forall e, length (flatten e) = 2 * length e.
Proof. induction e as [|[a b] e IH]; auto. cbn [flatten flat_map app length]. unfold flatten in IH. rewrite IH. lia. Qed.
Lemma distinct_NoDup : forall l, distinct_count l = length l <-> NoDup l.
Proof.
  intros l. unfold distinct_count. split; intros H.
  - apply (@NoDup_incl_NoDup _ (nodup Nat.eq_dec l)); [apply NoDup_nodup|lia|]. intros x Hx. now apply nodup_In in Hx.
  - now rewrite nodup_fixed_point.
Qed.
Definition is_perm (h : nat) (e : list (nat * nat)) : Prop := subseq e (index_pairs (seq 0 (2 * h))) /\ length e = h /\ NoDup (flatten e).
Lemma perms_In : forall h e s, In (e, s) (cr_permutations (Z.of_nat (2 * h))) <-> is_perm h e /\ s = cr_sign (zpairs e).
Proof.
  intros h e s. unfold cr_permutations. rewrite Nat2Z.id, seq_length. replace (2 * h / 2) with h by (rewrite Nat.mul_comm; symmetry; apply Nat.div_mul; lia).
  rewrite in_flat_map. unfold is_perm. split.
  - intros (e' & He & H). apply combinations_In in He as [He Hl]. destruct (Nat.eqb_spec (distinct_count (flatten e')) (2 * h)) as [D|]; [|destruct H].
    destruct H as [[= <- <-]|[]]. repeat split; auto. apply distinct_NoDup. rewrite flatten_length. lia.
  - intros ((He & Hl & N) & ->). exists e. split; [now apply combinations_In|]. apply distinct_NoDup in N. rewrite flatten_length, Hl in N. rewrite N, Nat.eqb_refl. now left.
Qed.
Lemma perms_NoDup : forall h, NoDup (map fst (cr_permutations (Z.of_nat (2 * h)))).
Proof.
  intros h. unfold cr_permutations. set (L := combinations _ _). assert (N : NoDup L) by (apply combinations_NoDup, index_pairs_NoDup, seq_NoDup).
  induction L as [|e L IH]; cbn [flat_map map]; [constructor|]. inversion N; subst. rewrite map_app. destruct (Nat.eqb _ _); cbn [map app fst]; auto. constructor; auto.
  intros H. apply in_map_iff in H as ([e' s'] & E & H). cbn [fst] in E. subst e'. apply in_flat_map in H as (e' & He & H). destruct (Nat.eqb _ _); [|destruct H]. destruct H as [[= -> _]|[]]. auto.
Qed.
Lemma subseq_same : forall {A} (l a b : list A), NoDup l -> subseq a l -> subseq b l -> (forall x, In x a <-> In x b) -> a = b.
Proof.
  intros A l. induction l as [|x l IH]; intros a b N Ha Hb E.
  - inversion Ha; subst; inversion Hb; subst; auto.
  - inversion N as [|? ? Nx Nl]; subst. assert (In_l : forall c y, subseq c l -> In y c -> In y l) by (intros c y S I; apply (subseq_incl _ _ S y I)).
    inversion Ha as [?|? a' ? Sa|? a' ? Sa]; subst.
    + destruct b as [|z b]; auto. exfalso. apply (proj2 (E z)). now left.
    + inversion Hb as [?|? b' ? Sb|? b' ? Sb]; subst.
      * exfalso. apply (proj1 (E x)). now left.
      * f_equal. apply IH; auto. intros y. split; intros Hy.
        -- assert (D : y <> x) by (intros ->; apply Nx; eauto). destruct (proj1 (E y) (or_intror Hy)); [congruence|auto].
        -- assert (D : y <> x) by (intros ->; apply Nx; eauto). destruct (proj2 (E y) (or_intror Hy)); [congruence|auto].
      * exfalso. apply Nx, (In_l b); auto. apply E. now left.
    + inversion Hb as [?|? b' ? Sb|? b' ? Sb]; subst.
      * destruct a as [|z a]; auto. exfalso. apply (proj1 (E z)). now left.
      * exfalso. apply Nx, (In_l a); auto. apply E. now left.
      * now apply IH.
Qed.
