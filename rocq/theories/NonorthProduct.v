(** Products of transformations and numbers of electrons of each spin, for C64 *)
From Coq Require Import List ZArith NArith Arith Bool Lia Permutation Sorted.
From Verif Require Import Py BitSpec BitLemmas Fock FockLemmas Combos Slater SlaterBits SlaterBits2 SignLemmas Alg MathTools PermLemmas DetLemmas OrbSpec OrbLemmas OrbMain WedgeLemmas
  Jacobi JacobiSpec Nonorth NonorthSpec NonorthLemmas NonorthMain NonorthValues.
Import ListNotations.
Section L.
Context {K : CRing}.
Local Open Scope cr_scope.
Add Ring K_ring96 : (rth K).
(** the overlaps with transformed determinants *)
Definition trans (cols : list nat) (C : nat -> nat -> K) (f : N -> K) (n : N) : K := linsf cols (map C (occ_indices (Some n))) f 0%N.
Lemma par_taken : forall n l1 r l2, bit n r = false -> occ_indices (Some (flip n r)) = l1 ++ r :: l2 -> (forall i, In i l1 -> (i < r)%nat) -> (forall i, In i l2 -> (r < i)%nat) ->
  sg (par n r) = m1pow (K := K) (length l1).
Proof.
  intros n l1 r l2 B E H1 H2. assert (P : par n r = par (flip n r) r) by (rewrite par_flip, Nat.ltb_irrefl, xorb_false_r; reflexivity).
  rewrite P. unfold par, nbelow. rewrite <- m1pow_odd. f_equal. f_equal. f_equal. apply increasing_ext.
  - apply increasing_filter, increasing_seq.
  - pose proof (occ_indices_increasing (Some (flip n r))) as I. rewrite E in I. now apply increasing_app in I.
  - intros i. rewrite filter_In, in_seq, <- occ_indices_In, E, in_app_iff. split.
    + intros [L [X|[X|X]]]; auto; [lia|apply H2 in X; lia].
    + intros X. split; [apply H1 in X; lia|now left].
Qed.
Lemma trans_cre : forall cols C (f : N -> K) k n, opf (Cre k) (trans cols C f) n = trans cols C (linf cols (C k) f) n.
Proof.
  intros cols C f k n. unfold trans at 2. change (linsf cols (map C (occ_indices (Some n))) (linf cols (C k) f) 0%N) with (linsf cols (C k :: map C (occ_indices (Some n))) f 0%N).
  unfold opf, Cre. cbn [fst snd]. destruct (bit n k) eqn:B; cbn [Bool.eqb].
  - apply occ_indices_In, in_split in B as (l1 & l2 & ->). rewrite map_app. cbn [map]. pose proof (linsf_twice cols [] (map C l1) (map C l2) (C k) f 0%N) as T. cbn [app] in T. now rewrite T.
  - assert (B' : bit (flip n k) k = true) by now rewrite bit_flip_eq, B. destruct (occ_taken _ _ B') as (l1 & l2 & Eo & Et & H1 & H2).
    rewrite annihilate_one, flip_flip in Et by auto. rewrite (par_taken n l1 k l2 B Eo H1 H2). unfold trans. rewrite Eo, Et, !map_app. cbn [map]. rewrite linsf_move, map_length.
    transitivity (m1pow (length l1) * m1pow (length l1) * linsf cols (C k :: map C l1 ++ map C l2) f 0%N); [ring|]. rewrite m1pow_sq. ring.
Qed.
Lemma linsf_sum : forall A cols rs (l : list A) (c : A -> K) (g : A -> N -> K) n, linsf cols rs (fun m => sumf (fun x => c x * g x m) l) n = sumf (fun x => c x * linsf cols rs (g x) n) l.
Proof.
  intros A cols rs l c g n. induction l as [|x l IH].
  - rewrite (linsf_ext cols rs _ (fun m => 0 * (fun _ => 0) m)) by (intros; cbn; ring). rewrite linsf_scale. cbn. ring.
  - rewrite (linsf_ext cols rs _ (fun m => c x * g x m + 1 * (fun m => sumf (fun x => c x * g x m) l) m)) by (intros; rewrite sumf_cons; ring).
    rewrite linsf_comb, IH, sumf_cons. change (fun m => g x m) with (g x). ring.
Qed.
Lemma linsf_product : forall mid cols (D C : nat -> nat -> K) rows (f : N -> K),
  linsf mid (map D rows) (trans cols C f) 0%N = linsf cols (map (fun i j => sumf (fun k => D i k * C k j) mid) rows) f 0%N.
Proof.
  intros mid cols D C rows. induction rows as [|r rows IH]; intros f.
  - cbn [map linsf]. unfold trans. reflexivity.
  - cbn [map linsf]. rewrite <- IH. apply linsf_ext. intros n. unfold linf at 1. rewrite (sumf_ext _ (fun j => D r j * trans cols C (linf cols (C j) f) n)) by (intros; now rewrite trans_cre).
    unfold trans. rewrite <- linsf_sum. apply linsf_ext. intros m. unfold linf.
    rewrite (sumf_ext _ (fun j => sumf (fun k => D r j * (C j k * opf (Cre k) f m)) cols)) by (intros; now rewrite sumf_mul_l).
    rewrite sumf_swap. apply sumf_ext. intros k _. rewrite <- sumf_mul_r. apply sumf_ext. intros; ring.
Qed.
(** products of block matrices *)
Lemma blocks_product : forall ns (a b a' b' : nat -> nat -> K) i j, (i < ns + ns)%nat -> (j < ns + ns)%nat ->
  sumf (fun k => blocks ns ns a b i k * blocks ns ns a' b' k j) (seq 0 (ns + ns)) =
  blocks ns ns (fun i j => sumf (fun k => a i k * a' k j) (seq 0 ns)) (fun i j => sumf (fun k => b i k * b' k j) (seq 0 ns)) i j.
Proof.
  intros ns a b a' b' i j Hi Hj. rewrite seq_app, sumf_app. cbn [Nat.add].
  rewrite <- (seq_shifted ns ns 0 : shifted ns (seq 0 ns) = seq ns ns). unfold shifted. rewrite sumf_map. unfold blocks.
  destruct (Nat.ltb_spec i ns) as [Li|Li].
  - rewrite (sumf_zero (fun x => (if Nat.ltb (x + ns) ns then a i (x + ns)%nat else 0) * _)) by (intros x _; rewrite (proj2 (Nat.ltb_ge (x + ns) ns)) by lia; ring).
    destruct (Nat.ltb_spec j ns) as [Lj|Lj].
    + rewrite (sumf_ext _ (fun k => a i k * a' k j)); [ring|]. intros k Hk. apply in_seq in Hk. now rewrite (proj2 (Nat.ltb_lt k ns)) by lia.
    + rewrite sumf_zero; [ring|]. intros k Hk. apply in_seq in Hk. rewrite (proj2 (Nat.ltb_lt k ns)) by lia. ring.
  - rewrite sumf_zero by (intros k Hk; apply in_seq in Hk; rewrite (proj2 (Nat.ltb_lt k ns)) by lia; ring).
    destruct (Nat.ltb_spec j ns) as [Lj|Lj].
    + rewrite sumf_zero; [ring|]. intros k Hk. rewrite (proj2 (Nat.ltb_ge (k + ns) ns)) by lia. ring.
    + rewrite (sumf_ext _ (fun k => b (i - ns)%nat k * b' k (j - ns)%nat)); [ring|]. intros k Hk. rewrite (proj2 (Nat.ltb_ge (k + ns) ns)) by lia. now rewrite Nat.add_sub.
Qed.
(** numbers of electrons *)
Lemma spin_counts : forall ns m ar br, NoDup ar -> NoDup br -> (forall i, In i ar -> (i < ns)%nat) -> (forall i, In i br -> (i < ns)%nat) ->
  (forall i, bit m i = true <-> In i (ar ++ shifted ns br)) -> alphas ns m = length ar /\ betas ns (ns + ns) m = length br.
Proof.
  intros ns m ar br Da Db Ha Hb B. unfold alphas, betas, nbelow. rewrite seq_app, filter_app, app_length. cbn [Nat.add].
  assert (A : length (filter (bit m) (seq 0 ns)) = length ar).
  { apply Permutation_length, NoDup_Permutation; auto; [apply NoDup_filter, seq_NoDup|]. intros i. rewrite filter_In, in_seq, B, in_app_iff, shifted_In. split.
    - intros [L [X|(j & _ & ->)]]; auto. lia.
    - intros X. split; [apply Ha in X; lia|now left]. }
  assert (A' : length (filter (bit m) (seq ns ns)) = length br).
  { rewrite <- (shifted_length ns br). apply Permutation_length, NoDup_Permutation; [apply NoDup_filter, seq_NoDup|now apply shifted_NoDup|]. intros i. rewrite filter_In, in_seq, B, in_app_iff, !shifted_In. split.
    - intros [L [X|X]]; auto. apply Ha in X. lia.
    - intros X. split; [|now right]. destruct X as (j & Hj & ->). apply Hb in Hj. lia. }
  split; [exact A|]. lia.
Qed.
Lemma block_sum_spin : forall ns (a b : nat -> nat -> K) ar br (f : N -> K),
  (forall m, within (ns + ns) m -> alphas ns m = length ar -> betas ns (ns + ns) m = length br -> f m = 0) -> block_sum ns a b ar br f = 0.
Proof.
  intros ns a b ar br f H. unfold block_sum. apply sumf_zero. intros s Hs. apply sumf_zero. intros u Hu.
  apply sub_perm in Hs as (Ds & Ls & Is); [|apply increasing_seq]. apply sub_perm in Hu as (Du & Lu & Iu); [|apply increasing_seq].
  assert (Bs : forall i, In i s -> (i < ns)%nat) by (intros i Hi; apply Is, in_seq in Hi; lia). assert (Bu : forall i, In i u -> (i < ns)%nat) by (intros i Hi; apply Iu, in_seq in Hi; lia).
  assert (D : NoDup (s ++ shifted ns u)) by now apply both_NoDup.
  destruct (spin_counts ns (adds 0 (s ++ shifted ns u)) s u Ds Du Bs Bu) as [A B]; [intros i; now rewrite adds_zero_bit, existsb_In|].
  rewrite H; [ring| |congruence|congruence]. apply adds_within; auto. intros i Hi. apply in_app_iff in Hi as [Hi|Hi]; [apply Bs in Hi; lia|]. apply shifted_In in Hi as (j & Hj & ->). apply Bu in Hj. lia.
Qed.
End L.
