(** Property C65, second part: conversion of matrices, scaling, call histories and further findings *)
From Coq Require Import List ZArith NArith Arith Bool Lia Permutation Sorted Ring_theory.
From Verif Require Import Py Slater BitSpec BitLemmas SlaterBits Combos Alg MathTools SdLemmas PermSpec PermLemmas RyserLemmas BorchardtLemmas
  HamLemmas BicliqueLemmas BicliqueMain Graphs WfnCI CILemmas Geminal GemPairs GemSpec GemMain GemSchemes GemOlp GemWf GemFinal P_Permanent MpsLemmas EqnSpec EqnLemmas
  Cache CacheSpec CacheLemmas WfnCached P_Cache MatchSpec MatchLemmas P_CI P_Geminal Rank2 Rank2Spec Rank2Lemmas Rank2Main Rank2Values Rank2Ex P_Rank2.
Import ListNotations.
Local Open Scope nat_scope.

Section C65b.
Context {K : CField}.
Local Open Scope cr_scope.
Add Ring K_ring104 : (rth K).
Implicit Types (small : K -> bool) (lstsq : list (list K) -> list K -> list K) (far : K -> nat -> bool).
(** *** conversion *)
Lemma unit_length : forall n i (x : K), length (unit_row n i x) = n.
Proof. intros. unfold unit_row. now rewrite map_length, seq_length. Qed.
Lemma unit_nth : forall n i (x : K) k, (k < n)%nat -> nth k (unit_row n i x) 0 = if Nat.eqb k i then x else 0.
Proof.
  intros n i x k H. unfold unit_row. rewrite (nth_indep _ 0 ((fun k => if Nat.eqb k i then x else 0) 0%nat)) by now rewrite map_length, seq_length.
  rewrite (map_nth (fun k => if Nat.eqb k i then x else 0)), seq_nth by auto. reflexivity.
Qed.
Lemma row_length : forall ngem norb C i j, length (r2_row (K := K) ngem norb C i j) = (ngem + norb + norb)%nat.
Proof. intros. unfold r2_row. rewrite !app_length, !unit_length. lia. Qed.
Lemma sumf_seq_split : forall (f : nat -> K) a b, sumf f (seq 0 (a + b)) = sumf f (seq 0 a) + sumf (fun k => f (a + k)%nat) (seq 0 b).
Proof.
  intros f a b. rewrite seq_app, sumf_app. f_equal. cbn [plus]. replace (seq a b) with (map (fun k => (a + k)%nat) (seq 0 b)); [now rewrite sumf_map|].
  clear f. assert (X : forall s, map (fun k => (a + k)%nat) (seq s b) = seq (a + s) b).
  { induction b as [|b IH]; intros s; cbn [seq map]; auto. f_equal. rewrite IH. f_equal. lia. }
  rewrite X. now rewrite Nat.add_0_r.
Qed.
Lemma unit_dot : forall n i (x : K) (g : nat -> K), (i < n)%nat -> sumf (fun k => nth k (unit_row n i x) 0 * g k) (seq 0 n) = x * g i.
Proof.
  intros n i x g H. rewrite (sumf_single _ _ i).
  - rewrite unit_nth, Nat.eqb_refl by auto. reflexivity.
  - apply seq_NoDup.
  - apply in_seq. lia.
  - intros k Hk D. apply in_seq in Hk. rewrite unit_nth by lia. rewrite (proj2 (Nat.eqb_neq k i)) by auto. ring.
Qed.
Lemma dot_row : forall ngem norb C i j (x : list K), (i < ngem)%nat -> (j < norb)%nat ->
  dot (ngem + norb + norb) (r2_row ngem norb C i j) x = zet ngem norb x j - entry C norb i j * (lam x i - eps ngem x j).
Proof.
  intros ngem norb C i j x Hi Hj. unfold dot, r2_row. rewrite <- Nat.add_assoc, !sumf_seq_split.
  rewrite (sumf_ext _ (fun k => nth k (unit_row ngem i (- entry C norb i j)) 0 * lam x k)).
  2:{ intros k Hk. apply in_seq in Hk. rewrite app_nth1 by (rewrite unit_length; lia). reflexivity. }
  rewrite unit_dot by auto.
  rewrite (sumf_ext (fun k => nth (ngem + k) _ 0 * _) (fun k => nth k (unit_row norb j (entry C norb i j)) 0 * eps ngem x k)).
  2:{ intros k Hk. apply in_seq in Hk. rewrite app_nth2 by (rewrite unit_length; lia). rewrite unit_length. replace (ngem + k - ngem)%nat with k by lia. rewrite app_nth1 by (rewrite unit_length; lia). reflexivity. }
  rewrite unit_dot by auto.
  rewrite (sumf_ext (fun k => nth (ngem + (norb + k)) _ 0 * _) (fun k => nth k (unit_row norb j 1) 0 * zet ngem norb x k)).
  2:{ intros k Hk. apply in_seq in Hk. rewrite app_nth2 by (rewrite unit_length; lia). rewrite unit_length. replace (ngem + (norb + k) - ngem)%nat with (norb + k)%nat by lia.
      rewrite app_nth2 by (rewrite unit_length; lia). rewrite unit_length. replace (norb + k - norb)%nat with k by lia. unfold zet. now rewrite Nat.add_assoc. }
  rewrite unit_dot by auto. ring.
Qed.
Lemma nth_insert : forall p (x : K) l k, (p <= length l)%nat -> nth k (insert_at p x l) 0 = if Nat.ltb k p then nth k l 0 else if Nat.eqb k p then x else nth (k - 1) l 0.
Proof.
  intros p x l k H. unfold insert_at. assert (L : length (firstn p l) = p) by (rewrite firstn_length; lia).
  destruct (Nat.ltb_spec k p).
  - rewrite app_nth1 by lia. now apply nth_firstn'.
  - rewrite app_nth2 by lia. rewrite L. destruct (Nat.eqb_spec k p) as [->|D]; [now rewrite Nat.sub_diag|].
    destruct (k - p)%nat as [|q] eqn:Eq; [lia|]. cbn [nth]. rewrite nth_skipn'. f_equal. lia.
Qed.
Lemma nth_without_at : forall p (l : list K) k, (p < length l)%nat -> nth k (without_at p l) 0 = if Nat.ltb k p then nth k l 0 else nth (S k) l 0.
Proof.
  intros p l k H. unfold without_at. assert (L : length (firstn p l) = p) by (rewrite firstn_length; lia).
  destruct (Nat.ltb_spec k p).
  - rewrite app_nth1 by lia. now apply nth_firstn'.
  - rewrite app_nth2 by lia. rewrite L, nth_skipn'. f_equal. lia.
Qed.
Lemma insert_length : forall p (x : K) l, (p <= length l)%nat -> length (insert_at p x l) = S (length l).
Proof. intros p x l H. unfold insert_at. rewrite app_length, firstn_length. cbn [length]. rewrite skipn_length. lia. Qed.
Lemma without_at_length : forall p (l : list K), (p < length l)%nat -> S (length (without_at p l)) = length l.
Proof. intros p l H. unfold without_at. rewrite app_length, firstn_length, skipn_length. lia. Qed.
Lemma dot_insert : forall a b (r y : list K), length r = S (a + b) -> length y = (a + b)%nat ->
  dot (S (a + b)) r (insert_at a 1 y) = dot (a + b) (without_at a r) y + nth a r 0.
Proof.
  intros a b r y Lr Ly. unfold dot. replace (S (a + b)) with (a + (1 + b))%nat by lia. rewrite !sumf_seq_split. cbn [seq]. rewrite sumf_cons. cbn [sumf fold_right].
  rewrite (sumf_ext _ (fun k => nth k (without_at a r) 0 * nth k y 0) (seq 0 a)).
  2:{ intros k Hk. apply in_seq in Hk. rewrite nth_insert, nth_without_at by lia. rewrite (proj2 (Nat.ltb_lt k a)) by lia. reflexivity. }
  rewrite (sumf_ext (fun k => nth (a + (1 + k)) r 0 * _) (fun k => nth (a + k) (without_at a r) 0 * nth (a + k) y 0) (seq 0 b)).
  2:{ intros k Hk. rewrite nth_insert, nth_without_at by lia. rewrite (proj2 (Nat.ltb_ge (a + (1 + k)) a)), (proj2 (Nat.eqb_neq (a + (1 + k)) a)), (proj2 (Nat.ltb_ge (a + k) a)) by lia.
      replace (a + (1 + k) - 1)%nat with (a + k)%nat by lia. now replace (a + (1 + k))%nat with (S (a + k)) by lia. }
  rewrite nth_insert by lia. rewrite (proj2 (Nat.ltb_ge (a + 0) a)) by lia. rewrite Nat.add_0_r, Nat.eqb_refl. ring.
Qed.
Lemma matrix_In : forall ngem norb C (r : list K), In r (r2_matrix ngem norb C) <-> exists i j, (i < ngem)%nat /\ (j < norb)%nat /\ r = r2_row ngem norb C i j.
Proof.
  intros ngem norb C r. unfold r2_matrix. rewrite in_flat_map. split.
  - intros (i & Hi & Hr). apply in_map_iff in Hr as (j & <- & Hj). apply in_seq in Hi, Hj. exists i, j. repeat split; auto; lia.
  - intros (i & j & Hi & Hj & ->). exists i. split; [apply in_seq; lia|]. apply in_map, in_seq. lia.
Qed.
Lemma combine_map_In : forall {A B C} (f : A -> B) (g : A -> C) l x y, In (x, y) (combine (map f l) (map g l)) <-> exists a, In a l /\ x = f a /\ y = g a.
Proof.
  intros A B C f g l x y. induction l as [|a l IH]; cbn [map combine].
  - split; [intros []|intros (a & [] & _)].
  - split.
    + intros [[= <- <-]|H]; [exists a; split; [now left|auto]|]. apply IH in H as (b & Hb & H). exists b. split; [now right|auto].
    + intros (b & [->|Hb] & -> & ->); [now left|]. right. apply IH. eauto.
Qed.
Lemma system_iff : forall ngem norb C (y : list K), (0 < norb)%nat ->
  solves (ngem + norb + norb - 1) (map (without_at (ngem + norb)) (r2_matrix ngem norb C)) (map (fun row => - (nth (ngem + norb) row 0 * 1)) (r2_matrix ngem norb C)) y <->
  length y = (ngem + norb + norb - 1)%nat /\ let q := insert_at (ngem + norb) 1 y in
    forall i j, (i < ngem)%nat -> (j < norb)%nat -> zet ngem norb q j = entry C norb i j * (lam q i - eps ngem q j).
Proof.
  intros ngem norb C y Hn. unfold solves. split; intros [Ly H]; (split; [exact Ly|]).
  - set (q := insert_at (ngem + norb) 1 y). cbv zeta. intros i j Hi Hj. pose proof (dot_row ngem norb C i j q Hi Hj) as D.
    pose proof (dot_insert (ngem + norb) (norb - 1) (r2_row ngem norb C i j) y) as D2. rewrite row_length in D2. specialize (D2 ltac:(lia) ltac:(lia)).
    replace (S (ngem + norb + (norb - 1))) with (ngem + norb + norb)%nat in D2 by lia. replace (ngem + norb + (norb - 1))%nat with (ngem + norb + norb - 1)%nat in D2 by lia.
    fold q in D2. rewrite D in D2. rewrite (H (without_at (ngem + norb) (r2_row ngem norb C i j)) (- (nth (ngem + norb) (r2_row ngem norb C i j) 0 * 1))) in D2.
    + transitivity (zet ngem norb q j - entry C norb i j * (lam q i - eps ngem q j) + entry C norb i j * (lam q i - eps ngem q j)); [ring|]. rewrite D2. ring.
    + apply combine_map_In. exists (r2_row ngem norb C i j). split; auto. apply matrix_In. eauto.
  - intros r v Hr. apply combine_map_In in Hr as (row & Hrow & -> & ->). apply matrix_In in Hrow as (i & j & Hi & Hj & ->).
    pose proof (dot_row ngem norb C i j (insert_at (ngem + norb) 1 y) Hi Hj) as D.
    pose proof (dot_insert (ngem + norb) (norb - 1) (r2_row ngem norb C i j) y) as D2. rewrite row_length in D2. specialize (D2 ltac:(lia) ltac:(lia)).
    replace (S (ngem + norb + (norb - 1))) with (ngem + norb + norb)%nat in D2 by lia. replace (ngem + norb + (norb - 1))%nat with (ngem + norb + norb - 1)%nat in D2 by lia.
    rewrite D in D2. cbn zeta in H. rewrite (H i j Hi Hj) in D2. set (d := dot _ _ y) in *. set (n := nth (ngem + norb) (r2_row ngem norb C i j) 0) in *.
    transitivity (d + n - n); [ring|]. rewrite <- D2. ring.
Qed.
(** full_to_rank2 recovers a matrix that has rank two: the equations it solves have a solution, every solution satisfies
    zeta_j = C_ij (lambda_i - epsilon_j) with zeta_0 = 1, and it is accepted when its denominators are not zero. *)
Theorem C65_convert : forall lstsq far ngem norb C p0, (0 < ngem)%nat -> (0 < norb)%nat -> far 0 (ngem * norb)%nat = false ->
  (forall n A b, A <> [] -> (forall r, In r A -> length r = n) -> (exists x, solves n A b x) -> solves n A b (lstsq A b)) ->
  has_rank2 ngem norb C p0 -> (forall i j, (i < ngem)%nat -> (j < norb)%nat -> lam p0 i <> eps ngem p0 j) -> zet ngem norb p0 0 <> 0 ->
  length p0 = (ngem + norb + norb)%nat ->
  let q := r2_solve lstsq ngem norb C in
  length q = (ngem + norb + norb)%nat /\ zet ngem norb q 0 = 1 /\
  (forall i j, (i < ngem)%nat -> (j < norb)%nat -> zet ngem norb q j = nth (i * norb + j)%nat C 0 * (lam q i - eps ngem q j)) /\
  ((forall i j, (i < ngem)%nat -> (j < norb)%nat -> lam q i <> eps ngem q j) -> full_to_rank2 lstsq far ngem norb C = Ok q /\ has_rank2 ngem norb C q).
Proof.
  intros lstsq far ngem norb C p0 Hg Hn F0 Ls R0 D0 Z0 L0 q.
  assert (Sub : forall a b : K, a <> b -> a - b <> 0). { intros a b H E. apply H. transitivity (a - b + b); [ring|rewrite E; ring]. }
  (* a solution *)
  set (c := finv (zet ngem norb p0 0)). set (p1 := map (fun x => c * x) p0).
  assert (N1 : forall k, nth k p1 0 = c * nth k p0 0).
  { intros k. unfold p1. destruct (le_lt_dec (length p0) k) as [H|H]; [rewrite !nth_overflow; [ring|auto|now rewrite map_length]|].
    rewrite (nth_indep _ 0 (c * 0)) by now rewrite map_length. apply (map_nth (fun x => c * x)). }
  assert (L1 : length p1 = (ngem + norb + norb)%nat) by (unfold p1; now rewrite map_length).
  set (y0 := without_at (ngem + norb) p1).
  assert (Ly : length y0 = (ngem + norb + norb - 1)%nat) by (pose proof (without_at_length (ngem + norb) p1 ltac:(lia)) as X0; fold y0 in X0; lia).
  assert (V0 : forall k, nth k (insert_at (ngem + norb) 1 y0) 0 = nth k p1 0).
  { intros k. rewrite nth_insert by lia. unfold y0. destruct (Nat.ltb_spec k (ngem + norb)); [rewrite nth_without_at by lia; rewrite (proj2 (Nat.ltb_lt _ _)) by auto; reflexivity|].
    destruct (Nat.eqb_spec k (ngem + norb)) as [->|].
    - rewrite N1. unfold c, zet. rewrite Nat.add_0_r. symmetry. apply f_inv. unfold zet in Z0. now rewrite Nat.add_0_r in Z0.
    - rewrite nth_without_at by lia. rewrite (proj2 (Nat.ltb_ge _ _)) by lia. f_equal. lia. }
  assert (Sy : solves (ngem + norb + norb - 1) (map (without_at (ngem + norb)) (r2_matrix ngem norb C)) (map (fun row => - (nth (ngem + norb) row 0 * 1)) (r2_matrix ngem norb C)) y0).
  { apply system_iff; auto. split; auto. cbv zeta. intros i j Hi Hj. unfold zet, lam, eps. rewrite !V0, !N1. unfold entry. rewrite (R0 i j Hi Hj). unfold rank2.
    fold (zet ngem norb p0 j). fold (lam p0 i). fold (eps ngem p0 j). set (d := lam p0 i - eps ngem p0 j). assert (Nd : d <> 0) by (apply Sub; auto).
    transitivity (c * zet ngem norb p0 j * (finv d * d)); [rewrite f_inv by auto; ring|unfold d; ring]. }
  assert (Sq := Ls (ngem + norb + norb - 1)%nat (map (without_at (ngem + norb)) (r2_matrix ngem norb C)) (map (fun row => - (nth (ngem + norb) row 0 * 1)) (r2_matrix ngem norb C))).
  assert (Ne : map (without_at (ngem + norb)) (r2_matrix ngem norb C) <> []).
  { intros X. apply map_eq_nil in X. assert (I : In (r2_row ngem norb C 0 0) (r2_matrix ngem norb C)) by (apply matrix_In; exists 0%nat, 0%nat; auto). rewrite X in I. destruct I. }
  specialize (Sq Ne).
  assert (Len : forall r, In r (map (without_at (ngem + norb)) (r2_matrix ngem norb C)) -> length r = (ngem + norb + norb - 1)%nat).
  { intros r Hr. apply in_map_iff in Hr as (row & <- & Hrow). apply matrix_In in Hrow as (i & j & _ & _ & ->). pose proof (without_at_length (ngem + norb) (r2_row ngem norb C i j)) as X. rewrite row_length in X. lia. }
  specialize (Sq Len (ex_intro _ y0 Sy)). apply system_iff in Sq; auto. cbn zeta in Sq. destruct Sq as [Lq Vq].
  change (insert_at (ngem + norb) 1 (lstsq (map (without_at (ngem + norb)) (r2_matrix ngem norb C)) (map (fun row => - (nth (ngem + norb) row 0 * 1)) (r2_matrix ngem norb C)))) with q in Vq.
  split; [unfold q, r2_solve; rewrite insert_length by lia; lia|]. split.
  { unfold zet, q, r2_solve. rewrite nth_insert by lia. rewrite (proj2 (Nat.ltb_ge _ _)) by lia. rewrite Nat.add_0_r, Nat.eqb_refl. reflexivity. }
  split; [exact Vq|]. intros Dq.
  assert (R : has_rank2 ngem norb C q).
  { intros i j Hi Hj. unfold rank2. rewrite (Vq i j Hi Hj). unfold entry. set (d := lam q i - eps ngem q j). assert (Nd : d <> 0) by (apply Sub; auto).
    transitivity (nth (i * norb + j)%nat C 0 * (finv d * d)); [rewrite f_inv by auto; ring|ring]. }
  split; [|exact R]. unfold full_to_rank2. fold q. replace (r2_deviation ngem norb C q) with (0 : K); [now rewrite F0|]. symmetry. unfold r2_deviation. rewrite psum_sumf.
  apply sumf_zero. intros [i j] Hij. apply in_prod_iff in Hij as [Hi Hj]. apply in_seq in Hi, Hj. cbn [fst snd].
  pose proof (R i j ltac:(lia) ltac:(lia)) as X. unfold rank2, zet, lam, eps in X. unfold entry. rewrite X. ring.
Qed.

(** *** scaling *)
Definition scaled (c : K) (l : list K) : list K := map (fun x => x * c) l.
Lemma scaled_nth : forall c l k, nth k (scaled c l) 0 = nth k l 0 * c.
Proof.
  intros c l k. unfold scaled. destruct (le_lt_dec (length l) k) as [H|H]; [rewrite !nth_overflow; [ring|auto|now rewrite map_length]|].
  rewrite (nth_indep _ 0 (0 * c)) by now rewrite map_length. apply (map_nth (fun x => x * c)).
Qed.
Lemma mul_reg : forall a b c : K, c <> 0 -> a * c = b * c -> a = b.
Proof. intros a b c Hc E. transitivity (a * c * finv c). { transitivity (a * (finv c * c)); [rewrite f_inv by auto; ring|ring]. } rewrite E. transitivity (b * (finv c * c)); [ring|rewrite f_inv by auto; ring]. Qed.
Lemma scaled_admissible : forall ngem norb p c, c <> 0 -> admissible ngem norb p -> admissible ngem norb (scaled c p).
Proof.
  intros ngem norb p c Hc A. constructor.
  - unfold scaled. rewrite map_length. apply A.
  - intros i i' Hi Hi'. unfold lam. rewrite !scaled_nth. intros E. apply mul_reg in E; auto. now apply (ad_lam _ _ _ A).
  - intros i i' Hi Hi'. unfold eps. rewrite !scaled_nth. intros E. apply mul_reg in E; auto. now apply (ad_eps _ _ _ A).
  - intros i j Hi Hj. unfold lam, eps. rewrite !scaled_nth. intros E. apply mul_reg in E; auto. now apply (ad_diff _ _ _ A i j).
Qed.
Lemma mul_nz : forall a b : K, a <> 0 -> b <> 0 -> a * b <> 0.
Proof. intros a b Ha Hb E. apply Ha. apply (mul_reg a 0 b Hb). rewrite E. ring. Qed.
Lemma scaled_rank2 : forall ngem norb p c i j, c <> 0 -> lam p i <> eps ngem p j -> rank2 ngem norb (scaled c p) i j = rank2 ngem norb p i j.
Proof.
  intros ngem norb p c i j Hc D. unfold rank2, zet, lam, eps. rewrite !scaled_nth. fold (lam p i) (eps ngem p j) (zet ngem norb p j).
  assert (Nd : lam p i - eps ngem p j <> 0). { intros E. apply D. transitivity (lam p i - eps ngem p j + eps ngem p j); [ring|rewrite E; ring]. }
  set (d := lam p i - eps ngem p j) in *. replace (lam p i * c - eps ngem p j * c) with (d * c) by (unfold d; ring).
  apply (mul_reg _ _ (d * c)); [now apply mul_nz|].
  transitivity (zet ngem norb p j * c * (finv (d * c) * (d * c))); [ring|]. rewrite f_inv by now apply mul_nz.
  transitivity (zet ngem norb p j * c * (finv d * d)); [rewrite f_inv by auto; ring|ring].
Qed.
(** Multiplying all parameters by a number does not change any overlap, so that normalize, which does just that, never
    changes the norm of the wavefunction. *)
Theorem C65_normalize_refuted : forall small lstsq far nelec nspin ngem o ps (w w' : gem K) power pspace os, char_zero K ->
  new_r2 small lstsq far nelec nspin ngem o ps = Ok w -> admissible (gm_ngem w) (norbpair w) (gm_params w) ->
  mapM (r2_overlap w) pspace = Ok os -> power (sumf (fun x => x * x) os) <> 0 ->
  r2_normalize small lstsq far power w pspace = Ok w' -> forall sd, r2_overlap w' sd = r2_overlap w sd.
Proof.
  intros small lstsq far nelec nspin ngem o ps w w' power pspace os Ch E A Eo Np EN sd. destruct (new_r2_inv _ _ _ _ _ _ _ _ _ E) as (_ & _ & _ & _ & G).
  pose proof (new_gem_wf _ _ _ _ _ _ _ G) as W. unfold r2_normalize in EN. rewrite Eo in EN. cbn [bind] in EN. rewrite psum_sumf in EN. set (c := power (sumf (fun x => x * x) os)) in *.
  change (map (fun x => x * c) (gm_params w)) with (scaled c (gm_params w)) in EN.
  change (r2_assign small lstsq far w (RArray (scaled c (gm_params w)))) with (with_params2 w (scaled c (gm_params w)), if r2_singular small (with_params2 w (scaled c (gm_params w))) then Err ValueError else Ok tt) in EN.
  cbv beta iota in EN. destruct (r2_singular small _); [discriminate|]. cbn [bind] in EN. injection EN as <-.
  set (w2 := with_params2 w (scaled c (gm_params w))). unfold r2_overlap. change (gem_schemes w2 sd) with (gem_schemes w sd).
  destruct (gem_schemes w sd) as [L|] eqn:Es; [|reflexivity]. cbn [bind].
  pose proof (scheme_facts _ _ _ _ _ _ (full w) sd L G Es) as SF. assert (NL : nice_list L) by (intros q Hq; destruct (SF q Hq) as (S1 & S2 & _); auto). clear SF Es.
  generalize (0 : K) as v. induction L as [|[ps' s] L IH]; intros v; cbn [r2_olp_loop]; auto.
  assert (NL' : nice_list L) by (intros q Hq; apply NL; now right). destruct (NL _ (or_introl eq_refl)) as [N S]. cbn [fst] in *.
  destruct ps' as [|p0 ps']; [now apply IH|]. change (cols_of w2 (p0 :: ps')) with (cols_of w (p0 :: ps')). destruct (cols_of w (p0 :: ps')) as [cols|] eqn:Ec; [|reflexivity]. cbn [bind].
  destruct (scheme_cols w W _ _ S N Ec) as (Hc & Lc & _). assert (Nc : cols <> []) by (destruct cols; [discriminate|congruence]).
  assert (W2 : wf_gem (full w2)) by (constructor; try apply W; cbn; apply full_length).
  rewrite (compute_none w W A cols Hc Nc), (compute_none w2 W2 (scaled_admissible _ _ _ c Np A) cols Hc Nc). cbn [bind].
  change (gm_ngem w2) with (gm_ngem w). change (norbpair w2) with (norbpair w). change (gm_params w2) with (scaled c (gm_params w)).
  rewrite (pm_ext (rank2 (gm_ngem w) (norbpair w) (scaled c (gm_params w))) (rank2 (gm_ngem w) (norbpair w) (gm_params w))); [now apply IH|].
  intros i j Hi Hj. apply scaled_rank2; auto. apply (ad_diff _ _ _ A); [apply in_seq in Hi; lia|now apply Hc].
Qed.

(** *** lengths *)
(** The length of the array is not checked: an array without epsilons and zetas is accepted, and no determinant then has an
    overlap other than zero. *)
Theorem C65_length_refuted : forall small lstsq far nelec nspin ngem o ps (w0 : gem K) l, new_r2 small lstsq far nelec nspin ngem o ps = Ok w0 -> (length l <= gm_ngem w0)%nat ->
  exists w, new_r2 small lstsq far nelec nspin ngem o (RArray l) = Ok w /\ gm_params w = l /\ forall sd v, r2_overlap w sd = Ok v -> v = 0.
Proof.
  intros small lstsq far nelec nspin ngem o ps w0 l E Ll. exists (with_params2 w0 l).
  assert (Ne : r2_epsilons (with_params2 w0 l) = []). { unfold r2_epsilons. cbn [with_params2 gm_ngem gm_params]. rewrite skipn_all2 by auto. apply firstn_nil. }
  split; [|split; [reflexivity|]].
  - unfold new_r2 in *. destruct (gem_assign_nelec nelec) as [ne|]; [|discriminate]. cbn [bind] in *. destruct (assign_nspin nspin) as [ns|]; [|discriminate]. cbn [bind] in *.
    destruct (gem_assign_ngem ne ngem) as [ng|]; [|discriminate]. cbn [bind] in *. destruct (assign_orbpairs GAPIG ns o) as [pr|]; [|discriminate]. cbn [bind] in *.
    unfold r2_assign in *. destruct (r2_given lstsq far _ ps) as [l0|]; [|discriminate]. cbn [bind r2_given] in *. destruct (r2_singular small (with_params2 (mkgem GAPIG ne ns ng pr []) l0)); [discriminate|]. cbn [bind] in E. injection E as <-.
    assert (X : r2_singular small (with_params2 (mkgem GAPIG ne ns ng pr []) l) = false).
    { unfold r2_singular. change (r2_epsilons (with_params2 (mkgem GAPIG ne ns ng pr []) l)) with (r2_epsilons (with_params2 (with_params2 (mkgem GAPIG ne ns ng pr []) l0) l)). rewrite Ne.
      induction (r2_lambdas (with_params2 (mkgem GAPIG ne ns ng pr []) l)) as [|x t IH]; auto. }
    rewrite X. reflexivity.
  - intros sd v Ev. set (w := with_params2 w0 l) in *. unfold r2_overlap in Ev. destruct (gem_schemes w sd) as [L|]; [|discriminate]. cbn [bind] in Ev.
    assert (X : forall val, r2_olp_loop w L val = Ok v -> v = val).
    { clear Ev. induction L as [|[q s] L IH]; intros val Ev; cbn [r2_olp_loop] in Ev; [now injection Ev|]. destruct q as [|q1 q]; [auto|].
      unfold cols_of in Ev. cbn [mapM] in Ev. destruct (do c <- col_ind w q1; Ok (Z.to_nat c)) as [c|]; [|discriminate]. cbn [bind] in Ev.
      destruct (mapM _ q) as [cs|]; [|discriminate]. cbn [bind] in Ev. exfalso. unfold r2_compute, r2_perm in Ev. destruct (pick (r2_lambdas w) _); [|discriminate]. cbn [bind] in Ev.
      rewrite Ne in Ev. cbn in Ev. destruct c; discriminate. }
    now apply X.
Qed.
(** *** call histories *)
Lemma r2_step_shape : forall small lstsq far (w : gem K) (o : r2_object) e a o' l, (forall q, e <> ESet q) -> o_cfg o = with_params2 w l ->
  r2_step small lstsq far o e = (a, o') -> exists l', o_cfg o' = with_params2 w l'.
Proof.
  intros small lstsq far w o e a o' l Ns Ho E. unfold r2_step in E. destruct e as [ar|ps|q|key|d].
  - cbn [step] in E. destruct (exec _ _ _ _ o (r2_get (o_cfg o) ar)) as [r o2] eqn:Ex. injection E as <- <-. exists l. rewrite <- Ho.
    unfold r2_get in Ex. destruct (snd ar); cbn [exec] in Ex; destruct (call _ _ _ _) as [v ls]; destruct v; cbn [exec] in Ex; injection Ex as _ <-; reflexivity.
  - unfold r2_assign in E. destruct (r2_given lstsq far (o_cfg o) ps) as [l0|] eqn:Eg; [|injection E as _ <-; eauto].
    destruct (r2_singular small (with_params2 (o_cfg o) l0)) eqn:Es; [injection E as _ <-; exists l0; cbn [o_cfg]; rewrite Ho; reflexivity|].
    cbn [step] in E. unfold r2_set_params, r2_assign in E. rewrite Eg, Es in E. cbn [bind] in E. unfold clear_cache in E. cbn [o_fns] in E.
    destruct (o_fns o); injection E as _ <-; exists l0; cbn [o_cfg]; rewrite Ho; reflexivity.
  - exfalso. eapply Ns; reflexivity.
  - cbn [step] in E. destruct (clear_cache o key) as [o2|] eqn:Ec; injection E as _ <-; [|eauto]. exists l. rewrite <- Ho. unfold clear_cache in Ec.
    destruct (o_fns o) as [d|], key as [[| |]|]; try (injection Ec as <-; reflexivity); try discriminate. destruct d; [injection Ec as <-; reflexivity|discriminate].
  - cbn [step] in E. injection E as _ <-. exists l. exact Ho.
Qed.
Lemma given_shape : forall lstsq far (w : gem K) l ps, r2_given lstsq far (with_params2 w l) ps = r2_given lstsq far w ps.
Proof.
  intros lstsq far w l ps. destruct ps as [noise| |]; cbn [r2_given]; auto.
  assert (X : forall is t, default_loop (with_params2 w l) is t = default_loop w is t).
  { induction is as [|i is IH]; intros t; cbn [default_loop]; auto. change (col_ind (with_params2 w l)) with (col_ind w). change (norbpair (with_params2 w l)) with (norbpair w).
    destruct (col_ind w _); cbn [bind]; auto. }
  rewrite X. reflexivity.
Qed.
Lemma r2_run_plain : forall small lstsq far (w : gem K) h (o : r2_object) l, (forall q, ~ In (ESet q) h) -> (forall ps, In (EAssign ps) h -> snd (r2_assign small lstsq far w ps) = Ok tt) ->
  o_cfg o = with_params2 w l -> r2_run small lstsq far o h = run N.eqb N.eqb r2_overlap r2_dolp r2_get (r2_set_params small lstsq far) set_any gem_nparams o h.
Proof.
  intros small lstsq far w h. induction h as [|e h IH]; intros o l Ns As Ho; cbn [r2_run run]; auto.
  assert (X : r2_step small lstsq far o e = step N.eqb N.eqb r2_overlap r2_dolp r2_get (r2_set_params small lstsq far) set_any gem_nparams o e).
  { unfold r2_step. destruct e as [ar|ps|q|key|d]; auto. specialize (As ps (or_introl eq_refl)).
    assert (Y : snd (r2_assign small lstsq far (o_cfg o) ps) = Ok tt).
    { rewrite Ho. unfold r2_assign in *. rewrite given_shape. destruct (r2_given lstsq far w ps); exact As. }
    destruct (r2_assign small lstsq far (o_cfg o) ps) as [w' r]. cbn [snd] in Y. rewrite Y. reflexivity. }
  rewrite <- X. destruct (r2_step small lstsq far o e) as [a o'] eqn:Es. f_equal.
  destruct (r2_step_shape small lstsq far w o e a o' l) as [l' Ho']; auto; [intros q ->; apply (Ns q); now left|].
  apply (IH o' l'); auto; intros ? ?; [eapply Ns|eapply As]; right; eassumption.
Qed.
(** Calls on a cached instance whose assignments are all accepted: every answer is that of the parameters at that time. *)
Theorem C65_history : forall small lstsq far (w : gem K) memory h, (forall d, ~ In (EEnable d) h) -> (forall q, ~ In (ESet q) h) ->
  (forall ps, In (EAssign ps) h -> snd (r2_assign small lstsq far w ps) = Ok tt) ->
  agrees r2_overlap r2_dolp r2_get (r2_set_params small lstsq far) set_any w h (r2_run small lstsq far (constructed gem_nparams w memory true) h).
Proof.
  intros small lstsq far w memory h He Hs Ha.
  assert (C : forall n, (n <= 1)%nat -> careful n h).
  { intros n Hn. clear w Ha. induction h as [|e h IH]; [exact I|]. assert (X : careful n h) by (apply IH; intros ? ?; [eapply He|eapply Hs]; right; eassumption).
    destruct e; cbn [careful]; auto; exfalso; [eapply Hs|eapply He]; left; reflexivity. }
  rewrite (r2_run_plain small lstsq far w h _ (gm_params w)); auto; [|destruct w; reflexivity]. unfold constructed.
  pose proof (C48_transparent N.eqb N.eqb N.eqb_eq N.eqb_eq r2_overlap r2_dolp r2_get (r2_set_params small lstsq far) set_any gem_nparams w memory (EEnable true :: h)) as T.
  cbn [run step agrees] in T. apply T. cbn [careful]. apply C. lia.
Qed.
Theorem C65_program : forall (w : gem K) sd ds,
  value r2_overlap r2_dolp w (r2_get w (sd, None)) = (do v <- r2_overlap w sd; Ok (Scalar v)) /\
  value r2_overlap r2_dolp w (r2_get w (sd, Some ds)) = (do l <- r2_overlap_deriv w sd ds; Ok (Array l)).
Proof.
  intros w sd ds. split; unfold r2_get; cbn [fst snd value].
  - destruct (r2_overlap w sd); reflexivity.
  - unfold r2_overlap_deriv. destruct (r2_dolp w sd); reflexivity.
Qed.
(** An assignment that is refused because of a zero denominator has already replaced the parameters: determinants asked for
    before are answered with the old parameters, others with the refused ones. *)
Theorem C65_assign_refuted : forall small lstsq far (w : gem K) l sd sd' v i j, small 0 = true -> (i < gm_ngem w)%nat -> (j < norbpair w)%nat -> (gm_ngem w + j < length l)%nat ->
  nth i l 0 = nth (gm_ngem w + j)%nat l 0 -> r2_overlap w sd = Ok v -> sd' <> sd ->
  r2_run small lstsq far (constructed gem_nparams w None true) [EGet (sd, None); EAssign (RArray l); EGet (sd, None); EGet (sd', None)] =
  [AGet (Ok (Scalar v)); ARaise ValueError; AGet (Ok (Scalar v)); AGet (do x <- r2_overlap (with_params2 w l) sd'; Ok (Scalar x))].
Proof.
  intros small lstsq far w l sd sd' v i j S0 Hi Hj Hl E Ev Ne.
  assert (X : r2_assign small lstsq far w (RArray l) = (with_params2 w l, Err ValueError)).
  { unfold r2_assign. cbn [r2_given]. replace (r2_singular small (with_params2 w l)) with true; [reflexivity|]. symmetry. unfold r2_singular. apply existsb_exists. exists (nth i l 0). split.
    - unfold r2_lambdas. cbn [with_params2 gm_ngem gm_params]. rewrite <- (nth_firstn' (gm_ngem w)) by auto. apply nth_In. rewrite firstn_length. lia.
    - apply existsb_exists. exists (nth (gm_ngem w + j)%nat l 0). split; [|rewrite E; replace (nth (gm_ngem w + j) l 0 - nth (gm_ngem w + j) l 0) with (0 : K) by ring; auto].
      unfold r2_epsilons. change (norbpair (with_params2 w l)) with (norbpair w). cbn [with_params2 gm_ngem gm_params]. rewrite <- nth_skipn', <- (nth_firstn' (norbpair w)) by auto. apply nth_In. rewrite firstn_length, skipn_length. lia. }
  unfold constructed. cbn -[r2_assign r2_overlap]. rewrite Ev. cbn -[r2_assign r2_overlap]. rewrite X. cbn -[r2_assign r2_overlap]. rewrite N.eqb_refl. cbn -[r2_assign r2_overlap].
  rewrite (proj2 (N.eqb_neq sd' sd)) by auto. cbn -[r2_assign r2_overlap]. destruct (r2_overlap (with_params2 w l) sd'); reflexivity.
Qed.
Lemma extra_derivative : forall Der, calculus Der -> local Der -> forall small lstsq far nelec nspin ngem o ps (w : gem K) sd h k, char_zero K ->
  new_r2 small lstsq far nelec nspin ngem o ps = Ok w -> admissible (gm_ngem w) (norbpair w) (gm_params w) ->
  nelec = Z.of_nat (2 * h) -> has_electrons sd (2 * h) -> (k < length (gm_params w))%nat ->
  exists L, gem_schemes w sd = Ok L /\ Der (fun x => okv (r2_overlap (with_entry w k x) sd)) (nth k (gm_params w) 0) (sumf (r2_dterm w (gm_ngem w) k) L).
Proof.
  intros Der cal loc small lstsq far nelec nspin ngem o ps w sd h k Ch E A Hn He Hk.
  destruct (r2_schemes _ _ _ _ _ _ _ _ _ _ _ Ch E Hn He) as (L & Es & NL & IL & LL). destruct (new_r2_inv _ _ _ _ _ _ _ _ _ E) as (_ & _ & _ & _ & G).
  exists L. split; auto. apply (cal_ext Der cal (fun x => okv (r2_olp_loop (with_entry w k x) L 0))).
  { intros x. unfold r2_overlap. change (gem_schemes (with_entry w k x) sd) with (gem_schemes w sd). now rewrite Es. }
  apply r2_derivative; auto; [eapply new_gem_wf; eauto|lia].
Qed.
End C65b.

(** *** concrete findings, with rational parameters *)
(** Three geminals for four electrons: the number returned for the third lambda is not the derivative. *)
Lemma ex3_admissible : admissible 3 2 (map zq ex3).
Proof.
  constructor.
  - reflexivity.
  - intros i i' Hi Hi' E. apply (f_equal shown) in E. destruct i as [|[|[|]]], i' as [|[|[|]]]; try lia; vm_compute in E; discriminate.
  - intros i i' Hi Hi' E. apply (f_equal shown) in E. destruct i as [|[|]], i' as [|[|]]; try lia; vm_compute in E; discriminate.
  - intros i i' Hi Hi' E. apply (f_equal shown) in E. destruct i as [|[|[|]]], i' as [|[|]]; try lia; vm_compute in E; discriminate.
Qed.
Lemma w3_new : new_r2 r2_small no_lstsq never 4 4 (Some 3%Z) None (RArray (map zq ex3)) = Ok w3.
Proof.
  unfold new_r2. change (gem_assign_nelec 4) with (Ok 4%Z). change (assign_nspin 4) with (Ok 4%Z). cbn [bind]. change (gem_assign_ngem 4 (Some 3%Z)) with (Ok 3%nat). cbn [bind].
  change (assign_orbpairs GAPIG 4 None) with (Ok [(0, 2); (1, 3)]%Z). cbn [bind]. unfold r2_assign. cbn [r2_given].
  assert (X : r2_singular r2_small (with_params2 (mkgem GAPIG 4 4 3 [(0, 2); (1, 3)]%Z []) (map zq ex3)) = false) by (vm_compute; reflexivity). rewrite X. reflexivity.
Qed.
Theorem C65_extra_witness_refuted : exists nelec nspin ngem l w v, new_r2 r2_small no_lstsq never nelec nspin ngem None (RArray l) = Ok w /\ admissible (gm_ngem w) (norbpair w) (gm_params w) /\
  r2_overlap_deriv w 15 [2%Z] = Ok [v] /\
  forall Der, calculus Der -> local Der -> (forall f x g g', Der f x g -> Der f x g' -> g = g') ->
    ~ Der (fun x => okv (r2_overlap (with_entry w 2 x) 15)) (nth 2 (gm_params w) rO) v.
Proof.
  exists 4%Z, 4%Z, (Some 3%Z), (map zq ex3), w3. destruct (r2_overlap_deriv w3 15 [2%Z]) as [[|v [|]]|] eqn:Ev.
  all: try (exfalso; apply (f_equal show_list) in Ev; vm_compute in Ev; discriminate).
  exists v. split; [apply w3_new|]. split; [apply ex3_admissible|]. split; [reflexivity|]. intros Der cal loc U D.
  destruct (extra_derivative Der cal loc _ _ _ _ _ _ _ _ _ 15%N 2%nat 2%nat Qc_char_zero w3_new ex3_admissible eq_refl (total_occ_has 15%N)) as (L & EL & D'); [cbn; lia|].
  pose proof (U _ _ _ _ D D') as X. apply (f_equal show_list) in Ev. cbn [show_list bind map] in Ev. rewrite X in Ev. clear - EL Ev.
  change (gem_schemes w3 15) with (Ok [([(0, 2); (1, 3)]%Z, (-1)%Z)]) in EL. injection EL as <-. vm_compute in Ev. discriminate.
Qed.
(** Two equal lambdas are accepted, although the quotient of determinants is then 0 / 0 (0 in the model, nan in numpy); the
    full matrix exists and has a different overlap. *)
Theorem C65_equal_refuted : exists l v v', r2_olp 4 6 None l 27 = Ok v /\ r2_apig 4 6 None l 27 = Ok v' /\ v <> v' /\ nth 0 l 0%Z = nth 1 l 0%Z.
Proof. exists [2; 2; -1; -3; 1; 1; 2; 3]%Z. eexists _, _. split; [vm_compute; reflexivity|]. split; [vm_compute; reflexivity|]. split; [discriminate|reflexivity]. Qed.

(** *** non-vacuity and the values of concrete wavefunctions *)
Example C65_matrix_ex : r2_mat 4 6 None ex2 = Ok [[(1%Z, 3%positive); (2%Z, 5%positive); (3%Z, 1%positive)]; [(1%Z, 6%positive); (1%Z, 4%positive); (3%Z, 4%positive)]].
Proof. vm_compute. reflexivity. Qed.
Example C65_overlap_ex : r2_olp 4 6 None ex2 27 = Ok ((-3)%Z, 20%positive) /\ r2_apig 4 6 None ex2 27 = Ok ((-3)%Z, 20%positive) /\
  r2_olp 4 4 (Some 3%Z) ex3 15 = Ok ((-131)%Z, 120%positive) /\ r2_apig 4 4 (Some 3%Z) ex3 15 = Ok ((-131)%Z, 120%positive).
Proof. repeat split; vm_compute; reflexivity. Qed.
Example C65_electrons_ex : r2_olp 4 6 None ex2 11 = Err ValueError /\ r2_grad 4 6 None ex2 11 [0%Z] = Err ValueError.
Proof. repeat split; vm_compute; reflexivity. Qed.
Example C65_deriv_ex : r2_grad 4 6 None ex2 27 [0; 1; 2; 3; 4; 5; 6; -1]%Z =
  Ok [(37%Z, 900%positive); (31%Z, 1440%positive); ((-7)%Z, 180%positive); ((-19)%Z, 800%positive); (0%Z, 1%positive); ((-3)%Z, 20%positive); ((-3)%Z, 40%positive); (0%Z, 1%positive)] /\
  r2_grad 4 6 None ex2 27 [8%Z] = Err IndexError /\ r2_grad 4 6 None ex2 27 [-9]%Z = Err IndexError.
Proof. repeat split; vm_compute; reflexivity. Qed.
Example C65_extra_ex : r2_grad 4 4 (Some 3%Z) ex3 15 [2; 5]%Z = Ok [((-131)%Z, 120%positive); ((-131)%Z, 120%positive)].
Proof. vm_compute. reflexivity. Qed.
Example C65_single_ex : r2_olp 2 4 (Some 2%Z) [1; 2; 4; -3; 1; 1]%Z 5 = Ok (5%Z, 6%positive) /\ r2_grad 2 4 (Some 2%Z) [1; 2; 4; -3; 1; 1]%Z 5 [0%Z] = Err IndexError.
Proof. split; vm_compute; reflexivity. Qed.
Example C65_constructor_ex : r2_olp 4 6 None [1; 2; 2; 5; 7; 1; 1; 1]%Z 27 = Err ValueError /\ r2_olp 3 6 None ex2 27 = Err NotImplementedError /\
  (do w <- new_r2 r2_small no_lstsq never 4 6 None None RGem; show_res (r2_overlap w 27)) = Err NotImplementedError.
Proof. repeat split; vm_compute; reflexivity. Qed.
Example C65_history_ex : r2_calls 4 6 None ex2 [EGet (27%N, None); EAssign (RArray (map zq [2; 5; -1; -3; 1; 2; 2; 3]%Z)); EGet (27%N, None); EGet (27%N, Some [0%Z; 5%Z]); EClear None; EGet (27%N, None)] =
  Ok [Ok [((-3)%Z, 20%positive)]; Ok []; Ok [((-3)%Z, 10%positive)]; Ok [(37%Z, 450%positive); ((-3)%Z, 20%positive)]; Ok []; Ok [((-3)%Z, 10%positive)]].
Proof. vm_compute. reflexivity. Qed.
Example C65_assign_ex : r2_calls 4 6 None ex2 [EGet (27%N, None); EAssign (RArray (map zq [1; 2; 2; 5; 7; 1; 1; 1]%Z)); EGet (27%N, None); EGet (54%N, None)] =
  Ok [Ok [((-3)%Z, 20%positive)]; Err ValueError; Ok [((-3)%Z, 20%positive)]; Ok [((-19)%Z, 180%positive)]].
Proof. vm_compute. reflexivity. Qed.
(** the equations for the matrix of C65_matrix_ex: a solver that returns their solution gives lambda = (2, 5), epsilon = (-1, -3, 1)
    and zeta = (1, 2, 3) back *)
Example C65_convert_ex : show_list (full_to_rank2 (fun _ _ => map zq [2; 5; -1; -3; 1; 2; 3]%Z) (fun x _ => negb (r2_small x)) 2 3 [q_ 1 3; q_ 2 5; zq 3; q_ 1 6; q_ 1 4; q_ 3 4]) =
  Ok [(2%Z, 1%positive); (5%Z, 1%positive); ((-1)%Z, 1%positive); ((-3)%Z, 1%positive); (1%Z, 1%positive); (1%Z, 1%positive); (2%Z, 1%positive); (3%Z, 1%positive)] /\
  map (fun r => shown (dot 7 (fst r) (map zq [2; 5; -1; -3; 1; 2; 3]%Z) - snd r)%cr)
    (combine (map (without_at 5) (r2_matrix 2 3 [q_ 1 3; q_ 2 5; zq 3; q_ 1 6; q_ 1 4; q_ 3 4]))
       (map (fun row => - (nth 5 row 0 * 1))%cr (r2_matrix 2 3 [q_ 1 3; q_ 2 5; zq 3; q_ 1 6; q_ 1 4; q_ 3 4]))) = repeat (0%Z, 1%positive) 6 /\
  show_list (full_to_rank2 (fun _ _ => map zq [2; 5; -1; -3; 1; 2; 3]%Z) (fun x _ => negb (r2_small x)) 2 3 [q_ 1 3; q_ 2 5; zq 3; q_ 1 6; q_ 1 4; q_ 7 4]) = Err ValueError.
Proof. repeat split; vm_compute; reflexivity. Qed.

Print Assumptions C65_convert.
Print Assumptions C65_normalize_refuted.
Print Assumptions C65_length_refuted.
Print Assumptions C65_history.
Print Assumptions C65_program.
Print Assumptions C65_assign_refuted.
Print Assumptions C65_extra_witness_refuted.
Print Assumptions C65_equal_refuted.
