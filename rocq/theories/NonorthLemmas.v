(** Values of the minors, of the overlaps and of their derivatives, for C64 *)
From Coq Require Import List ZArith NArith Arith Bool Lia Permutation Sorted.
From Verif Require Import Py BitSpec BitLemmas Fock FockLemmas Combos Slater SlaterBits SlaterBits2 Alg MathTools PermLemmas DetLemmas CILemmas Composite OrbSpec OrbLemmas OrbMain WedgeLemmas
  Jacobi JacobiSpec Nonorth NonorthSpec.
Import ListNotations.

Lemma adds_zero_bit : forall s i, NoDup s -> bit (adds 0 s) i = existsb (Nat.eqb i) s.
Proof. intros s i D. rewrite adds_bit_in by auto. unfold bit at 1. now rewrite N.bits_0, xorb_false_l. Qed.
Lemma existsb_In : forall i s, existsb (Nat.eqb i) s = true <-> In i s.
Proof. intros i s. rewrite existsb_exists. split; [intros (x & H & E); apply Nat.eqb_eq in E; now subst|]. intros H. exists i. split; auto. apply Nat.eqb_refl. Qed.
Lemma adds_electrons : forall s, NoDup s -> has_electrons (adds 0 s) (length s).
Proof. intros s D. exists s. repeat split; auto; rewrite adds_zero_bit, existsb_In by auto; auto. Qed.
Lemma adds_within : forall s m, NoDup s -> (forall i, In i s -> i < m) -> within m (adds 0 s).
Proof. intros s m D H i B. rewrite adds_zero_bit, existsb_In in B by auto. auto. Qed.
Lemma create_adds : forall s, NoDup s -> create (Some 0%N) s = Some (adds 0 s).
Proof.
  intros s D. assert (Z : forall i, bit 0 i = false) by (intros; unfold bit; apply N.bits_0).
  destruct (create_total s 0%N D) as [m E]; [auto|]. rewrite E. f_equal. apply create_Some in E as (_ & _ & B). apply bit_ext. intros i. rewrite B, Z, adds_zero_bit by auto. reflexivity.
Qed.
Lemma sub_perm : forall l k c, increasing l -> In c (combinations l k) -> NoDup c /\ length c = k /\ (forall i, In i c -> In i l).
Proof. intros l k c I H. apply combinations_increasing_In in H as (A & B & C); auto. split; [now apply increasing_NoDup|]. auto. Qed.
Lemma shifted_In : forall k l i, In i (shifted k l) <-> exists j, In j l /\ i = j + k.
Proof. intros. unfold shifted. rewrite in_map_iff. split; intros (j & A & B); exists j; auto. Qed.
Lemma shifted_NoDup : forall k l, NoDup l -> NoDup (shifted k l).
Proof. intros. unfold shifted. apply NoDup_map_inj; auto. intros; lia. Qed.
Lemma seq_shifted : forall nc k a, shifted nc (seq a k) = seq (a + nc) k.
Proof. intros nc k. induction k as [|k IH]; intros a; [reflexivity|]. cbn. f_equal. exact (IH (S a)). Qed.
Lemma both_NoDup : forall nc a b, NoDup a -> NoDup b -> (forall i, In i a -> i < nc) -> NoDup (a ++ shifted nc b).
Proof.
  intros nc a b Da Db H. apply BicliqueLemmas.NoDup_app_iff. repeat split; auto; [now apply shifted_NoDup|]. intros i Hi Hj. apply shifted_In in Hj as (j & _ & ->). apply H in Hi. lia.
Qed.
Lemma map_nth_seq : forall {A} (d : A) l, map (fun i => nth i l d) (seq 0 (length l)) = l.
Proof.
  intros A d l. induction l as [|x l IH]; [reflexivity|]. cbn [length seq map nth]. f_equal. rewrite <- seq_shift, map_map. cbn [nth]. exact IH.
Qed.
Lemma others_increasing : forall n c, increasing (others n c).
Proof. intros. apply increasing_filter, increasing_seq. Qed.
Lemma others_In : forall n c i, In i (others n c) <-> i < n /\ i <> c.
Proof. intros. unfold others. rewrite filter_In, in_seq, negb_true_iff, Nat.eqb_neq. lia. Qed.

Section L.
Context {K : CRing}.
Local Open Scope cr_scope.
Add Ring K_ring90 : (rth K).
Lemma minor_ok : forall (m : matrix K) rows cols, (forall i, In i rows -> (i < m_rows m)%nat) -> (forall j, In j cols -> (j < m_cols m)%nat) ->
  length rows = length cols -> minor m rows cols = Ok (detR (map (m_at m) rows) cols).
Proof.
  intros m rows cols Hr Hc L. unfold minor.
  rewrite (proj2 (forallb_forall (fun i => Nat.ltb i (m_rows m)) rows)) by (intros; apply Nat.ltb_lt; auto).
  rewrite (proj2 (forallb_forall (fun i => Nat.ltb i (m_cols m)) cols)) by (intros; apply Nat.ltb_lt; auto). cbn [negb]. rewrite L, Nat.eqb_refl. cbn [negb]. f_equal.
  rewrite det_detR. transitivity (detR (map (m_at m) (map (fun i => nth i rows 0%nat) (seq 0 (length rows)))) (map (fun j => nth j cols 0%nat) (seq 0 (length cols)))); [|now rewrite !map_nth_seq].
  rewrite detR_map, !map_map, L. reflexivity.
Qed.
Lemma minor1_ok : forall (m : matrix K) rows cols, (forall i, In i rows -> (i < m_rows m)%nat) -> (forall j, In j cols -> (j < m_cols m)%nat) ->
  length rows = length cols -> minor1 m rows cols = Ok (detR (map (m_at m) rows) cols).
Proof. intros m rows cols Hr Hc L. unfold minor1. destruct cols; [|now apply minor_ok]. destruct rows; [|discriminate]. reflexivity. Qed.
Lemma n_at_ok : forall (w : nonorth K) f k s, overlaps_of (n_wfn w) k f -> NoDup s -> length s = k -> (forall i, In i s -> (i < Z.to_nat (c_nspin (n_wfn w)))%nat) ->
  n_at w s = Ok (f (adds 0 s)).
Proof. intros w f k s F D L H. unfold n_at. rewrite create_adds by auto. apply F; [now apply adds_within|]. rewrite <- L. now apply adds_electrons. Qed.
Lemma sumM_ok : forall {A} (F : A -> res K) g l, (forall x, In x l -> F x = Ok (g x)) -> sumM F l = Ok (sumf g l).
Proof. intros A F g l H. unfold sumM. rewrite (mapM_ok_of F g l H). cbn [bind]. now rewrite sumf_map. Qed.

(** sums over the choices that leave out one element *)
Lemma sumf_without : forall c l k (X : list nat -> K),
  sumf (fun s => if existsb (Nat.eqb c) s then 0 else X s) (combinations l k) = sumf X (combinations (filter (fun i => negb (Nat.eqb i c)) l) k).
Proof.
  intros c. induction l as [|x l IH]; intros k X; [destruct k; reflexivity|]. cbn [filter]. destruct k as [|k]; [rewrite !combinations_0, !sumf_cons; reflexivity|].
  cbn [combinations]. rewrite sumf_app, sumf_map, (IH (S k)). destruct (Nat.eqb_spec x c) as [->|Hx]; cbn [negb].
  - rewrite sumf_zero; [ring|]. intros s _. cbn [existsb]. now rewrite Nat.eqb_refl.
  - cbn [combinations]. rewrite sumf_app, sumf_map. f_equal. rewrite <- (IH k (fun s => X (x :: s))). apply sumf_ext. intros s _. cbn [existsb]. now rewrite (proj2 (Nat.eqb_neq c x)) by auto.
Qed.
(** two blocks of rows *)
Lemma linsf_blocks : forall nc (ra rb : list (nat -> K)) (f : N -> K),
  (forall r, In r ra -> forall j, (nc <= j)%nat -> r j = 0) -> (forall r, In r rb -> forall j, (j < nc)%nat -> r j = 0) ->
  linsf (seq 0 (nc + nc)) (ra ++ rb) f 0%N =
  sumf (fun a => sumf (fun b => detR ra a * detR (map (fun r j => r (j + nc)%nat) rb) b * f (adds 0 (a ++ shifted nc b))) (combinations (seq 0 nc) (length rb))) (combinations (seq 0 nc) (length ra)).
Proof.
  intros nc ra rb f Ha Hb. rewrite linsf_app, seq_app. cbn [Nat.add].
  rewrite linsf_cols by (intros r Hr j Hj; apply Hb; auto; apply in_seq in Hj; lia).
  rewrite linsf_minors; [|apply increasing_seq|intros i B; unfold bit in B; now rewrite N.bits_0 in B].
  rewrite <- (seq_shifted nc nc 0 : shifted nc (seq 0 nc) = seq nc nc).
  change (combinations (shifted nc (seq 0 nc)) (length rb)) with (combinations (map (fun i => (i + nc)%nat) (seq 0 nc)) (length rb)).
  rewrite combinations_map, sumf_map, sumf_swap. apply sumf_ext. intros b Hb'. change (map (fun i => (i + nc)%nat) b) with (shifted nc b).
  apply sub_perm in Hb' as (Db & Lb & Ib); [|apply increasing_seq].
  rewrite linsf_cols' by (intros r Hr j Hj; apply Ha; auto; apply shifted_In in Hj as (i & _ & ->); lia).
  rewrite linsf_minors; [|apply increasing_seq|].
  - rewrite <- sumf_mul_l. apply sumf_ext. intros a Ha'. unfold shifted at 1. rewrite detR_map, adds_app. ring.
  - intros i B j Hj. rewrite adds_zero_bit, existsb_In in B by (now apply shifted_NoDup). apply shifted_In in B as (i' & _ & ->). apply in_seq in Hj. lia.
Qed.
End L.
