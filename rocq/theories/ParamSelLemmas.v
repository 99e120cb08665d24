(** Lemmas on selections of parameters. *)
From Coq Require Import List ZArith Arith Bool Lia Sorted Permutation.
From Verif Require Import Py Slater BitSpec BitLemmas SignLemmas Alg BicliqueLemmas ParamSel ParamSelSpec.
Import ListNotations.

Lemma where_from_In : forall l k i, In i (where_from k l) <-> exists j, i = k + j /\ nth_error l j = Some true.
Proof.
  induction l as [|b t IH]; intros k i; simpl.
  - split; [intros []|intros (j & _ & H); destruct j; discriminate].
  - assert (G : In i (where_from (S k) t) <-> exists j, i = k + S j /\ nth_error (b :: t) (S j) = Some true).
    { rewrite IH. split; intros (j & E & H); exists j; split; auto; lia. }
    destruct b; simpl; rewrite G; split.
    + intros [E | (j & E & H)]; [exists 0|exists (S j)]; split; auto; lia.
    + intros (j & E & H). destruct j; [left; lia|right; exists j; auto].
    + intros (j & E & H); exists (S j); auto.
    + intros (j & E & H). destruct j; [discriminate|exists j; auto].
Qed.

Lemma where_from_increasing : forall l k, increasing (where_from k l).
Proof.
  induction l as [|b t IH]; intros k; simpl; [constructor|].
  destruct b; auto. constructor; auto. apply Forall_forall. intros i H.
  apply where_from_In in H. destruct H as (j & E & _). lia.
Qed.

Lemma has_repeat_iff : forall l, has_repeat l = false <-> NoDup l.
Proof.
  induction l as [|x t IH]; simpl.
  - split; auto using NoDup_nil.
  - rewrite orb_false_iff, IH, NoDup_cons_iff. apply and_iff_compat_r. split.
    + intros H I. assert (existsb (Z.eqb x) t = true) by (apply existsb_exists; exists x; rewrite Z.eqb_refl; auto). congruence.
    + intros H. destruct (existsb (Z.eqb x) t) eqn:E; auto. apply existsb_exists in E. destruct E as (y & I & E).
      apply Z.eqb_eq in E. subst. contradiction.
Qed.

Lemma in_range_iff : forall n l, (existsb (fun i => Z.ltb i 0) l || existsb (fun i => Z.leb (Z.of_nat n) i) l = false)%bool
  <-> Forall (fun i => 0 <= i < Z.of_nat n)%Z l.
Proof.
  intros n l. rewrite orb_false_iff. induction l as [|x t IH]; simpl.
  - split; auto.
  - rewrite !orb_false_iff. rewrite Forall_cons_iff, <- IH. rewrite Z.ltb_ge, Z.leb_gt. tauto.
Qed.

Lemma map_to_nat_increasing : forall l, StronglySorted Z.lt l -> Forall (fun i => 0 <= i)%Z l -> increasing (map Z.to_nat l).
Proof.
  induction l as [|x t IH]; intros S F; simpl; [constructor|].
  inversion S; inversion F; subst. constructor; [apply IH; auto|].
  apply Forall_forall. intros i I. apply in_map_iff in I. destruct I as (z & E & I). subst.
  rewrite Forall_forall in *. specialize (H2 _ I). specialize (H6 _ I). lia.
Qed.

Lemma check_ok : forall n a, acceptable n a -> exists l, check_indices n a = Ok l /\ increasing l
  /\ (forall i, In i l <-> picks a i) /\ Forall (fun i => i < n) l.
Proof.
  intros n a A. destruct a as [b|z| |]; simpl in A.
  - exists (where_from 0 b). simpl. subst. rewrite Nat.eqb_refl. split; [auto|]. split; [apply where_from_increasing|].
    assert (G : forall i, In i (where_from 0 b) <-> nth_error b i = Some true).
    { intros i. rewrite where_from_In. split; [intros (j & E & H); simpl in E; subst; auto|intros H; exists i; auto]. }
    split; auto. apply Forall_forall. intros i I. apply G in I. apply nth_error_Some. congruence.
  - destruct A as [N F]. exists (map Z.to_nat (sorted_Z z)). simpl.
    rewrite (proj2 (has_repeat_iff z) N), (proj2 (in_range_iff n z) F). split; [auto|].
    assert (F' : Forall (fun i => 0 <= i < Z.of_nat n)%Z (sorted_Z z)).
    { rewrite Forall_forall in *. intros x I. apply F. eapply Permutation_in; [apply sorted_Z_perm|auto]. }
    split; [|split].
    + apply map_to_nat_increasing.
      * apply sorted_strict; [|apply sorted_Z_sorted]. eapply Permutation_NoDup; [symmetry; apply sorted_Z_perm|auto].
      * eapply Forall_impl; [|exact F']. simpl. lia.
    + intros i. simpl. rewrite in_map_iff. split.
      * intros (x & E & I). rewrite Forall_forall in F'. specialize (F' _ I). subst. rewrite Z2Nat.id by lia.
        eapply Permutation_in; [apply sorted_Z_perm|auto].
      * intros I. exists (Z.of_nat i). split; [lia|]. eapply Permutation_in; [symmetry; apply sorted_Z_perm|auto].
    + apply Forall_forall. intros i I. apply in_map_iff in I. destruct I as (x & E & I). rewrite Forall_forall in F'.
      specialize (F' _ I). lia.
  - exists []. simpl. split; [reflexivity|]. split; [constructor|]. split; [intros i; split; intros []|constructor].
  - contradiction.
Qed.

Lemma check_err : forall n a, ~ acceptable n a -> exists e, check_indices n a = Err e.
Proof.
  intros n a A. destruct a as [b|z| |]; simpl in *; eauto; [| |tauto].
  - destruct (Nat.eqb_spec (length b) n); [tauto|simpl; eauto].
  - destruct (has_repeat z) eqn:H1; eauto.
    destruct (existsb (fun i => Z.ltb i 0) z || existsb (fun i => Z.leb (Z.of_nat n) i) z)%bool eqn:H2; eauto.
    exfalso. apply A. split; [apply has_repeat_iff|apply in_range_iff]; auto.
Qed.

Lemma acceptable_dec : forall n a, acceptable n a \/ ~ acceptable n a.
Proof.
  intros n a. destruct a as [b|z| |]; simpl; auto.
  - destruct (Nat.eq_dec (length b) n); auto.
  - rewrite <- has_repeat_iff, <- in_range_iff.
    destruct (has_repeat z), (existsb (fun i => Z.ltb i 0) z || existsb (fun i => Z.leb (Z.of_nat n) i) z)%bool;
      auto; right; intros [? ?]; discriminate.
Qed.

Lemma step_valid : forall s np c a, acceptable (np c) a -> exists l, step_sel s (np, KComp c, a) = put_sel s c l
  /\ increasing l /\ (forall i, In i l <-> picks a i) /\ Forall (fun i => i < np c) l.
Proof.
  intros s np c a A. destruct (check_ok _ _ A) as (l & E & P). exists l. split; auto.
  unfold step_sel, set_item. rewrite E. reflexivity.
Qed.

Lemma step_invalid : forall s x, ~ valid x -> step_sel s x = s.
Proof.
  intros s [[np k] a] V. destruct k as [c|]; [|reflexivity]. unfold step_sel, set_item.
  destruct (check_err (np c) a V) as [e E]. rewrite E. reflexivity.
Qed.

Lemma valid_dec : forall x, valid x \/ ~ valid x.
Proof. intros [[np k] a]. destruct k as [c|]; simpl; auto. apply acceptable_dec. Qed.

Lemma find_put : forall s c l d, find_sel (put_sel s c l) d = if Nat.eqb c d then Some l else find_sel s d.
Proof.
  induction s as [|[e m] t IH]; intros c l d; simpl; [reflexivity|].
  destruct (Nat.eqb_spec e c).
  - subst. simpl. destruct (Nat.eqb_spec c d); auto.
  - simpl. destruct (Nat.eqb_spec e d).
    + subst. destruct (Nat.eqb_spec c d); auto. congruence.
    + apply IH.
Qed.

Lemma keys_put : forall s c l, map fst (put_sel s c l) = if in_dec Nat.eq_dec c (map fst s) then map fst s else map fst s ++ [c].
Proof.
  induction s as [|[e m] t IH]; intros c l; simpl; [reflexivity|].
  destruct (Nat.eqb_spec e c).
  - subst. simpl. destruct (Nat.eq_dec c c); [reflexivity|congruence].
  - simpl. rewrite IH. destruct (Nat.eq_dec e c); [congruence|]. destruct (in_dec Nat.eq_dec c (map fst t)); reflexivity.
Qed.

Lemma find_None : forall s c, find_sel s c = None <-> ~ In c (map fst s).
Proof.
  induction s as [|[e m] t IH]; intros c; simpl; [tauto|]. destruct (Nat.eqb_spec e c).
  - subst. split; [discriminate|intros H; exfalso; auto].
  - rewrite IH. tauto.
Qed.

Lemma find_Some : forall s c l, find_sel s c = Some l -> In (c, l) s.
Proof.
  induction s as [|[e m] t IH]; intros c l; simpl; [discriminate|]. destruct (Nat.eqb_spec e c).
  - intros H. injection H as H. subst. auto.
  - auto.
Qed.

Lemma find_In : forall s c l, NoDup (map fst s) -> In (c, l) s -> find_sel s c = Some l.
Proof.
  induction s as [|[e m] t IH]; intros c l N I; simpl in *; [contradiction|]. inversion N; subst.
  destruct I as [E|I].
  - injection E as -> ->. rewrite Nat.eqb_refl. reflexivity.
  - destruct (Nat.eqb_spec e c); [|auto]. subst. exfalso. apply H1. apply in_map_iff. exists (c, l); auto.
Qed.

Lemma run_snoc : forall h x, run_sel (h ++ [x]) = step_sel (run_sel h) x.
Proof. intros h x. unfold run_sel. rewrite fold_left_app. reflexivity. Qed.

(** slices *)
Lemma slices_keys : forall s k, map fst (slices_from k s) = map fst s.
Proof. induction s as [|[c l] t IH]; intros k; simpl; f_equal; auto. Qed.

Lemma slices_concat : forall s k, concat (map snd (slices_from k s)) = seq k (active_nparams s).
Proof.
  induction s as [|[c l] t IH]; intros k; simpl; [reflexivity|]. rewrite IH. unfold active_nparams. simpl.
  symmetry. apply seq_app.
Qed.

Lemma slices_total : forall s k, active_nparams (slices_from k s) = active_nparams s.
Proof. induction s as [|[c l] t IH]; intros k; unfold active_nparams in *; simpl; [auto|]. rewrite seq_length, IH. reflexivity. Qed.

Lemma slices_find : forall s k c, find_sel (slices_from k s) c = None <-> find_sel s c = None.
Proof. intros. rewrite !find_None, slices_keys. tauto. Qed.

(** place *)
Lemma place_bound : forall s k c i, place s k c i -> k < active_nparams s.
Proof.
  induction 1; unfold active_nparams in *; simpl.
  - assert (k < length l) by (apply nth_error_Some; congruence). lia.
  - lia.
Qed.

Lemma place_total : forall s k, k < active_nparams s -> exists c i, place s k c i.
Proof.
  induction s as [|[c l] t IH]; intros k H; unfold active_nparams in *; simpl in *; [lia|].
  destruct (lt_dec k (length l)) as [L|L].
  - destruct (nth_error l k) as [i|] eqn:E; [|apply nth_error_None in E; lia]. exists c, i. constructor; auto.
  - destruct (IH (k - length l)) as (d & i & P); [lia|]. exists d, i.
    replace k with (length l + (k - length l)) by lia. constructor; auto.
Qed.

Lemma place_unique : forall s k c i, place s k c i -> forall d j, place s k d j -> c = d /\ i = j.
Proof.
  induction 1 as [c l t k i E|c l t k d i P IH]; intros d' j Q.
  - inversion Q; subst.
    + split; congruence.
    + assert (length l + k0 < length l) by (apply nth_error_Some; congruence). lia.
  - inversion Q; subst.
    + assert (length l + k < length l) by (apply nth_error_Some; congruence). lia.
    + apply IH. replace k with k0 by lia. auto.
Qed.

Lemma place_In : forall s k c i, place s k c i -> exists l, In (c, l) s /\ In i l.
Proof.
  induction 1 as [c l t k i E|c l t k d i P IH].
  - exists l. split; [left; auto|]. eapply nth_error_In; eauto.
  - destruct IH as (m & H1 & H2). exists m. split; auto. right; auto.
Qed.

Lemma selected_place : forall s c i, selected s c i -> exists k, place s k c i.
Proof.
  induction s as [|[d l] t IH]; intros c i (m & I & J); simpl in I; [contradiction|]. destruct I as [E|I].
  - injection E as -> ->. apply In_nth_error in J. destruct J as [k E]. exists k. constructor; auto.
  - destruct (IH c i) as [k P]; [exists m; auto|]. exists (length l + k). constructor; auto.
Qed.

Lemma place_inj : forall np s k k' c i, fits_sel np s -> place s k c i -> place s k' c i -> k = k'.
Proof.
  intros np s k k' c i F P. revert k' F. induction P as [c l t k i E|c l t k d i P IH]; intros k' F Q.
  - inversion Q; subst.
    + destruct F as [_ F]. destruct (F c l (or_introl eq_refl)) as [S _].
      assert (N : NoDup l) by (clear - S; induction S; constructor; auto; intros I; rewrite Forall_forall in H; specialize (H _ I); lia).
      rewrite NoDup_nth_error in N. apply N; [apply nth_error_Some|]; congruence.
    + exfalso. destruct F as [N _]. simpl in N. inversion N; subst. apply H1.
      match goal with H : place t _ _ _ |- _ => destruct (place_In _ _ _ _ H) as (m & I & _) end. apply in_map_iff. exists (c, m); auto.
  - inversion Q; subst.
    + exfalso. destruct F as [N _]. simpl in N. inversion N; subst. apply H1.
      destruct (place_In _ _ _ _ P) as (m & I & _). apply in_map_iff. exists (d, m); auto.
    + f_equal. apply IH; auto. destruct F as [N F]. simpl in N. inversion N; subst. split; auto.
      intros e m I. apply F. right; auto.
Qed.

(** take and scatter *)
Section Arr.
Context {K : Type}.
Lemma take_ok : forall (v : list K) inds d, Forall (fun i => i < length v) inds -> take v inds = Ok (map (fun i => nth i v d) inds).
Proof.
  intros v inds d F. unfold take. induction inds as [|i t IH]; simpl; [reflexivity|].
  inversion F; subst. rewrite (nth_error_nth' v d) by auto. simpl. rewrite IH by auto. reflexivity.
Qed.

Lemma scatter_fold : forall inds (vals v : list K) d, NoDup inds -> length vals = length inds ->
  Forall (fun i => i < length v) inds ->
  let u := fold_left (fun u ix => upd u (fst ix) (snd ix)) (combine inds vals) v in
  length u = length v /\ (forall k i, nth_error inds k = Some i -> nth i u d = nth k vals d)
  /\ (forall i, ~ In i inds -> nth i u d = nth i v d).
Proof.
  induction inds as [|i t IH]; intros vals v d N L F; destruct vals as [|x xs]; try discriminate; cbn [combine fold_left fst snd].
  - repeat split; auto. intros k i H; destruct k; discriminate.
  - inversion N; inversion F; subst.
    specialize (IH xs (upd v i x) d H2 ltac:(simpl in L; lia)). rewrite upd_length in IH. specialize (IH H6).
    simpl in IH. destruct IH as (A & B & C). split; [auto|]. split.
    + intros k j E. destruct k; simpl in *; [|apply B; auto]. injection E as <-. rewrite C by auto. apply nth_upd_eq. auto.
    + intros j NI. rewrite C by (simpl in NI; tauto). apply nth_upd_neq. simpl in NI. tauto.
Qed.

Lemma scatter_ok : forall (v : list K) inds vals d, NoDup inds -> length vals = length inds ->
  Forall (fun i => i < length v) inds -> exists u, scatter v inds vals = Ok u /\ length u = length v
  /\ (forall k i, nth_error inds k = Some i -> nth i u d = nth k vals d)
  /\ (forall i, ~ In i inds -> nth i u d = nth i v d).
Proof.
  intros v inds vals d N L F. unfold scatter.
  assert (E : forallb (fun i => Nat.ltb i (length v)) inds = true).
  { apply forallb_forall. intros i I. rewrite Forall_forall in F. apply Nat.ltb_lt; auto. }
  rewrite E. eexists. split; [reflexivity|]. apply scatter_fold; auto.
Qed.
End Arr.

