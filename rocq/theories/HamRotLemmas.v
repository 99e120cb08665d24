(** The layout of the orbital-rotation parameters, and rotations of integrals as matrix products. *)
From Coq Require Import List ZArith NArith Bool Lia Arith.
From Verif Require Import Py Slater Combos Alg PermLemmas HamGen HamRes HamRot.
Import ListNotations.

(** ** Layout *)
Lemma half_prod : forall x, (2 * ((x + 1) * (x + 2) / 2) = (x + 1) * (x + 2))%Z.
Proof.
  intros x. assert (E : ((x + 1) * (x + 2) mod 2 = 0)%Z).
  { rewrite Zmult_mod, (Zplus_mod x 1), (Zplus_mod x 2). destruct (Z.mod_pos_bound x 2); [lia|].
    assert (H1 : (x mod 2 = 0 \/ x mod 2 = 1)%Z) by lia. destruct H1 as [-> | ->]; reflexivity. }
  rewrite (Z.div_mod ((x + 1) * (x + 2)) 2) at 2 by lia. lia.
Qed.

(** twice the number of pairs in the rows before x *)
Definition rows2 (n x : Z) : Z := (2 * n * x - x * (x + 1))%Z.
Lemma row_test : forall n ind x, ((ind - n * (x + 1) + (x + 1) * (x + 2) / 2 <? 0) = (2 * ind <? rows2 n (x + 1)))%Z.
Proof.
  intros n ind x. unfold rows2. assert (H := half_prod x).
  destruct (Z.ltb_spec (ind - n * (x + 1) + (x + 1) * (x + 2) / 2) 0), (Z.ltb_spec (2 * ind) (2 * n * (x + 1) - (x + 1) * (x + 1 + 1))); auto; nia.
Qed.
Lemma find_row_spec : forall n ind k s x0, (0 <= ind)%Z ->
  (exists x, (s <= x < s + k)%nat /\ find_row n ind (seq s k) x0 = Z.of_nat x /\ (2 * ind < rows2 n (Z.of_nat x + 1))%Z /\
             (forall j, (s <= j < x)%nat -> (rows2 n (Z.of_nat j + 1) <= 2 * ind)%Z)) \/
  (find_row n ind (seq s k) x0 = (if Nat.eqb k 0 then x0 else Z.of_nat (s + k - 1)) /\
   forall j, (s <= j < s + k)%nat -> (rows2 n (Z.of_nat j + 1) <= 2 * ind)%Z).
Proof.
  intros n ind. induction k as [|k IH]; intros s x0 P.
  - right. split; [reflexivity|]. intros; lia.
  - cbn [seq find_row]. rewrite row_test. destruct (Z.ltb_spec (2 * ind) (rows2 n (Z.of_nat s + 1))) as [L|L].
    + left. exists s. repeat split; auto; try lia. 
    + destruct (IH (S s) (Z.of_nat s) P) as [(x & B & E & L1 & L2)|[E L2]].
      * left. exists x. repeat split; auto; try lia. intros j Hj. destruct (Nat.eq_dec j s) as [->|]; auto. apply L2. lia.
      * right. split.
        -- rewrite E. cbn [Nat.eqb]. destruct (Nat.eqb_spec k 0); f_equal; lia.
        -- intros j Hj. destruct (Nat.eq_dec j s) as [->|]; auto. apply L2. lia.
Qed.

(** the position of the pair x < y *)
Definition at_pos (n ind x y : Z) : Prop := (0 <= x < y /\ y < n /\ 2 * ind = rows2 n x + 2 * (y - x - 1))%Z.

Lemma rowcol_pos : forall n ind, (0 <= ind)%Z -> (2 * ind < Z.of_nat n * (Z.of_nat n - 1))%Z ->
  exists x y, param_ind_to_rowcol_ind n ind = Ok (x, y) /\ at_pos (Z.of_nat n) ind x y.
Proof.
  intros n ind P L. unfold param_ind_to_rowcol_ind. assert (0 < n)%nat by (destruct n; [lia|lia]).
  destruct (Nat.eqb_spec n 0); [lia|]. set (N := Z.of_nat n) in *.
  destruct (find_row_spec N ind (n + 1) 0 0 P) as [(x & B & E & L1 & L2)|[E L2]].
  2:{ exfalso. specialize (L2 (n - 1)%nat). unfold rows2 in L2. replace (Z.of_nat (n - 1)) with (N - 1)%Z in L2 by lia. nia. }
  rewrite E. eexists _, _. split; [reflexivity|]. set (X := Z.of_nat x) in *.
  assert (R : (rows2 N X <= 2 * ind)%Z).
  { destruct x; [unfold rows2; cbn in X; subst X; lia|]. specialize (L2 x). replace (Z.of_nat x + 1)%Z with X in L2 by lia. apply L2. lia. }
  assert (X0 : (0 <= X)%Z) by lia. assert (XN : (X + 1 < N)%Z).
  { unfold rows2 in *. apply Znot_ge_lt. intros G. destruct (Z.eq_dec X N) as [->|]; [|destruct (Z.eq_dec X (N - 1)) as [->|]; [nia|lia]].
    specialize (L2 (n - 1)%nat). replace (Z.of_nat (n - 1) + 1)%Z with N in L2 by lia. nia. }
  assert (H1 := half_prod X).
  assert (Q : (ind + (X + 1) * (X + 2) / 2 = N * X + (X + 1 + (2 * ind - rows2 N X) / 2))%Z).
  { assert (D : (2 * ((2 * ind - rows2 N X) / 2) = 2 * ind - rows2 N X)%Z).
    { unfold rows2. assert (H2 := half_prod (X - 1)). replace (X - 1 + 1)%Z with X in H2 by lia. replace (X - 1 + 2)%Z with (X + 1)%Z in H2 by lia.
      replace (2 * ind - (2 * N * X - X * (X + 1)))%Z with (2 * (ind - N * X + X * (X + 1) / 2))%Z by lia.
      rewrite (Z.mul_comm 2 (ind - N * X + _)), Z.div_mul by lia. lia. }
    unfold rows2 in *. nia. }
  assert (D : (2 * ((2 * ind - rows2 N X) / 2) = 2 * ind - rows2 N X)%Z) by (unfold rows2 in *; nia).
  set (d := ((2 * ind - rows2 N X) / 2)%Z) in *. 
  assert (B1 : (0 <= d)%Z) by lia. assert (B2 : (d < N - X - 1)%Z) by (unfold rows2 in *; nia).
  rewrite Q, (Z.mul_comm N X), Z.add_comm, Z.mod_add, Z.mod_small by lia. unfold at_pos. lia.
Qed.
Lemma rowcol_out : forall n ind, (0 < n)%nat -> (Z.of_nat n * (Z.of_nat n - 1) <= 2 * ind)%Z ->
  exists y, param_ind_to_rowcol_ind n ind = Ok (Z.of_nat n, y).
Proof.
  intros n ind P L. unfold param_ind_to_rowcol_ind. destruct (Nat.eqb_spec n 0); [lia|]. set (N := Z.of_nat n) in *.
  destruct (find_row_spec N ind (n + 1) 0 0) as [(x & B & E & L1 & L2)|[E L2]]; [nia| |].
  - exfalso. unfold rows2 in L1. set (X := Z.of_nat x) in *. 
    assert ((N - X - 1) * (N - X - 2) < 0)%Z by nia. destruct (Z.le_gt_cases (N - X - 1) 0); nia.
  - rewrite E. destruct (Nat.eqb_spec (n + 1) 0); [lia|]. eexists. do 2 f_equal. lia.
Qed.

Lemma at_pos_bounds : forall n ind x y, at_pos n ind x y -> (0 <= ind /\ 2 * ind < n * (n - 1))%Z.
Proof. intros n ind x y (B & L & E). unfold rows2 in *. nia. Qed.
Lemma at_pos_exists : forall n x y, (0 <= x < y)%Z -> (y < n)%Z -> exists ind, at_pos n ind x y.
Proof.
  intros n x y B L. exists (n * x - (x - 1 + 1) * (x - 1 + 2) / 2 + (y - x - 1))%Z. repeat split; try lia.
  unfold rows2. assert (H := half_prod (x - 1)). nia.
Qed.
Lemma at_pos_lex : forall n i j x y x' y', at_pos n i x y -> at_pos n j x' y' -> ((i < j)%Z <-> (x < x' \/ (x = x' /\ y < y'))%Z).
Proof.
  intros n i j x y x' y' (B & L & E) (B' & L' & E'). unfold rows2 in *.
  assert (M : forall a b, (0 <= a < b)%Z -> (b < n)%Z -> (2 * n * (a + 1) - (a + 1) * (a + 2) <= 2 * n * b - b * (b + 1))%Z).
  { intros a b A1 A2. nia. }
  split.
  - intros H. destruct (Z.lt_trichotomy x x') as [G|[G|G]]; auto.
    + right. subst. lia.
    + exfalso. assert (Q := M x' x ltac:(lia) ltac:(lia)). nia.
  - intros [G|[-> G]]; [|lia]. assert (Q := M x x' ltac:(lia) ltac:(lia)). nia.
Qed.
Lemma at_pos_inj : forall n i j x y, at_pos n i x y -> at_pos n j x y -> i = j.
Proof. intros n i j x y (B & L & E) (B' & L' & E'). lia. Qed.

Lemma nth_error_seq' : forall k s i, (i < k)%nat -> nth_error (seq s k) i = Some (s + i)%nat.
Proof.
  induction k as [|k IH]; intros s i L; [lia|]. destruct i; cbn [seq nth_error]; [f_equal; lia|]. rewrite IH by lia. f_equal. lia.
Qed.
Lemma triu_nth : forall n k s i x y, (s <= x < s + k)%nat -> (x < y < n)%nat ->
  (2 * Z.of_nat i = rows2 (Z.of_nat n) (Z.of_nat x) - rows2 (Z.of_nat n) (Z.of_nat s) + 2 * (Z.of_nat y - Z.of_nat x - 1))%Z ->
  nth_error (flat_map (fun x => map (fun y => (x, y)) (seq (x + 1) (n - (x + 1)))) (seq s k)) i = Some (x, y).
Proof.
  intros n. induction k as [|k IH]; intros s i x y B L E; [lia|]. cbn [seq flat_map].
  assert (LEN : length (map (fun y => (s, y)) (seq (s + 1) (n - (s + 1)))) = (n - (s + 1))%nat) by now rewrite map_length, seq_length.
  destruct (Nat.eq_dec x s) as [->|N].
  - rewrite nth_error_app1 by lia. rewrite nth_error_map, nth_error_seq' by lia. cbn. do 2 f_equal. lia.
  - assert (n - (s + 1) <= i)%nat by (unfold rows2 in *; nia).
    rewrite nth_error_app2 by lia. rewrite LEN. apply IH; try lia. unfold rows2 in *. nia.
Qed.
Lemma triu_at : forall n i x y, at_pos (Z.of_nat n) (Z.of_nat i) (Z.of_nat x) (Z.of_nat y) -> nth_error (triu_indices n) i = Some (x, y).
Proof. intros n i x y (B & L & E). apply triu_nth; try lia. unfold rows2 in *. lia. Qed.
Lemma triu_In : forall n x y, In (x, y) (triu_indices n) <-> (x < y < n)%nat.
Proof.
  intros n x y. unfold triu_indices. rewrite in_flat_map. split.
  - intros (z & Hz & H). apply in_map_iff in H as (w & E & H). injection E as -> ->. apply in_seq in H, Hz. lia.
  - intros H. exists x. split; [apply in_seq; lia|]. apply in_map_iff. exists y. split; auto. apply in_seq. lia.
Qed.
Lemma triu_length : forall n, (2 * length (triu_indices n) = n * (n - 1))%nat.
Proof.
  intros n. unfold triu_indices. 
  assert (H : forall k s, (s + k <= n)%nat -> (2 * length (flat_map (fun x => map (fun y => (x, y)) (seq (x + 1) (n - (x + 1)))) (seq s k)) + k * k
     + k = 2 * k * (n - s))%nat).
  { induction k as [|k IH]; intros s L; [reflexivity|]. cbn [seq flat_map]. rewrite app_length, map_length, seq_length.
    specialize (IH (S s) ltac:(lia)). nia. }
  specialize (H n 0%nat ltac:(lia)). nia.
Qed.
Lemma triu_NoDup : forall n, NoDup (triu_indices n).
Proof.
  intros n. unfold triu_indices. 
  assert (H : forall k s, NoDup (flat_map (fun x => map (fun y => (x, y)) (seq (x + 1) (n - (x + 1)))) (seq s k))); [|apply H].
  induction k as [|k IH]; intros s; [constructor|].
  cbn [seq flat_map]. apply NoDup_app_intro'; auto.
  - apply NoDup_map_inj; [intros; congruence|apply seq_NoDup].
  - intros p H1 H2. apply in_map_iff in H1 as (y & <- & _). apply in_flat_map in H2 as (z & Hz & H2).
    apply in_map_iff in H2 as (w & E & _). apply in_seq in Hz. injection E as E _. lia.
Qed.

Lemma dim_of_tri : forall n s, (1 <= n)%nat -> (2 * s = n * (n - 1))%nat -> dim_of_size s = Ok n.
Proof.
  intros n s P E. unfold dim_of_size. assert (Q : (1 + 8 * s = (2 * n - 1) * (2 * n - 1))%nat) by nia.
  rewrite Q, Nat.sqrt_square, Nat.eqb_refl. f_equal. replace (1 + (2 * n - 1))%nat with (n * 2)%nat by lia. now apply Nat.div_mul.
Qed.

Section Mat.
Context {K : CField}.
Local Open Scope cr_scope.
Add Ring K_ring22 : (rth K).
Notation mat := (nat -> nat -> K).

Lemma upd_fold_other : forall (l : list (nat * nat * K)) m x y, ~ In (x, y) (map fst l) ->
  fold_left (fun m p => upd2 m (fst (fst p)) (snd (fst p)) (snd p)) l m x y = m x y.
Proof.
  induction l as [|[[a b] v] l IH]; intros m x y H; auto. cbn [fold_left fst snd map] in *. rewrite IH by (intros X; apply H; now right).
  unfold upd2. destruct (Nat.eqb_spec x a); destruct (Nat.eqb_spec y b); auto. subst. exfalso. apply H. now left.
Qed.
Lemma upd_fold_at : forall (l : list (nat * nat * K)) m i x y v, NoDup (map fst l) -> nth_error l i = Some (x, y, v) ->
  fold_left (fun m p => upd2 m (fst (fst p)) (snd (fst p)) (snd p)) l m x y = v.
Proof.
  induction l as [|[[a b] w] l IH]; intros m i x y v N E; [destruct i; discriminate|]. cbn [fold_left fst snd map] in *.
  inversion N as [|? ? N1 N2]. destruct i as [|i]; cbn [nth_error] in E.
  - injection E as -> -> ->. rewrite upd_fold_other by auto. unfold upd2. now rewrite !Nat.eqb_refl.
  - eapply IH; eauto.
Qed.
Lemma combine_nth_error : forall {A B} (a : list A) (b : list B) i x y, nth_error a i = Some x -> nth_error b i = Some y ->
  nth_error (combine a b) i = Some (x, y).
Proof.
  induction a as [|u a IH]; intros [|w b] i x y E1 E2; try (destruct i; discriminate).
  destruct i; cbn in *; [congruence|eauto].
Qed.
Lemma map_fst_combine : forall {A B} (a : list A) (b : list B), length a = length b -> map fst (combine a b) = a.
Proof. induction a as [|u a IH]; intros [|w b] E; auto; try discriminate. cbn. f_equal. apply IH. cbn in E. lia. Qed.

Lemma fill_at : forall n (el : list K) i x y, (2 * length el = n * (n - 1))%nat ->
  at_pos (Z.of_nat n) (Z.of_nat i) (Z.of_nat x) (Z.of_nat y) -> fill_triu n el x y = nth i el 0.
Proof.
  intros n el i x y L A. assert (T := triu_length n). apply triu_at in A as E.
  assert (Li : (i < length el)%nat) by (assert (nth_error (triu_indices n) i <> None) as Q by congruence; apply nth_error_Some in Q; lia).
  apply upd_fold_at with (i := i).
  - rewrite map_fst_combine by lia. apply triu_NoDup.
  - apply combine_nth_error; auto. now apply nth_error_nth'.
Qed.
Lemma fill_other : forall n (el : list K) x y, ~ (x < y < n)%nat -> fill_triu n el x y = 0.
Proof.
  intros n el x y H. unfold fill_triu. rewrite upd_fold_other; auto. intros I. apply in_map_iff in I as ([p v] & E & I).
  cbn in E. subst p. apply in_combine_l in I. apply triu_In in I. auto.
Qed.
Lemma antiherm_at : forall n (el : list K) i x y, (2 * length el = n * (n - 1))%nat ->
  at_pos (Z.of_nat n) (Z.of_nat i) (Z.of_nat x) (Z.of_nat y) ->
  antiherm n el x y = nth i el 0 /\ antiherm n el y x = - nth i el 0.
Proof.
  intros n el i x y L A. assert (B : (x < y < n)%nat) by (destruct A; lia). unfold antiherm.
  rewrite (fill_at n el i x y L A), (fill_other n el y x) by lia.
  destruct (Nat.leb_spec y x); [lia|]. destruct (Nat.leb_spec x y); [|lia]. split; ring.
Qed.
Lemma antiherm_diag : forall n (el : list K) x, antiherm n el x x = 0.
Proof. intros. unfold antiherm. rewrite Nat.leb_refl. ring. Qed.
Lemma antiherm_anti : forall n (el : list K) x y, antiherm n el y x = - antiherm n el x y.
Proof.
  intros. unfold antiherm. destruct (Nat.leb_spec x y), (Nat.leb_spec y x).
  - ring.
  - rewrite (fill_other n el y x) by lia. ring.
  - rewrite (fill_other n el x y) by lia. ring.
  - lia.
Qed.
End Mat.
