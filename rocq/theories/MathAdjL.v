From Coq Require Import Ring_theory List ZArith NArith Bool Lia Arith Permutation.
From Verif Require Import Py Slater Alg MathTools DetLemmas DetRatioLemmas MathAdj MathAdjSpec.
Import ListNotations.

Lemma skip_seq : forall i n, (i < n)%nat -> map (skip i) (seq 0 (n - 1)) = seq 0 i ++ seq (S i) (n - S i).
Proof.
  intros i n H. replace (n - 1)%nat with (i + (n - S i))%nat by lia. rewrite seq_app, map_app. f_equal.
  - rewrite <- (map_id (seq 0 i)) at 2. apply map_ext_in. intros r Hr. apply in_seq in Hr. unfold skip.
    destruct (Nat.ltb_spec r i); lia.
  - rewrite Nat.add_0_l, <- seq_shift. apply map_ext_in. intros r Hr. apply in_seq in Hr. unfold skip.
    destruct (Nat.ltb_spec r i); lia.
Qed.
Lemma split_seq : forall i n, (i < n)%nat -> seq 0 n = seq 0 i ++ i :: seq (S i) (n - S i).
Proof. intros i n H. replace n with (i + S (n - S i))%nat at 1 by lia. rewrite seq_app. reflexivity. Qed.

Section L.
Context {K : CField}.
Add Ring K_ring147 : (rth K).
Local Open Scope cr_scope.

Lemma spicks_expand : forall (l : list nat) (G : nat -> list nat -> K),
  sumf (fun p => fst p * G (fst (snd p)) (snd (snd p))) (spicks (K := K) l) =
  sumf (fun k => m1pow k * G (nth k l 0%nat) (firstn k l ++ skipn (S k) l)) (seq 0 (length l)).
Proof.
  induction l as [|x l IH]; intros G; [reflexivity|]. rewrite spicks_cons, sumf_cons, sumf_map. cbn [fst snd length].
  change (seq 0 (S (length l))) with (0%nat :: seq 1 (length l)). rewrite sumf_cons. cbn [firstn skipn nth app]. f_equal.
  rewrite <- seq_shift, sumf_map.
  transitivity (- sumf (fun p => fst p * G (fst (snd p)) (x :: snd (snd p))) (spicks (K := K) l)).
  - transitivity (sumf (fun p => (- (1)) * (fst p * G (fst (snd p)) (x :: snd (snd p)))) (spicks (K := K) l)).
    + apply sumf_ext. intros; ring.
    + rewrite sumf_mul_l. ring.
  - rewrite (IH (fun u v => G u (x :: v))).
    transitivity (sumf (fun k => (- (1)) * (m1pow k * G (nth k l 0%nat) (x :: firstn k l ++ skipn (S k) l))) (seq 0 (length l))).
    + rewrite sumf_mul_l. ring.
    + apply sumf_ext. intros k _. rewrite m1pow_S. cbn [nth firstn skipn app]. ring.
Qed.

Lemma det_minor : forall n (m : nat -> nat -> K) i j, (i < n)%nat -> (j < n)%nat ->
  det (n - 1) (minor m i j) = detR (map m (seq 0 i ++ seq (S i) (n - S i))) (seq 0 j ++ seq (S j) (n - S j)).
Proof.
  intros n m i j Hi Hj. rewrite det_detR, <- !skip_seq by auto. rewrite detR_map, !map_map. reflexivity.
Qed.

(** expansion along a row, with another row in its place *)
Lemma row_expand : forall n (m : nat -> nat -> K) i j, (i < n)%nat -> (j < n)%nat ->
  sumf (fun k => m j k * cofactor n m i k) (seq 0 n) = if Nat.eqb i j then det n m else 0.
Proof.
  intros n m i j Hi Hj.
  transitivity (detR (map m (seq 0 i) ++ m j :: map m (seq (S i) (n - S i))) (seq 0 n)).
  - rewrite detR_front, map_length, seq_length. cbn [detR].
    rewrite (spicks_expand (seq 0 n) (fun x r => m j x * detR (map m (seq 0 i) ++ map m (seq (S i) (n - S i))) r)).
    rewrite seq_length, <- sumf_mul_l. apply sumf_ext. intros k Hk. apply in_seq in Hk.
    rewrite seq_nth by lia. rewrite Nat.add_0_l. unfold cofactor. rewrite det_minor by lia. rewrite m1pow_add, map_app.
    assert (F : firstn k (seq 0 n) ++ skipn (S k) (seq 0 n) = seq 0 k ++ seq (S k) (n - S k)).
    { rewrite (split_seq k n) by lia. rewrite firstn_app, skipn_app, seq_length, Nat.sub_diag. cbn [firstn].
      rewrite app_nil_r, firstn_all2 by (rewrite seq_length; lia). rewrite skipn_all2 by (rewrite seq_length; lia).
      replace (S k - k)%nat with 1%nat by lia. reflexivity. }
    rewrite F. ring.
  - destruct (Nat.eqb_spec i j) as [<-|N].
    + rewrite det_detR. f_equal. rewrite (split_seq i n) by lia. rewrite map_app. reflexivity.
    + destruct (Nat.lt_ge_cases j i) as [L|L].
      * rewrite (split_seq j i) by lia. rewrite map_app. cbn [map]. rewrite <- app_assoc. cbn [app]. apply detR_equal_rows.
      * assert (In j (seq (S i) (n - S i))) as Hin by (apply in_seq; lia). apply in_split in Hin as (a & b & ->).
        rewrite map_app. cbn [map]. apply detR_equal_rows.
Qed.

Lemma det_transpose : forall n (m : nat -> nat -> K), det n (fun i j => m j i) = det n m.
Proof. intros n m. rewrite !det_detR. symmetry. apply detR_transpose. reflexivity. Qed.
Lemma cofactor_transpose : forall n (m : nat -> nat -> K) i j, cofactor n (fun i j => m j i) i j = cofactor n m j i.
Proof.
  intros n m i j. unfold cofactor. rewrite Nat.add_comm. f_equal.
  exact (det_transpose (n - 1) (minor m j i)).
Qed.
(** the transposed cofactors times the matrix *)
Lemma adj_left : forall n (m : nat -> nat -> K) i j, (i < n)%nat -> (j < n)%nat ->
  mat_mul n (fun a b => cofactor n m b a) m i j = det n m * unit_mat i j.
Proof.
  intros n m i j Hi Hj. pose proof (row_expand n (fun a b => m b a) i j Hi Hj) as E. rewrite det_transpose in E.
  unfold mat_mul, unit_mat. transitivity (if Nat.eqb i j then det n m else 0).
  - rewrite <- E. apply sumf_ext. intros k _. rewrite cofactor_transpose. ring.
  - destruct (Nat.eqb i j); ring.
Qed.
Lemma unit_sum : forall n (g : nat -> K) i, (i < n)%nat -> sumf (fun k => unit_mat i k * g k) (seq 0 n) = g i.
Proof.
  intros n g i H. rewrite (split_seq i n H), sumf_app, sumf_cons. unfold unit_mat. rewrite Nat.eqb_refl.
  rewrite !sumf_zero; [ring| |]; intros k Hk; apply in_seq in Hk; destruct (Nat.eqb_spec i k); try lia; ring.
Qed.
Lemma adj_unique : forall n (m x : nat -> nat -> K), (forall i j, (i < n)%nat -> (j < n)%nat -> mat_mul n m x i j = unit_mat i j) ->
  forall i j, (i < n)%nat -> (j < n)%nat -> det n m * x i j = cofactor n m j i.
Proof.
  intros n m x H i j Hi Hj.
  transitivity (sumf (fun k => cofactor n m k i * mat_mul n m x k j) (seq 0 n)).
  - unfold mat_mul. transitivity (sumf (fun l => mat_mul n (fun a b => cofactor n m b a) m i l * x l j) (seq 0 n)).
    + rewrite <- (unit_sum n (fun l => x l j) i Hi), <- sumf_mul_l. apply sumf_ext. intros l Hl. apply in_seq in Hl.
      rewrite adj_left by lia. ring.
    + unfold mat_mul.
      rewrite (sumf_ext _ (fun l => sumf (fun k => cofactor n m k i * (m k l * x l j)) (seq 0 n))).
      * rewrite sumf_swap. apply sumf_ext. intros k _. now rewrite sumf_mul_l.
      * intros l _. rewrite (Rmul_comm (rth K)), <- sumf_mul_l. apply sumf_ext. intros. ring.
  - rewrite <- (unit_sum n (fun k => cofactor n m k i) j Hj). apply sumf_ext. intros k Hk. apply in_seq in Hk.
    rewrite H by lia. unfold unit_mat. rewrite (Nat.eqb_sym k j). ring.
Qed.
Lemma cof_inv_right : forall n (m : nat -> nat -> K), det n m <> 0 -> forall i j, (i < n)%nat -> (j < n)%nat ->
  mat_mul n m (fun i j => finv (det n m) * cofactor n m j i) i j = unit_mat i j.
Proof.
  intros n m D i j Hi Hj. unfold mat_mul.
  transitivity (finv (det n m) * (if Nat.eqb j i then det n m else 0)).
  - rewrite <- row_expand by auto. rewrite <- sumf_mul_l. apply sumf_ext. intros; ring.
  - unfold unit_mat. rewrite (Nat.eqb_sym j i). destruct (Nat.eqb i j); [|ring]. now apply f_inv.
Qed.
End L.
