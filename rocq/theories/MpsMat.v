(** Products of the selected matrices of a matrix product state. *)
From Coq Require Import List ZArith NArith Arith Bool Lia.
From Verif Require Import Py Slater Alg WfnCI Mps MpsSpec MpsLemmas.
Import ListNotations.

Lemma rows_pos : forall D i, 0 < i -> nrows D i = D.
Proof. intros D i Hi. unfold nrows. destruct (Nat.eqb_spec i 0); lia. Qed.
Lemma cols_pos : forall K D i, S i < K -> ncols K D i = D.
Proof. intros K D i Hi. unfold ncols. destruct (Nat.eqb_spec (S i) K); lia. Qed.

Lemma shape_ok : forall K D i, (2 <= K)%nat -> (i < K)%nat -> matrix_shape K D (Z.of_nat i) = Ok (4%nat, nrows D i, ncols K D i).
Proof.
  intros K D i HK Hi. unfold matrix_shape, nrows, ncols.
  replace ((0 <=? Z.of_nat i)%Z && (Z.of_nat i <? Z.of_nat K)%Z)%bool with true.
  2: { symmetry. apply andb_true_iff. rewrite Z.leb_le, Z.ltb_lt. lia. }
  cbn [negb]. destruct (Z.eqb_spec (Z.of_nat i) 0), (Nat.eqb_spec i 0); try lia.
  - destruct (Nat.eqb_spec (S i) K); [lia|]. reflexivity.
  - destruct (Z.ltb_spec (Z.of_nat i) (Z.of_nat K - 1)), (Nat.eqb_spec (S i) K); try lia; reflexivity.
Qed.
Lemma shape_bad : forall K D z, ~ (0 <= z < Z.of_nat K)%Z -> matrix_shape K D z = Err ValueError.
Proof.
  intros K D z H. unfold matrix_shape. replace ((0 <=? z)%Z && (z <? Z.of_nat K)%Z)%bool with false; [reflexivity|].
  symmetry. apply andb_false_iff. rewrite Z.leb_gt, Z.ltb_ge. lia.
Qed.
Lemma indices_ok : forall K D i, (2 <= K)%nat -> (i < K)%nat -> matrix_indices K D (Z.of_nat i) = Ok (mstart D i, (mstart D i + msize K D i)%nat).
Proof.
  intros K D i HK Hi. unfold matrix_indices. rewrite shape_ok by auto. cbn [bind size3].
  unfold mstart, msize. destruct (Z.eqb_spec (Z.of_nat i) 0), (Nat.eqb_spec i 0); try lia.
  - rewrite Nat.mul_assoc. reflexivity.
  - change (matrix_shape K D 0) with (matrix_shape K D (Z.of_nat 0)). change (matrix_shape K D 1) with (matrix_shape K D (Z.of_nat 1)).
    rewrite !shape_ok by lia. cbn [bind size3].
    replace (Z.to_nat (Z.of_nat i - 1)) with (i - 1)%nat by lia.
    assert (E : ((4 * nrows D 0 * ncols K D 0)%nat + (4 * nrows D 1 * ncols K D 1) * (i - 1) = 4 * D + 4 * (D * D) * (i - 1))%nat).
    { unfold nrows, ncols. destruct (Nat.eqb_spec 1 K); [lia|]. destruct (Nat.eqb_spec 2 K); [replace (i - 1)%nat with 0%nat by lia|]; change (Nat.eqb 0 0) with true; change (Nat.eqb 1 0) with false; cbv iota; ring. }
    rewrite E. rewrite (Nat.mul_assoc 4 (nrows D i)). reflexivity.
Qed.

Section Mat.
Context {R : CRing}.
Local Open Scope cr_scope.
Add Ring K_ring60 : (rth R).
Definition matf (a b : nat) (f : nat -> nat -> R) : mat (R := R) := map (fun r => map (f r) (seq 0%nat b)) (seq 0%nat a).
Lemma matf_ext : forall a b f g, (forall r c, (r < a)%nat -> (c < b)%nat -> f r c = g r c) -> matf a b f = matf a b g.
Proof.
  intros a b f g H. apply map_ext_in. intros r Hr. apply map_ext_in. intros c Hc. apply in_seq in Hr. apply in_seq in Hc. apply H; lia.
Qed.
Lemma mdot_matf : forall a b c f g, (0 < b)%nat ->
  mdot (matf a b f) (matf b c g) = matf a c (fun i j => sumf (fun k => f i k * g k j) (seq 0%nat b)).
Proof.
  intros a b c f g Hb. unfold mdot. change (matf a b f) with (map (fun r => map (f r) (seq 0%nat b)) (seq 0%nat a)). rewrite map_map.
  match goal with |- _ = matf _ _ ?h => change (matf a c h) with (map (fun r => map (h r) (seq 0%nat c)) (seq 0%nat a)) end.
  apply map_ext_in. intros r Hr.
  replace (length (hd [] (matf b c g))) with c.
  2: { unfold matf. destruct b; [lia|]. cbn [seq map hd]. rewrite map_length, seq_length. reflexivity. }
  apply map_ext_in. intros j Hj. rewrite map_length, seq_length. apply sumf_ext. intros k Hk. apply in_seq in Hk. apply in_seq in Hj.
  rewrite nth_map_seq by lia. unfold matf. rewrite nth_map_seq by lia. rewrite nth_map_seq by lia. reflexivity.
Qed.

Variable w : mps R.
Notation K := (mp_K w).
Notation D := (mp_dim w).
Hypothesis HK : (2 <= K)%nat.
Hypothesis HD : (1 <= D)%nat.
Hypothesis HP : length (mp_params w) = nparams K D.
Definition ent (i n r c : nat) : R := nth (mpos K D i n r c) (mp_params w) 0.

Lemma selected_ok : forall i n, (i < K)%nat -> (n < 4)%nat -> selected w i n = Ok (matf (nrows D i) (ncols K D i) (ent i n)).
Proof.
  intros i n Hi Hn. unfold selected, get_matrix. rewrite indices_ok, shape_ok by auto. cbn [bind fst snd size3].
  pose proof (msize_end K D i HK Hi) as B.
  rewrite slice_length by lia. unfold msize at 1. rewrite Nat.mul_assoc, Nat.eqb_refl. cbn [bind].
  f_equal. apply map_ext_in. intros r Hr. apply in_seq in Hr.
  assert (E : ((n * nrows D i + r) * ncols K D i + ncols K D i <= msize K D i)%nat).
  { unfold msize. assert (n * nrows D i + r + 1 <= 4 * nrows D i)%nat by nia. nia. }
  rewrite (slice_map 0) by (rewrite slice_length by lia; exact E).
  apply map_ext_in. intros c Hc. apply in_seq in Hc. rewrite slice_nth by lia. unfold ent, mpos. reflexivity.
Qed.

(** the product of the matrices i, ..., i + l *)
Variable ns : list nat.
Hypothesis Hns : length ns = K.
Hypothesis Hn4 : forall i, (i < K)%nat -> (nth i ns 0 < 4)%nat.
Definition fac (i r c : nat) : R := ent i (nth i ns 0%nat) r c.
Fixpoint chain (i l r c : nat) : R :=
  match l with
  | O => fac i r c
  | S l => sumf (fun k => chain i l r k * fac (i + S l) k c) (seq 0%nat D)
  end.
Lemma chain_left : forall l i r c, chain i (S l) r c = sumf (fun k => fac i r k * chain (S i) l k c) (seq 0%nat D).
Proof.
  induction l as [|l IH]; intros i r c.
  - cbn [chain]. rewrite Nat.add_1_r. reflexivity.
  - change (chain i (S (S l)) r c) with (sumf (fun k => chain i (S l) r k * fac (i + S (S l)) k c) (seq 0%nat D)).
    transitivity (sumf (fun k => sumf (fun m => fac i r m * (chain (S i) l m k * fac (i + S (S l)) k c)) (seq 0%nat D)) (seq 0%nat D)).
    { apply sumf_ext. intros k _. rewrite IH. rewrite <- sumf_mul_r. apply sumf_ext. intros m _. ring. }
    rewrite sumf_swap. apply sumf_ext. intros m _. rewrite sumf_mul_l. f_equal.
    change (chain (S i) (S l) m c) with (sumf (fun k => chain (S i) l m k * fac (S i + S l) k c) (seq 0%nat D)).
    apply sumf_ext. intros k _. f_equal. f_equal. lia.
Qed.
Lemma chain_fold : forall len i j, (0 < j)%nat -> (i < j)%nat -> (j + len <= K)%nat ->
  fold_left (fun acc i => do t <- acc; do m <- selected w i (nth i ns 0%nat); Ok (mdot t m)) (seq j len)
            (Ok (matf (nrows D i) (ncols K D (j - 1)) (chain i (j - 1 - i))))
  = Ok (matf (nrows D i) (ncols K D (j + len - 1)) (chain i (j + len - 1 - i))).
Proof.
  induction len as [|len IH]; intros i j Hj Hij HL; cbn [seq fold_left].
  - rewrite Nat.add_0_r. reflexivity.
  - cbn [bind]. rewrite selected_ok by (try apply Hn4; lia). cbn [bind].
    rewrite (cols_pos K D (j - 1)) by lia. rewrite (rows_pos D j) by lia. rewrite mdot_matf by lia.
    specialize (IH i (S j) ltac:(lia) ltac:(lia) ltac:(lia)). replace (S j - 1)%nat with j in IH by lia.
    replace (S j + len - 1)%nat with (j + S len - 1)%nat in IH by lia. rewrite <- IH. f_equal. f_equal. apply matf_ext.
    intros r c Hr Hc. replace (j - i)%nat with (S (j - 1 - i)) by lia. cbn [chain]. apply sumf_ext. intros k _.
    replace (i + S (j - 1 - i))%nat with j by lia. reflexivity.
Qed.
Lemma right_ok : forall k, (S k < K)%nat -> mps_right w ns k = Ok (matf D 1%nat (chain (S k) (K - S (S k)))).
Proof.
  intros k Hk. unfold mps_right. rewrite selected_ok by (try apply Hn4; lia). cbn [bind]. rewrite Hns.
  pose proof (chain_fold (K - S (S k)) (S k) (S (S k)) ltac:(lia) ltac:(lia) ltac:(lia)) as E.
  replace (S (S k) - 1)%nat with (S k) in E by lia. rewrite Nat.sub_diag in E.
  replace (S (S k) + (K - S (S k)) - 1)%nat with (K - 1)%nat in E by lia.
  replace (K - 1 - S k)%nat with (K - S (S k))%nat in E by lia. rewrite rows_pos in E at 2 by lia.
  replace (ncols K D (K - 1)) with 1%nat in E. 2: { unfold ncols. destruct (Nat.eqb_spec (S (K - 1)) K); lia. }
  exact E.
Qed.
Lemma left_fold : forall m j, (j = m)%nat -> (S j < K)%nat -> forall l, (S (j + l) < K)%nat ->
  fold_left (fun acc i => do t <- acc; do m <- selected w i (nth i ns 0%nat); Ok (mdot m t)) (rev (seq 0%nat j))
            (Ok (matf (nrows D j) D (chain j l)))
  = Ok (matf 1%nat D (chain 0 (j + l))).
Proof.
  induction m as [|m IH]; intros j Ej Hj l Hl; subst j.
  - reflexivity.
  - rewrite seq_S, rev_app_distr. cbn [rev app fold_left bind Nat.add].
    rewrite selected_ok by (try apply Hn4; lia). cbn [bind]. rewrite (rows_pos D (S m)) by lia. rewrite (cols_pos K D m) by lia.
    rewrite mdot_matf by lia. specialize (IH m eq_refl ltac:(lia) (S l) ltac:(lia)).
    replace (S (m + l)) with (m + S l)%nat by lia. rewrite <- IH. f_equal. f_equal. apply matf_ext. intros r c _ _.
    rewrite chain_left. reflexivity.
Qed.
Lemma left_ok : forall k, (0 < k)%nat -> (k < K)%nat -> mps_left w ns k = Ok (matf 1%nat D (chain 0 (k - 1))).
Proof.
  intros k Hk HkK. unfold mps_left. rewrite selected_ok by (try apply Hn4; lia). cbn [bind]. rewrite cols_pos by lia.
  pose proof (left_fold (k - 1) (k - 1) eq_refl ltac:(lia) 0 ltac:(lia)) as E. rewrite Nat.add_0_r in E. exact E.
Qed.
Lemma olp_chain : forall sd, occupation_indices w sd = Ok ns -> mps_olp w sd = Ok (chain 0 (K - 1) 0%nat 0%nat).
Proof.
  intros sd E. unfold mps_olp. rewrite E. cbn [bind]. destruct ns as [|n0 t] eqn:En; [cbn in Hns; lia|]. rewrite <- En in *.
  replace n0 with (nth 0 ns 0%nat) by (rewrite En; reflexivity). rewrite selected_ok by (try apply Hn4; lia). cbn [bind]. rewrite Hns.
  pose proof (chain_fold (K - 1) 0 1 ltac:(lia) ltac:(lia) ltac:(lia)) as F. cbn [Nat.sub] in F.
  replace (1 + (K - 1) - 1 - 0)%nat with (K - 1)%nat in F by lia. replace (1 + (K - 1) - 1)%nat with (K - 1)%nat in F by lia.
  match goal with |- bind ?X _ = _ => replace X with (Ok (matf (nrows D 0) (ncols K D (K - 1)) (chain 0 (K - 1)))) by (symmetry; exact F) end.
  cbn [bind].
  replace (ncols K D (K - 1)) with 1%nat by (unfold ncols; destruct (Nat.eqb_spec (S (K - 1)) K); lia). reflexivity.
Qed.
(** the overlap as a function of one matrix *)
Definition lvec (k r : nat) : R := if Nat.eqb k 0 then 1 else chain 0 (k - 1) 0%nat r.
Definition rvec (k c : nat) : R := if Nat.eqb (S k) K then 1 else chain (S k) (K - S (S k)) c 0%nat.
Lemma chain_mid : forall l i m r c, (m < l)%nat -> chain i l r c = sumf (fun k => chain i m r k * chain (i + S m) (l - S m) k c) (seq 0%nat D).
Proof.
  induction l as [|l IH]; intros i m r c Hm; [lia|]. destruct (Nat.eq_dec m l) as [->|Ne].
  - rewrite Nat.sub_diag. reflexivity.
  - change (chain i (S l) r c) with (sumf (fun k => chain i l r k * fac (i + S l) k c) (seq 0%nat D)).
    transitivity (sumf (fun k => sumf (fun q => chain i m r q * (chain (i + S m) (l - S m) q k * fac (i + S l) k c)) (seq 0%nat D)) (seq 0%nat D)).
    { apply sumf_ext. intros k _. rewrite (IH i m) by lia. rewrite <- sumf_mul_r. apply sumf_ext. intros q _. ring. }
    rewrite sumf_swap. apply sumf_ext. intros q _. rewrite sumf_mul_l. f_equal.
    replace (S l - S m)%nat with (S (l - S m)) by lia.
    change (chain (i + S m) (S (l - S m)) q c) with (sumf (fun k => chain (i + S m) (l - S m) q k * fac (i + S m + S (l - S m)) k c) (seq 0%nat D)).
    apply sumf_ext. intros k _. f_equal. f_equal. lia.
Qed.
Lemma chain_affine : forall k, (k < K)%nat -> chain 0 (K - 1) 0%nat 0%nat =
  sumf (fun r => sumf (fun c => lvec k r * fac k r c * rvec k c) (seq 0%nat (ncols K D k))) (seq 0%nat (nrows D k)).
Proof.
  intros k Hk.
  assert (A : forall r, sumf (fun c => lvec k r * fac k r c * rvec k c) (seq 0%nat (ncols K D k)) = lvec k r * chain k (K - 1 - k) r 0%nat).
  { intros r. unfold rvec, ncols. destruct (Nat.eqb_spec (S k) K) as [E|E].
    - replace (K - 1 - k)%nat with 0%nat by lia. cbn [seq chain]. rewrite sumf_cons. cbn. ring.
    - replace (K - 1 - k)%nat with (S (K - S (S k))) by lia. rewrite chain_left. rewrite <- sumf_mul_l. apply sumf_ext. intros c _. ring. }
  rewrite (sumf_ext _ _ _ (fun r _ => A r)). unfold lvec, nrows. destruct (Nat.eqb_spec k 0) as [->|E].
  - cbn [seq]. rewrite sumf_cons. rewrite Nat.sub_0_r. cbn. ring.
  - rewrite (chain_mid (K - 1) 0 (k - 1)) by lia. apply sumf_ext. intros r _.
    replace (0 + S (k - 1))%nat with k by lia. replace (K - 1 - S (k - 1))%nat with (K - 1 - k)%nat by lia. reflexivity.
Qed.
(** the path sum *)
Lemma chain_paths : forall l i r c, chain i l r c =
  sumf (fun bs => prodf (fun j => fac (i + j) (nth j (r :: bs ++ [c]) 0%nat) (nth (S j) (r :: bs ++ [c]) 0%nat)) (seq 0%nat (S l))) (bonds D l).
Proof.
  induction l as [|l IH]; intros i r c.
  - cbn. rewrite Nat.add_0_r. ring.
  - rewrite chain_left. cbn [bonds]. rewrite sumf_flat_map. apply sumf_ext. intros b _. rewrite sumf_map. rewrite IH.
    rewrite <- sumf_mul_l. apply sumf_ext. intros bs _.
    change (seq 0 (S (S l))) with (0%nat :: seq 1 (S l)). rewrite prodf_cons. rewrite <- (seq_shift (S l) 0), prodf_map.
    rewrite Nat.add_0_r. cbn [app]. f_equal. apply prodf_ext. intros j _. cbn [nth]. f_equal. lia.
Qed.
End Mat.

(** decompose_index *)
Lemma decompose_pos : forall K D i n r c, (2 <= K)%nat -> (1 <= D)%nat -> valid_entry K D i n r c ->
  decompose_index K D (Z.of_nat (mpos K D i n r c)) = Ok (Z.of_nat i, n, r, c).
Proof.
  intros K D i n r c HK HD V. pose proof V as (Hi & Hn & Hr & Hc). pose proof (inner_lt _ _ n r c Hn Hr Hc) as L.
  unfold decompose_index. change 0%Z with (Z.of_nat 0) at 1. rewrite indices_ok by lia. cbn [bind fst snd].
  assert (E0 : (mstart D 0 + msize K D 0 = 4 * D)%nat).
  { unfold mstart, msize, nrows, ncols. destruct (Nat.eqb_spec 1 K); [lia|]. change (Nat.eqb 0 0) with true. cbv iota. lia. }
  rewrite E0. change (mstart D 0) with 0%nat. destruct (Nat.eq_dec i 0) as [->|Ni].
  - assert (B : (mpos K D 0 n r c < 4 * D)%nat) by (unfold mpos; unfold msize in E0; lia).
    replace ((Z.of_nat 0 <=? Z.of_nat (mpos K D 0 n r c))%Z && (Z.of_nat (mpos K D 0 n r c) <? Z.of_nat (4 * D))%Z)%bool with true
      by (symmetry; apply andb_true_iff; rewrite Z.leb_le, Z.ltb_lt; lia).
    cbn [bind fst snd]. change 0%Z with (Z.of_nat 0). rewrite shape_ok by lia. cbn [bind]. unfold mpos. change (mstart D 0) with 0%nat. rewrite Nat.add_0_l.
    rewrite unravel_ok by auto. reflexivity.
  - pose proof (mstart_mono K D 0 i HK ltac:(lia) Hi) as M. rewrite E0 in M.
    replace ((Z.of_nat 0 <=? Z.of_nat (mpos K D i n r c))%Z && (Z.of_nat (mpos K D i n r c) <? Z.of_nat (4 * D))%Z)%bool with false
      by (symmetry; apply andb_false_iff; rewrite Z.leb_gt, Z.ltb_ge; unfold mpos; lia).
    change 1%Z with (Z.of_nat 1) at 1. rewrite shape_ok by lia. cbn [bind size3].
    assert (Ei : ((Z.of_nat (mpos K D i n r c) - Z.of_nat (4 * D)) / Z.of_nat (4 * nrows D 1 * ncols K D 1) + 1 = Z.of_nat i)%Z).
    { unfold mpos, mstart. destruct (Nat.eqb_spec i 0); [lia|]. set (q := ((n * nrows D i + r) * ncols K D i + c)%nat) in *.
      rewrite (rows_pos D i) in L by lia. rewrite rows_pos by lia. destruct (Nat.eq_dec K 2) as [->|N2].
      - assert (i = 1)%nat as -> by lia. rewrite Z.div_small; [lia|]. rewrite <- Nat.mul_assoc. lia.
      - rewrite (cols_pos K D 1) by lia.
        assert (q < 4 * (D * D))%nat. { unfold ncols in L. destruct (Nat.eqb (S i) K); [|exact L]. nia. }
        replace (Z.of_nat (4 * D + 4 * (D * D) * (i - 1) + q) - Z.of_nat (4 * D))%Z with (Z.of_nat q + (Z.of_nat i - 1) * Z.of_nat (4 * D * D))%Z.
        + rewrite Z.div_add by lia. rewrite Z.div_small; [lia|]. rewrite <- Nat.mul_assoc. lia.
        + rewrite !Nat2Z.inj_add, !Nat2Z.inj_mul, Nat2Z.inj_sub by lia. ring. }
    rewrite Ei. rewrite indices_ok by lia. cbn [bind fst snd]. rewrite shape_ok by lia. cbn [bind].
    replace (Z.of_nat (mpos K D i n r c) - Z.of_nat (mstart D i))%Z with (Z.of_nat ((n * nrows D i + r) * ncols K D i + c)) by (unfold mpos; lia).
    rewrite unravel_ok by auto. reflexivity.
Qed.
Lemma decompose_out : forall K D p, (2 <= K)%nat -> (1 <= D)%nat -> (p < 0 \/ Z.of_nat (nparams K D) <= p)%Z -> decompose_index K D p = Err ValueError.
Proof.
  intros K D p HK HD H. unfold decompose_index. change 0%Z with (Z.of_nat 0) at 1. rewrite indices_ok by lia. cbn [bind fst snd].
  pose proof (msize_end K D 0 HK ltac:(lia)) as B.
  replace ((Z.of_nat (mstart D 0) <=? p)%Z && (p <? Z.of_nat (mstart D 0 + msize K D 0))%Z)%bool with false
    by (symmetry; apply andb_false_iff; rewrite Z.leb_gt, Z.ltb_ge; cbn [mstart Nat.eqb] in *; lia).
  change 1%Z with (Z.of_nat 1) at 1. rewrite shape_ok by lia. cbn [bind].
  set (i := (_ / _ + 1)%Z). destruct (Z.le_gt_cases 0 i) as [L1|L1]; [destruct (Z.lt_ge_cases i (Z.of_nat K)) as [L2|L2]|].
  - rewrite <- (Z2Nat.id i) by lia. rewrite indices_ok by lia. cbn [bind fst snd]. rewrite shape_ok by lia. cbn [bind]. rewrite unravel_out; [reflexivity|].
    intros [Q1 Q2]. pose proof (msize_end K D (Z.to_nat i) HK ltac:(lia)). unfold msize in *. rewrite <- Nat.mul_assoc in Q2. lia.
  - unfold matrix_indices. rewrite shape_bad by lia. reflexivity.
  - unfold matrix_indices. rewrite shape_bad by lia. reflexivity.
Qed.
