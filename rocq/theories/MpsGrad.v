(** The gradient vector of a matrix product state. *)
From Coq Require Import List ZArith NArith Arith Bool Lia.
From Verif Require Import Py Slater Alg WfnCI Mps MpsSpec MpsLemmas MpsMat BicliqueLemmas.
Import ListNotations.

Section Grad.
Context {R : CRing}.
Local Open Scope cr_scope.
Add Ring K_ring61 : (rth R).
Variable w : mps R.
Notation K := (mp_K w).
Notation D := (mp_dim w).
Hypothesis HK : (2 <= K)%nat.
Hypothesis HD : (1 <= D)%nat.
Hypothesis HP : length (mp_params w) = nparams K D.
Variable ns : list nat.
Hypothesis Hns : length ns = K.
Hypothesis Hn4 : forall i, (i < K)%nat -> (nth i ns 0 < 4)%nat.
Variable sd : N.
Hypothesis Hocc : occupation_indices w sd = Ok ns.
Notation lvec := (lvec w ns).
Notation rvec := (rvec w ns).

Definition bsize (k : nat) : nat := if (Nat.ltb 0 k && Nat.ltb k (K - 1))%bool then (D * D)%nat else D.
Definition outer (k : nat) : list R :=
  flat_map (fun r => map (fun c => lvec k r * rvec k c) (seq 0%nat (ncols K D k))) (seq 0%nat (nrows D k)).
Lemma bsize_eq : forall k, (k < K)%nat -> bsize k = (nrows D k * ncols K D k)%nat.
Proof.
  intros k Hk. unfold bsize, nrows, ncols. destruct (Nat.ltb_spec 0 k), (Nat.ltb_spec k (K - 1)), (Nat.eqb_spec k 0), (Nat.eqb_spec (S k) K); cbn [andb]; lia.
Qed.
Lemma block_start_eq : forall k n, (k < K)%nat -> block_start K D k n = (mstart D k + n * (nrows D k * ncols K D k))%nat.
Proof.
  intros k n Hk. unfold block_start, mstart, nrows, ncols. destruct (Nat.eqb_spec k 0) as [->|]; [destruct (Nat.eqb_spec 1 K); [lia|ring]|].
  destruct (Nat.ltb_spec k (K - 1)), (Nat.eqb_spec (S k) K); try lia; try ring.
Qed.
Lemma outer_length : forall k, length (outer k) = (nrows D k * ncols K D k)%nat.
Proof. intros. unfold outer. apply flat_map_const. intros. rewrite map_length, seq_length. reflexivity. Qed.
Lemma outer_nth : forall k r c, (r < nrows D k)%nat -> (c < ncols K D k)%nat -> nth (r * ncols K D k + c)%nat (outer k) 0 = lvec k r * rvec k c.
Proof.
  intros k r c Hr Hc. unfold outer. rewrite nth_flat with (m := ncols K D k); auto.
  - rewrite nth_map_seq by auto. reflexivity.
  - intros. rewrite map_length, seq_length. reflexivity.
Qed.
Lemma block_ok : forall k, (k < K)%nat -> mps_block w sd k = Ok (outer k).
Proof.
  intros k Hk. unfold mps_block. rewrite Hocc. cbn [bind]. rewrite Hns. unfold outer, MpsMat.lvec, MpsMat.rvec, nrows, ncols.
  destruct (Nat.ltb_spec k (K - 1)), (Nat.ltb_spec 0 k), (Nat.eqb_spec k 0), (Nat.eqb_spec (S k) K); try lia.
  - rewrite (right_ok w HK HD HP ns Hns Hn4) by lia. cbn [bind]. rewrite (left_ok w HK HD HP ns Hns Hn4) by lia. cbn [bind]. f_equal.
    unfold matf. cbn [seq map hd]. rewrite flat_map_concat_map, map_map, <- flat_map_concat_map. apply flat_map_ext. intros r.
    rewrite map_map. reflexivity.
  - rewrite (right_ok w HK HD HP ns Hns Hn4) by lia. cbn [bind]. f_equal. unfold matf. rewrite map_map. cbn [seq map flat_map nth].
    rewrite app_nil_r. apply map_ext. intros c. ring.
  - rewrite (left_ok w HK HD HP ns Hns Hn4) by lia. cbn [bind]. f_equal. unfold matf. cbn [seq map hd].
    rewrite flat_map_concat_map. generalize (seq 0%nat D). intros l. induction l as [|x l IH]; cbn [map concat app]; [reflexivity|]. f_equal; [ring|exact IH].
Qed.
Lemma write_ok : forall (out : list R) s size b, (s + size <= length out)%nat -> length b = size ->
  exists out', write out s size b = Ok out' /\ length out' = length out /\
    forall p, nth p out' 0 = if (Nat.leb s p && Nat.ltb p (s + size))%bool then nth (p - s) b 0 else nth p out 0.
Proof.
  intros out s size b H E. unfold write. rewrite slice_length by auto. rewrite E, Nat.eqb_refl. eexists. split; [reflexivity|]. split.
  - rewrite !app_length, firstn_length, skipn_length, E. lia.
  - intros p. destruct (Nat.leb_spec s p); cbn [andb].
    + rewrite app_nth2; rewrite firstn_length; [|lia]. rewrite Nat.min_l by lia. destruct (Nat.ltb_spec p (s + size)).
      * rewrite app_nth1 by lia. reflexivity.
      * rewrite app_nth2 by lia. rewrite E. rewrite <- (firstn_skipn (s + size) out) at 2. rewrite app_nth2; rewrite firstn_length; [|lia].
        f_equal. lia.
    + rewrite app_nth1 by (rewrite firstn_length; lia). rewrite <- (firstn_skipn s out) at 2. rewrite app_nth1 by (rewrite firstn_length; lia). reflexivity.
Qed.
Definition gent (i n r c : nat) : R := if Nat.eqb n (nth i ns 0%nat) then lvec i r * rvec i c else 0.
Lemma gradient_ok : exists out, mps_gradient w sd = Ok out /\ length out = length (mp_params w) /\
  forall i n r c, valid_entry K D i n r c -> nth (mpos K D i n r c) out 0 = gent i n r c.
Proof.
  unfold mps_gradient. rewrite Hocc. cbn [bind].
  assert (G : forall len j out, (j + len = K)%nat -> length out = length (mp_params w) ->
    (forall i n r c, valid_entry K D i n r c -> nth (mpos K D i n r c) out 0 = if Nat.ltb i j then gent i n r c else 0) ->
    exists out', fold_left (fun acc k => do out <- acc; do b <- mps_block w sd k;
      let D := mp_dim w in write out (block_start (mp_K w) D k (nth k ns 0%nat)) (if (Nat.ltb 0 k && Nat.ltb k (mp_K w - 1))%bool then (D * D)%nat else D) b)
        (seq j len) (Ok out) = Ok out' /\ length out' = length (mp_params w) /\
      forall i n r c, valid_entry K D i n r c -> nth (mpos K D i n r c) out' 0 = gent i n r c).
  { induction len as [|len IH]; intros j out Hj Hl Hout; cbn [seq fold_left].
    - exists out. split; [reflexivity|]. split; [exact Hl|]. intros i n r c V. rewrite Hout by auto.
      destruct (Nat.ltb_spec i j); [reflexivity|]. destruct V. lia.
    - cbn [bind]. rewrite block_ok by lia. cbn [bind]. fold (bsize j). rewrite bsize_eq, block_start_eq by lia.
      pose proof (msize_end K D j HK ltac:(lia)) as B. unfold msize in B. pose proof (Hn4 j ltac:(lia)) as Hn.
      set (n0 := nth j ns 0%nat) in *. set (s := (nrows D j * ncols K D j)%nat) in *.
      destruct (write_ok out (mstart D j + n0 * s) s (outer j)) as (out' & -> & L & N').
      { rewrite Hl, HP. nia. }
      { apply outer_length. }
      apply IH; [lia|congruence|]. intros i n r c V. rewrite N'. destruct V as (Hi & Hn' & Hr & Hc).
      pose proof (inner_lt (nrows D i) (ncols K D i) n r c Hn' Hr Hc) as B1.
      destruct (Nat.eq_dec i j) as [->|Ne].
      + destruct (Nat.ltb_spec j (S j)); [|lia]. unfold gent. fold n0. unfold mpos.
        assert (Q : (r * ncols K D j + c < s)%nat) by (unfold s; assert (r + 1 <= nrows D j)%nat by lia; nia).
        assert (P : ((n * nrows D j + r) * ncols K D j + c = n * s + (r * ncols K D j + c))%nat) by (unfold s; ring).
        rewrite P. destruct (Nat.eqb_spec n n0) as [->|Nn].
        * destruct (Nat.leb_spec (mstart D j + n0 * s) (mstart D j + (n0 * s + (r * ncols K D j + c)))); [|lia].
          destruct (Nat.ltb_spec (mstart D j + (n0 * s + (r * ncols K D j + c))) (mstart D j + n0 * s + s)); [|lia]. cbn [andb].
          replace (mstart D j + (n0 * s + (r * ncols K D j + c)) - (mstart D j + n0 * s))%nat with (r * ncols K D j + c)%nat by lia.
          apply outer_nth; auto.
        * replace (_ && _)%bool with false.
          2: { symmetry. apply andb_false_iff. rewrite Nat.leb_gt, Nat.ltb_ge. assert (n < n0 \/ n0 < n)%nat as [X|X] by lia; [left|right]; nia. }
          rewrite <- P. change (nth (mpos K D j n r c) out 0 = 0). rewrite Hout by (repeat split; auto). destruct (Nat.ltb_spec j j); [lia|]. reflexivity.
      + replace (_ && _)%bool with false.
        2: { symmetry. apply andb_false_iff. rewrite Nat.leb_gt, Nat.ltb_ge. unfold mpos.
             destruct (Nat.lt_trichotomy i j) as [X|[X|X]]; [left|congruence|right].
             - pose proof (mstart_mono K D i j HK X ltac:(lia)) as M. unfold msize in M. lia.
             - pose proof (mstart_mono K D j i HK X Hi) as M. unfold msize in M. fold s in M. nia. }
        rewrite Hout by (repeat split; auto). destruct (Nat.ltb_spec i j), (Nat.ltb_spec i (S j)); try lia; reflexivity. }
  destruct (G K 0%nat (repeat 0 (length (mp_params w)))) as (out & E & L & Nn).
  - lia.
  - apply repeat_length.
  - intros i n r c V. cbn. apply nth_repeat.
  - exists out. split; [exact E|]. split; auto.
Qed.
End Grad.

Section Slope.
Context {R : CRing}.
Local Open Scope cr_scope.
Add Ring K_ring62 : (rth R).
Variable w : mps R.
Notation K := (mp_K w).
Notation D := (mp_dim w).
Hypothesis HK : (2 <= K)%nat.
Hypothesis HD : (1 <= D)%nat.
Hypothesis HP : length (mp_params w) = nparams K D.
Definition with_par (p : nat) (x : R) : mps R := mkmps (mp_nelec w) (mp_nspin w) (mp_dim w) (upd (mp_params w) p x).
Lemma with_par_occ : forall p x sd, occupation_indices (with_par p x) sd = occupation_indices w sd.
Proof. reflexivity. Qed.
Lemma with_par_ent : forall i n r c x i' n' r' c', valid_entry K D i n r c -> valid_entry K D i' n' r' c' ->
  ent (with_par (mpos K D i n r c) x) i' n' r' c' =
  if (Nat.eqb i i' && Nat.eqb n n' && Nat.eqb r r' && Nat.eqb c c')%bool then x else ent w i' n' r' c'.
Proof.
  intros i n r c x i' n' r' c' V V'. unfold ent, with_par. cbn [mp_K mp_nspin mp_dim mp_params]. unfold mp_K at 2. cbn [mp_nspin]. fold K.
  destruct (_ && _)%bool eqn:E.
  - apply andb_true_iff in E. destruct E as [E E4]. apply andb_true_iff in E. destruct E as [E E3]. apply andb_true_iff in E. destruct E as [E1 E2].
    apply Nat.eqb_eq in E1, E2, E3, E4. subst. apply nth_upd_eq. rewrite HP. apply mpos_lt; auto.
  - apply nth_upd_neq. intros Q. destruct (mpos_inj K D i n r c i' n' r' c' HK V V' Q) as (-> & -> & -> & ->).
    rewrite !Nat.eqb_refl in E. discriminate.
Qed.
Variable ns : list nat.
Hypothesis Hns : length ns = K.
Hypothesis Hn4 : forall i, (i < K)%nat -> (nth i ns 0 < 4)%nat.
Lemma with_par_chain : forall i n r c x, valid_entry K D i n r c -> forall l a b e, (a + l < K)%nat -> (b < nrows D a)%nat -> (e < ncols K D (a + l))%nat ->
  (i < a \/ a + l < i)%nat -> chain (with_par (mpos K D i n r c) x) ns a l b e = chain w ns a l b e.
Proof.
  intros i n r c x V. induction l as [|l IH]; intros a b e Ha Hb He Hi.
  - cbn [chain]. unfold fac. rewrite Nat.add_0_r in *. rewrite with_par_ent; auto.
    + destruct (Nat.eqb_spec i a); [lia|]. reflexivity.
    + repeat split; auto.
  - cbn [chain]. change (mp_dim (with_par (mpos K D i n r c) x)) with D. apply sumf_ext. intros k Hk. apply in_seq in Hk. f_equal.
    + apply IH; try lia. rewrite cols_pos by lia. lia.
    + unfold fac. rewrite with_par_ent; auto.
      * destruct (Nat.eqb_spec i (a + S l)); [lia|]. reflexivity.
      * repeat split; try apply Hn4; auto. rewrite rows_pos by lia. lia.
Qed.
Lemma slope_chain : forall i n r c x, valid_entry K D i n r c ->
  chain (with_par (mpos K D i n r c) x) ns 0 (K - 1) 0%nat 0%nat =
  chain w ns 0 (K - 1) 0%nat 0%nat + (x - ent w i n r c) * gent w ns i n r c.
Proof.
  intros i n r c x V. pose proof V as (Hi & Hn & Hr & Hc). set (w' := with_par (mpos K D i n r c) x).
  assert (HP' : length (mp_params w') = nparams (mp_K w') (mp_dim w')) by (cbn; rewrite upd_length; exact HP).
  change (K - 1)%nat with (mp_K w' - 1)%nat at 1. rewrite (chain_affine w' HK HD HP' ns Hns i) by auto. rewrite (chain_affine w HK HD HP ns Hns i) by auto.
  change (mp_dim w') with D. change (mp_K w') with K.
  assert (L : forall q, (q < nrows D i)%nat -> lvec w' ns i q = lvec w ns i q).
  { intros q Hq. unfold lvec. destruct (Nat.eqb_spec i 0); auto. apply with_par_chain; auto; try lia.
    rewrite cols_pos by lia. rewrite rows_pos in Hq by lia. exact Hq. }
  assert (Rr : forall q, (q < ncols K D i)%nat -> rvec w' ns i q = rvec w ns i q).
  { intros q Hq. unfold rvec. change (mp_K w') with K. destruct (Nat.eqb_spec (S i) K); auto. apply with_par_chain; auto; try lia.
    - rewrite rows_pos by lia. rewrite cols_pos in Hq by lia. exact Hq.
    - replace (S i + (K - S (S i)))%nat with (K - 1)%nat by lia. unfold ncols. destruct (Nat.eqb_spec (S (K - 1)) K); lia. }
  set (dl := fun a b : nat => (if (Nat.eqb r a && Nat.eqb c b)%bool then (x - ent w i n r c) * gent w ns i n r c else 0) : R).
  transitivity (sumf (fun a => sumf (fun b => lvec w ns i a * fac w ns i a b * rvec w ns i b + dl a b) (seq 0%nat (ncols K D i))) (seq 0%nat (nrows D i))).
  - apply sumf_ext. intros a Ha. apply sumf_ext. intros b Hb. apply in_seq in Ha. apply in_seq in Hb. rewrite L, Rr by lia.
    unfold fac at 1. unfold w'. rewrite with_par_ent; [|auto|repeat split; auto; lia]. rewrite Nat.eqb_refl. cbn [andb].
    unfold dl, gent. destruct (Nat.eqb_spec n (nth i ns 0%nat)) as [En|En]; cbn [andb].
    + destruct (Nat.eqb_spec r a) as [<-|]; cbn [andb]; [|unfold fac; ring]. destruct (Nat.eqb_spec c b) as [<-|]; [|unfold fac; ring].
      unfold fac. rewrite <- En. ring.
    + unfold fac. destruct (Nat.eqb r a && Nat.eqb c b)%bool; ring.
  - rewrite (sumf_ext _ (fun a => sumf (fun b => lvec w ns i a * fac w ns i a b * rvec w ns i b) (seq 0%nat (ncols K D i)) + sumf (dl a) (seq 0%nat (ncols K D i)))).
    2: { intros a _. apply sumf_add. }
    rewrite sumf_add. f_equal. rewrite (sumf_single _ _ r); [|apply seq_NoDup|apply in_seq; lia|].
    + rewrite (sumf_single _ _ c); [|apply seq_NoDup|apply in_seq; lia|].
      * unfold dl. rewrite !Nat.eqb_refl. reflexivity.
      * intros b _ Nb. unfold dl. destruct (Nat.eqb_spec c b); [congruence|]. rewrite andb_false_r. reflexivity.
    + intros a _ Na. apply sumf_zero. intros b _. unfold dl. destruct (Nat.eqb_spec r a); [congruence|]. reflexivity.
Qed.
End Slope.
