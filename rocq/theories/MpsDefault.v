(** Occupation numbers and default parameters of matrix product states. *)
From Coq Require Import List ZArith NArith Arith Bool Lia.
From Verif Require Import Py Slater BitSpec BitLemmas SlaterBits SlaterBits2 Alg WfnCI Mps MpsSpec MpsLemmas MpsMat.
Import ListNotations.

Section Occ.
Context {R : CRing}.
Variable w : mps R.
Notation K := (mp_K w).
Hypothesis HK : (1 <= K)%nat.
Lemma half_K : (mp_nspin w / 2 = Z.of_nat K)%Z.
Proof. unfold mp_K in *. lia. Qed.
Lemma occupation_fits : forall sd, fits sd (2 * K) -> occupation_indices w sd = Ok (map (occupation K sd) (seq 0 K)).
Proof.
  intros sd F. unfold occupation_indices. rewrite half_K. destruct (split_spin_ok sd (Z.of_nat K)) as (a & b & E & Ha & Hb); [lia|].
  rewrite E. cbn [bind fst snd]. rewrite Nat2Z.id in *.
  replace (forallb _ _) with true.
  - f_equal. apply map_ext_in. intros i Hi. apply in_seq in Hi. unfold occupation. rewrite !occ_bit, Ha, Hb. destruct (Nat.ltb_spec i K); [|lia].
    cbn [andb]. unfold bit. rewrite (Nat.add_comm K i). reflexivity.
  - symmetry. apply forallb_forall. intros i Hi. apply Nat.ltb_lt. apply in_app_or in Hi. destruct Hi as [Hi|Hi]; apply occ_indices_In in Hi.
    + rewrite Ha in Hi. apply andb_true_iff in Hi. destruct Hi as [Hi _]. apply Nat.ltb_lt in Hi. exact Hi.
    + rewrite Hb in Hi. destruct (Nat.lt_ge_cases i K) as [|G]; auto. rewrite F in Hi by lia. discriminate.
Qed.
Lemma occupation_outside : forall sd i, (2 * K <= i)%nat -> bit sd i = true -> occupation_indices w sd = Err IndexError.
Proof.
  intros sd i Hi B. unfold occupation_indices. rewrite half_K. destruct (split_spin_ok sd (Z.of_nat K)) as (a & b & E & Ha & Hb); [lia|].
  rewrite E. cbn [bind fst snd]. rewrite Nat2Z.id in *.
  destruct (forallb _ _) eqn:A; [|reflexivity]. rewrite forallb_forall in A.
  assert (X : (Nat.ltb (i - K) K) = true).
  { apply A. apply in_or_app. right. apply occ_indices_In. rewrite Hb. rewrite <- B. f_equal. lia. }
  apply Nat.ltb_lt in X. lia.
Qed.
End Occ.
Lemma occupation_lt : forall K sd i, occupation K sd i < 4.
Proof. intros. unfold occupation. destruct (N.testbit _ _), (N.testbit _ _); lia. Qed.
Lemma occupation_inj : forall K s t, fits s (2 * K) -> fits t (2 * K) -> (forall i, i < K -> occupation K s i = occupation K t i) -> s = t.
Proof.
  intros K s t Fs Ft H. apply bit_ext. intros i. destruct (Nat.lt_ge_cases i (2 * K)) as [L|L]; [|rewrite Fs, Ft; auto].
  destruct (Nat.lt_ge_cases i K) as [L'|L'].
  - specialize (H i L'). unfold occupation in H. unfold bit. destruct (N.testbit s (N.of_nat i)), (N.testbit t (N.of_nat i)), (N.testbit s (N.of_nat (K + i))), (N.testbit t (N.of_nat (K + i))); try reflexivity; lia.
  - specialize (H (i - K) ltac:(lia)). unfold occupation in H. unfold bit. replace (K + (i - K)) with i in H by lia.
    destruct (N.testbit s (N.of_nat i)), (N.testbit t (N.of_nat i)), (N.testbit s (N.of_nat (i - K))), (N.testbit t (N.of_nat (i - K))); try reflexivity; lia.
Qed.

Section Default.
Context {R : CRing}.
Local Open Scope cr_scope.
Add Ring K_ring63 : (rth R).
Lemma set_at_length : forall ps (l : list R) x, length (set_at l ps x) = length l.
Proof. induction ps as [|p ps IH]; intros; cbn; [auto|]. unfold set_at in IH. rewrite IH. apply BicliqueLemmas.upd_length. Qed.
Lemma set_at_nth : forall ps (l : list R) x p, (p < length l)%nat -> nth p (set_at l ps x) 0 = if existsb (Nat.eqb p) ps then x else nth p l 0.
Proof.
  induction ps as [|q ps IH]; intros l x p Hp; cbn [set_at fold_left existsb]; [reflexivity|]. fold (set_at (upd l q x) ps x).
  rewrite IH by (rewrite BicliqueLemmas.upd_length; auto). destruct (Nat.eqb_spec p q) as [->|Ne]; cbn [orb].
  - rewrite BicliqueLemmas.nth_upd_eq by auto. destruct (existsb _ _); reflexivity.
  - rewrite BicliqueLemmas.nth_upd_neq by auto. reflexivity.
Qed.
Lemma existsb_iff : forall (p : nat) f D (b : bool), ((exists i, (i < D)%nat /\ p = f i) <-> b = true) -> existsb (Nat.eqb p) (map f (seq 0%nat D)) = b.
Proof.
  intros p f D b H. apply eq_true_iff_eq. rewrite <- H, existsb_exists. split.
  - intros (x & Hx & E). apply Nat.eqb_eq in E. subst x. apply in_map_iff in Hx. destruct Hx as (i & E & Hi). apply in_seq in Hi. exists i. split; [lia|auto].
  - intros (i & Hi & E). exists p. split; [|apply Nat.eqb_refl]. rewrite E. apply in_map. apply in_seq. lia.
Qed.
Definition tdef (K D : nat) (g : nat -> nat) (scale : R) (i n r c : nat) : R :=
  if (Nat.eqb n (g i) && (Nat.eqb i 0 || Nat.eqb (S i) K || Nat.eqb r c))%bool then scale else 0.
Definition dblock (K D : nat) (g : nat -> nat) (scale : R) (i : nat) : list R :=
  if Nat.eqb i 0 then default_block D (g 0%nat) 1 D false scale
  else if Nat.eqb (S i) K then default_block D (g (K - 1)%nat) D 1 false scale
  else default_block D (g i) D D true scale.
Lemma dblock_length : forall K D g scale i, (2 <= K)%nat -> length (dblock K D g scale i) = msize K D i.
Proof.
  intros K D g scale i HK. unfold dblock, default_block, msize, nrows, ncols.
  destruct (Nat.eqb_spec i 0) as [->|]; [destruct (Nat.eqb_spec 1 K); [lia|]|destruct (Nat.eqb_spec (S i) K)]; rewrite set_at_length, repeat_length; lia.
Qed.
Lemma dblock_nth : forall K D g scale i n r c, (2 <= K)%nat -> (g i < 4)%nat -> valid_entry K D i n r c ->
  nth ((n * nrows D i + r) * ncols K D i + c)%nat (dblock K D g scale i) 0 = tdef K D g scale i n r c.
Proof.
  intros K D g scale i n r c HK Hg (Hi & Hn & Hr & Hc).
  assert (B : ((n * nrows D i + r) * ncols K D i + c < length (dblock K D g scale i))%nat) by (rewrite dblock_length by auto; apply inner_lt; auto).
  unfold dblock, default_block, tdef, nrows, ncols in *. destruct (Nat.eqb_spec i 0) as [->|Ni].
  - destruct (Nat.eqb_spec 1 K); [lia|]. assert (r = 0)%nat as -> by lia. rewrite set_at_length in B. rewrite set_at_nth by exact B.
    rewrite nth_repeat. rewrite (existsb_iff _ _ _ (Nat.eqb n (g 0%nat))).
    + rewrite andb_true_r. reflexivity.
    + rewrite Nat.eqb_eq. split.
      * intros (j & Hj & E). apply (Nat.div_mod_unique D n (g 0%nat) c j); lia.
      * intros <-. exists c. split; [auto|lia].
  - destruct (Nat.eqb_spec (S i) K) as [E|E].
    + assert (c = 0)%nat as -> by lia. rewrite set_at_length in B. rewrite set_at_nth by exact B.
      rewrite nth_repeat. rewrite (existsb_iff _ _ _ (Nat.eqb n (g i))).
      * rewrite andb_true_r. reflexivity.
      * replace (K - 1)%nat with i by lia. rewrite Nat.eqb_eq. split.
        -- intros (j & Hj & Q). apply (Nat.div_mod_unique D n (g i) r j); lia.
        -- intros <-. exists r. split; [auto|lia].
    + rewrite set_at_length in B. rewrite set_at_nth by exact B. rewrite nth_repeat. cbn [orb]. rewrite (existsb_iff _ _ _ (Nat.eqb n (g i) && Nat.eqb r c)%bool).
      * reflexivity.
      * rewrite andb_true_iff, !Nat.eqb_eq. split.
        -- intros (j & Hj & Q). apply inner_inj in Q; try lia.
        -- intros [<- <-]. exists r. auto.
Qed.
Lemma default_ok : forall (w : mps R) scale g, (2 <= mp_K w)%nat -> ground (mp_nelec w) (mp_nspin w) = Ok g -> fits g (2 * mp_K w) ->
  default_params w scale = Ok (flatten (mp_K w) (mp_dim w) (tdef (mp_K w) (mp_dim w) (occupation (mp_K w) g) scale)).
Proof.
  intros w scale g HK Eg F. set (K := mp_K w) in *. set (D := mp_dim w). unfold default_params. fold K D.
  assert (S0 : forall z, (0 <= z < Z.of_nat K)%Z -> exists s, matrix_shape K D z = Ok s).
  { intros z Hz. unfold matrix_shape. replace ((0 <=? z)%Z && (z <? Z.of_nat K)%Z)%bool with true.
    - cbn [negb]. destruct (z =? 0)%Z; [eexists; reflexivity|]. destruct (z <? _)%Z; eexists; reflexivity.
    - symmetry. apply andb_true_iff. rewrite Z.leb_le, Z.ltb_lt. lia. }
  destruct (S0 0%Z) as (s0 & ->); [lia|]. destruct (S0 1%Z) as (s1 & ->); [lia|]. destruct (S0 (Z.of_nat K - 1)%Z) as (s2 & ->); [lia|]. cbn [bind].
  replace (if Nat.leb K 2 then Ok tt else Ok tt) with (@Ok unit tt) by (destruct (Nat.leb K 2); reflexivity). cbn [bind].
  rewrite Eg. cbn [bind]. rewrite (occupation_fits w) by (fold K; auto; lia). fold K. cbn [bind]. destruct (Nat.eqb_spec K 1) as [|_]; [lia|].
  set (gf := occupation K g). rewrite !nth_map_seq by lia.
  transitivity (Ok (flat_map (dblock K D gf scale) (seq 0%nat K))).
  - assert (Hs : seq 0%nat K = 0%nat :: seq 1%nat (K - 2) ++ [(K - 1)%nat]).
    { destruct K as [|[|k]] eqn:EK; try lia. cbn [seq]. f_equal. replace (S (S k) - 2)%nat with k by lia. replace (S (S k) - 1)%nat with (1 + k)%nat by lia. apply (seq_S k 1). }
    transitivity (Ok (flat_map (dblock K D gf scale) (0%nat :: seq 1%nat (K - 2) ++ [(K - 1)%nat]))); [|rewrite <- Hs; reflexivity].
    f_equal. cbn [flat_map]. rewrite flat_map_app. cbn [flat_map]. rewrite app_nil_r. f_equal. f_equal.
    + rewrite !flat_map_concat_map. f_equal. apply map_ext_in. intros i Hi. apply in_seq in Hi. rewrite nth_map_seq by lia. unfold dblock.
      destruct (Nat.eqb_spec i 0), (Nat.eqb_spec (S i) K); try lia. reflexivity.
    + unfold dblock. destruct (Nat.eqb_spec (K - 1) 0), (Nat.eqb_spec (S (K - 1)) K); try lia. reflexivity.
  - f_equal. apply (nth_ext _ _ 0 0).
    + rewrite flatten_length by auto. rewrite (length_flat_var _ (mstart D)) by (try reflexivity; try lia; intros; rewrite dblock_length by auto; apply mstart_next; auto).
      rewrite dblock_length by auto. apply mstart_end. auto.
    + intros p Hp. rewrite (length_flat_var _ (mstart D)) in Hp by (try reflexivity; try lia; intros; rewrite dblock_length by auto; apply mstart_next; auto).
      rewrite dblock_length, mstart_end in Hp by auto. destruct (mpos_surj K D p HK Hp) as (i & n & r & c & V & ->). rewrite flatten_nth by auto. pose proof V as (Hi & Hn & Hr & Hc).
      unfold mpos. rewrite nth_flat_var; auto.
      * apply dblock_nth; auto. apply occupation_lt.
      * intros. rewrite dblock_length by auto. apply mstart_next; auto.
      * rewrite dblock_length by auto. apply inner_lt; auto.
Qed.

(** the overlaps of the default parameters *)
Variable w : mps R.
Notation K := (mp_K w).
Notation D := (mp_dim w).
Hypothesis HK : (2 <= K)%nat.
Variable g : nat -> nat.
Variable scale : R.
Hypothesis HE : forall i n r c, valid_entry K D i n r c -> ent w i n r c = tdef K D g scale i n r c.
Variable ns : list nat.
Hypothesis Hns : forall i, (i < K)%nat -> (nth i ns 0 < 4)%nat.
Definition good (m : nat) : bool := forallb (fun j => Nat.eqb (nth j ns 0%nat) (g j)) (seq 0%nat (S m)).
Lemma good_S : forall m, good (S m) = (good m && Nat.eqb (nth (S m) ns 0%nat) (g (S m)))%bool.
Proof. intros. unfold good. rewrite (seq_S (S m) 0), forallb_app. cbn [forallb Nat.add]. rewrite andb_true_r. reflexivity. Qed.
Lemma default_chain : forall m c, (S m < K)%nat -> (c < D)%nat -> chain w ns 0 m 0%nat c = if good m then rpow scale (S m) else 0.
Proof.
  induction m as [|m IH]; intros c Hm Hc.
  - cbn [chain]. unfold fac. rewrite HE.
    + unfold tdef, good. cbn [seq forallb]. cbn [Nat.eqb orb]. rewrite !andb_true_r. destruct (Nat.eqb _ _); [cbn; ring|reflexivity].
    + repeat split; [lia|apply Hns; lia|cbn; lia|rewrite cols_pos by lia; auto].
  - cbn [chain]. rewrite (sumf_single _ _ c); [|apply seq_NoDup|apply in_seq; lia|].
    + rewrite IH by lia. unfold fac. cbn [Nat.add]. rewrite HE by (repeat split; [lia|apply Hns; lia|rewrite rows_pos by lia; auto|rewrite cols_pos by lia; auto]).
      unfold tdef. rewrite Nat.eqb_refl, !orb_true_r, andb_true_r. rewrite good_S. destruct (good m), (Nat.eqb _ _); cbn [andb]; cbn; ring.
    + intros k Hk Ne. apply in_seq in Hk. unfold fac. cbn [Nat.add]. rewrite HE by (repeat split; [lia|apply Hns; lia|rewrite rows_pos by lia; lia|rewrite cols_pos by lia; auto]).
      unfold tdef. destruct (Nat.eqb_spec (S m) 0), (Nat.eqb_spec (S (S m)) K), (Nat.eqb_spec k c); try lia; try congruence. cbn [orb]. rewrite andb_false_r. ring.
Qed.
Lemma default_full : chain w ns 0 (K - 1) 0%nat 0%nat = if good (K - 1) then nat_r D * rpow scale K else 0.
Proof.
  destruct K as [|[|k]] eqn:EK; try lia. rewrite <- EK in *. replace (K - 1)%nat with (S k) by lia. cbn [chain].
  rewrite (sumf_ext _ (fun _ => if good (S k) then rpow scale K else 0)).
  - rewrite sumf_const, seq_length. destruct (good (S k)); ring.
  - intros q Hq. apply in_seq in Hq. rewrite default_chain by lia. unfold fac. cbn [Nat.add].
    rewrite HE by (repeat split; [lia|apply Hns; lia|rewrite rows_pos by lia; lia|unfold ncols; destruct (Nat.eqb_spec (S (S k)) K); lia]).
    unfold tdef. destruct (Nat.eqb_spec (S (S k)) K); [|lia]. rewrite orb_true_r, andb_true_r. rewrite good_S.
    replace (rpow scale K) with (rpow scale (S k) * scale) by (rewrite EK; cbn; ring). destruct (good k), (Nat.eqb _ _); cbn [andb]; ring.
Qed.
End Default.
