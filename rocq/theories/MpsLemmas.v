(** Lemmas on the layout and the matrices of matrix product states. *)
From Coq Require Import List ZArith NArith Arith Bool Lia.
From Verif Require Import Py Slater Alg WfnCI Mps MpsSpec BicliqueLemmas.
Import ListNotations.

Definition mstart (D i : nat) : nat := if Nat.eqb i 0 then 0 else 4 * D + 4 * (D * D) * (i - 1).
Definition mpos (K D i n r c : nat) : nat := mstart D i + ((n * nrows D i + r) * ncols K D i + c).
Definition msize (K D i : nat) : nat := 4 * (nrows D i * ncols K D i).

Lemma mstart_next : forall K D i, 2 <= K -> S i < K -> mstart D (S i) = mstart D i + msize K D i.
Proof.
  intros K D i HK Hi. unfold mstart, msize, nrows, ncols.
  destruct (Nat.eqb_spec (S i) K); [lia|]. destruct i as [|i]; cbn [Nat.eqb Nat.sub]; [ring|]. rewrite ?Nat.sub_0_r. ring.
Qed.
Lemma mstart_mono : forall K D i j, 2 <= K -> i < j -> j < K -> mstart D i + msize K D i <= mstart D j.
Proof.
  intros K D i j HK. induction j as [|j IH]; intros; [lia|]. rewrite (mstart_next K D j HK) by lia.
  destruct (Nat.eq_dec i j) as [->|]; [lia|]. assert (mstart D i + msize K D i <= mstart D j) by (apply IH; lia). lia.
Qed.
Lemma mstart_end : forall K D, 2 <= K -> mstart D (K - 1) + msize K D (K - 1) = nparams K D.
Proof.
  intros K D HK. unfold mstart, msize, nrows, ncols, nparams. destruct (Nat.eqb_spec (K - 1) 0); [lia|].
  replace (S (K - 1)) with K by lia. rewrite Nat.eqb_refl. replace (K - 1 - 1) with (K - 2) by lia. nia.
Qed.
Lemma msize_end : forall K D i, 2 <= K -> i < K -> mstart D i + msize K D i <= nparams K D.
Proof.
  intros K D i HK Hi. destruct (Nat.eq_dec i (K - 1)) as [->|]; [rewrite (mstart_end K D HK); lia|].
  rewrite <- (mstart_end K D HK). pose proof (mstart_mono K D i (K - 1) HK ltac:(lia) ltac:(lia)). lia.
Qed.
Lemma inner_lt : forall b c n r k, n < 4 -> r < b -> k < c -> (n * b + r) * c + k < 4 * (b * c).
Proof. intros b c n r k Hn Hr Hk. assert (n * b + r + 1 <= 4 * b) by nia. nia. Qed.
Lemma mpos_lt : forall K D i n r c, 2 <= K -> valid_entry K D i n r c -> mpos K D i n r c < nparams K D.
Proof.
  intros K D i n r c HK (Hi & Hn & Hr & Hc). pose proof (msize_end K D i HK Hi).
  pose proof (inner_lt (nrows D i) (ncols K D i) n r c Hn Hr Hc). unfold mpos, msize in *. lia.
Qed.
Lemma inner_inj : forall b c n r k n' r' k', r < b -> k < c -> r' < b -> k' < c ->
  (n * b + r) * c + k = (n' * b + r') * c + k' -> n = n' /\ r = r' /\ k = k'.
Proof.
  intros b c n r k n' r' k' Hr Hk Hr' Hk' E.
  assert (n * b + r = n' * b + r' /\ k = k') as [E1 ->].
  { apply (Nat.div_mod_unique c); lia. }
  assert (n = n' /\ r = r') as [-> ->] by (apply (Nat.div_mod_unique b); lia). auto.
Qed.
Lemma mpos_inj : forall K D i n r c i' n' r' c', 2 <= K -> valid_entry K D i n r c -> valid_entry K D i' n' r' c' ->
  mpos K D i n r c = mpos K D i' n' r' c' -> i = i' /\ n = n' /\ r = r' /\ c = c'.
Proof.
  intros K D i n r c i' n' r' c' HK V V' E. destruct V as (Hi & Hn & Hr & Hc). destruct V' as (Hi' & Hn' & Hr' & Hc').
  pose proof (inner_lt (nrows D i) (ncols K D i) n r c Hn Hr Hc) as B.
  pose proof (inner_lt (nrows D i') (ncols K D i') n' r' c' Hn' Hr' Hc') as B'.
  assert (i = i') as <-.
  { unfold mpos in E. destruct (Nat.lt_trichotomy i i') as [L|[L|L]]; [|exact L|].
    - pose proof (mstart_mono K D i i' HK L Hi'). unfold msize in *. lia.
    - pose proof (mstart_mono K D i' i HK L Hi). unfold msize in *. lia. }
  unfold mpos in E. assert (E2 : (n * nrows D i + r) * ncols K D i + c = (n' * nrows D i + r') * ncols K D i + c') by lia.
  destruct (inner_inj _ _ _ _ _ _ _ _ Hr Hc Hr' Hc' E2) as (-> & -> & ->). auto.
Qed.
Lemma inner_split : forall b c q, q < 4 * (b * c) -> exists n r k, n < 4 /\ r < b /\ k < c /\ q = (n * b + r) * c + k /\
  n = q / (b * c) /\ r = (q / c) mod b /\ k = q mod c.
Proof.
  intros b c q Hq. assert (c <> 0) by (intros ->; lia). assert (b <> 0) by (intros ->; lia).
  assert (E1 : q / (b * c) = q / c / b) by (rewrite Nat.div_div by auto; f_equal; lia).
  exists (q / c / b), ((q / c) mod b), (q mod c). rewrite E1. repeat split.
  - rewrite <- E1. apply Nat.div_lt_upper_bound; nia.
  - apply Nat.mod_upper_bound; auto.
  - apply Nat.mod_upper_bound; auto.
  - pose proof (Nat.div_mod q c H). pose proof (Nat.div_mod (q / c) b H0). nia.
Qed.
Lemma mpos_surj : forall K D p, 2 <= K -> p < nparams K D -> exists i n r c, valid_entry K D i n r c /\ p = mpos K D i n r c.
Proof.
  intros K D p HK Hp.
  assert (exists i, i < K /\ mstart D i <= p < mstart D i + msize K D i) as (i & Hi & B).
  { assert (G : forall j, j < K -> p < mstart D j + msize K D j -> exists i, i < K /\ mstart D i <= p < mstart D i + msize K D i).
    { induction j as [|j IH]; intros Hj Hb.
      - exists 0. cbn in *. lia.
      - destruct (le_lt_dec (mstart D (S j)) p); [exists (S j); lia|]. apply IH; [lia|]. rewrite (mstart_next K D j HK Hj) in l. exact l. }
    apply (G (K - 1)); [lia|]. rewrite (mstart_end K D HK). exact Hp. }
  unfold msize in B. destruct (inner_split (nrows D i) (ncols K D i) (p - mstart D i)) as (n & r & c & Hn & Hr & Hc & E & _); [lia|].
  exists i, n, r, c. split; [repeat split; auto|]. unfold mpos. lia.
Qed.

(** lists *)
Lemma flat_map_const : forall {A} (f : nat -> list A) m N a0, (forall x, length (f x) = m) -> length (flat_map f (seq a0 N)) = N * m.
Proof. intros A f m N a0 H. revert a0. induction N as [|N IH]; intros; cbn [seq flat_map]; [auto|]. rewrite app_length, H, IH. lia. Qed.
Lemma nth_flat : forall {A} (d : A) (f : nat -> list A) m a b N a0, (forall x, length (f x) = m) -> a < N -> b < m ->
  nth (a * m + b) (flat_map f (seq a0 N)) d = nth b (f (a0 + a)) d.
Proof.
  intros A d f m a b N a0 H. revert a0 N. induction a as [|a IH]; intros a0 N Ha Hb; (destruct N as [|N]; [lia|]); cbn [seq flat_map].
  - rewrite app_nth1 by (rewrite H; cbn; lia). rewrite Nat.add_0_r. reflexivity.
  - rewrite app_nth2 by (rewrite H; cbn; lia). rewrite H. replace (S a * m + b - m) with (a * m + b) by (cbn; lia).
    rewrite IH by lia. f_equal. f_equal. lia.
Qed.
Lemma nth_flat_var : forall {A} (d : A) (f : nat -> list A) (st : nat -> nat) N i b, st 0 = 0 ->
  (forall j, S j < N -> st (S j) = st j + length (f j)) -> i < N -> b < length (f i) ->
  nth (st i + b) (flat_map f (seq 0 N)) d = nth b (f i) d.
Proof.
  intros A d f st N i b H0 HS Hi Hb.
  assert (E : length (flat_map f (seq 0 i)) = st i).
  { clear Hb. revert Hi. induction i as [|i IH]; intros; [cbn; auto|]. rewrite seq_S, flat_map_app, app_length, IH by lia.
    cbn [flat_map Nat.add]. rewrite app_nil_r, HS by lia. reflexivity. }
  replace N with (i + S (N - i - 1)) by lia. rewrite seq_app, flat_map_app. cbn [seq flat_map Nat.add].
  rewrite app_nth2 by lia. rewrite E. replace (st i + b - st i) with b by lia. rewrite app_nth1 by auto. reflexivity.
Qed.
Lemma length_flat_var : forall {A} (f : nat -> list A) (st : nat -> nat) N, st 0 = 0 ->
  (forall j, S j < N -> st (S j) = st j + length (f j)) -> 0 < N -> length (flat_map f (seq 0 N)) = st (N - 1) + length (f (N - 1)).
Proof.
  intros A f st N H0 HS HN.
  assert (E : forall i, i < N -> length (flat_map f (seq 0 i)) = st i).
  { induction i as [|i IH]; intros; [cbn; auto|]. rewrite seq_S, flat_map_app, app_length, IH by lia.
    cbn [flat_map Nat.add]. rewrite app_nil_r, HS by lia. reflexivity. }
  replace N with (S (N - 1)) at 1 by lia. rewrite seq_S, flat_map_app, app_length, E by lia. cbn [flat_map Nat.add].
  rewrite app_nil_r. reflexivity.
Qed.
Lemma nth_map_seq : forall {A} (d : A) (f : nat -> A) N k, k < N -> nth k (map f (seq 0 N)) d = f k.
Proof.
  intros A d f N k Hk. rewrite (nth_indep _ d (f 0)) by (rewrite map_length, seq_length; auto).
  rewrite (map_nth f). rewrite seq_nth by auto. reflexivity.
Qed.
Lemma slice_nth : forall {A} (d : A) (l : list A) a len k, k < len -> nth k (slice l a (a + len)) d = nth (a + k) l d.
Proof.
  intros A d l a len k Hk. unfold slice. replace (a + len - a) with len by lia.
  assert (E : forall (l : list A) m j, j < m -> nth j (firstn m l) d = nth j l d).
  { clear. induction l as [|x l IH]; intros m j Hj; [rewrite firstn_nil; destruct j; auto|].
    destruct m; [lia|]. cbn [firstn]. destruct j; cbn [nth]; auto. apply IH. lia. }
  rewrite E by auto. clear. revert l. induction a as [|a IH]; intros; [reflexivity|]. destruct l; cbn [skipn]; [destruct k; reflexivity|]. rewrite IH. reflexivity.
Qed.
Lemma slice_length : forall {A} (l : list A) a len, a + len <= length l -> length (slice l a (a + len)) = len.
Proof. intros. unfold slice. rewrite firstn_length, skipn_length. lia. Qed.
Lemma slice_map : forall {A} (d : A) (l : list A) a len, a + len <= length l -> slice l a (a + len) = map (fun j => nth (a + j) l d) (seq 0 len).
Proof.
  intros A d l a len H. apply (nth_ext _ _ d d).
  - rewrite slice_length by auto. rewrite map_length, seq_length. auto.
  - intros k Hk. rewrite slice_length in Hk by auto. rewrite slice_nth by auto. rewrite nth_map_seq by auto. reflexivity.
Qed.

(** flattened tensors *)
Section Flatten.
Context {R : CRing}.
Local Open Scope cr_scope.
Lemma flat3_length : forall (T : nat -> nat -> nat -> R) a b c,
  length (flat_map (fun n => flat_map (fun r => map (fun k => T n r k) (seq 0%nat c)) (seq 0%nat b)) (seq 0%nat a)) = (a * (b * c))%nat.
Proof. intros. apply flat_map_const. intros. apply flat_map_const. intros. rewrite map_length, seq_length. reflexivity. Qed.
Lemma flat3_nth : forall (T : nat -> nat -> nat -> R) a b c n r k, (n < a)%nat -> (r < b)%nat -> (k < c)%nat ->
  nth ((n * b + r) * c + k)%nat (flat_map (fun n => flat_map (fun r => map (fun k => T n r k) (seq 0%nat c)) (seq 0%nat b)) (seq 0%nat a)) 0 = T n r k.
Proof.
  intros T a b c n r k Hn Hr Hk. replace ((n * b + r) * c + k)%nat with (n * (b * c) + (r * c + k))%nat by ring.
  rewrite nth_flat with (m := (b * c)%nat); [|intros; apply flat_map_const; intros; rewrite map_length, seq_length; reflexivity|auto|].
  2: { assert (r * c + c <= b * c)%nat by nia. lia. }
  rewrite nth_flat with (m := c); [|intros; rewrite map_length, seq_length; reflexivity|auto|auto].
  rewrite nth_map_seq by auto. reflexivity.
Qed.
Lemma flatten_length : forall K D T, (2 <= K)%nat -> length (flatten (R := R) K D T) = nparams K D.
Proof.
  intros K D T HK. unfold flatten. rewrite length_flat_var with (st := mstart D).
  - rewrite flat3_length. rewrite <- mstart_end by auto. reflexivity.
  - reflexivity.
  - intros j Hj. rewrite flat3_length. apply mstart_next; auto.
  - lia.
Qed.
Lemma flatten_nth : forall K D T i n r c, (2 <= K)%nat -> valid_entry K D i n r c ->
  nth (mpos K D i n r c) (flatten (R := R) K D T) 0 = T i n r c.
Proof.
  intros K D T i n r c HK (Hi & Hn & Hr & Hc). unfold flatten, mpos. rewrite nth_flat_var.
  - rewrite (flat3_nth (T i)) by auto. reflexivity.
  - reflexivity.
  - intros j Hj. rewrite flat3_length. apply mstart_next; auto.
  - auto.
  - rewrite flat3_length. apply inner_lt; auto.
Qed.
Lemma flatten_all : forall K D (P : list R), (2 <= K)%nat -> length P = nparams K D ->
  P = flatten K D (fun i n r c => nth (mpos K D i n r c) P 0).
Proof.
  intros K D P HK HP. apply (nth_ext _ _ 0 0).
  - rewrite flatten_length; auto.
  - intros p Hp. rewrite HP in Hp. destruct (mpos_surj K D p HK Hp) as (i & n & r & c & V & ->). rewrite flatten_nth by auto. reflexivity.
Qed.
End Flatten.

(** decompose_index *)
Lemma unravel_ok : forall n r c b k, n < 4 -> r < b -> k < c -> unravel (Z.of_nat ((n * b + r) * c + k)) (4, b, c) = Ok (n, r, k).
Proof.
  intros n r c b k Hn Hr Hk. unfold unravel. pose proof (inner_lt b c n r k Hn Hr Hk) as L. rewrite <- Nat.mul_assoc.
  replace ((0 <=? Z.of_nat ((n * b + r) * c + k))%Z && (Z.of_nat ((n * b + r) * c + k) <? Z.of_nat (4 * (b * c)))%Z)%bool with true
    by (symmetry; apply andb_true_iff; rewrite Z.leb_le, Z.ltb_lt; lia).
  rewrite Nat2Z.id. destruct (inner_split b c _ L) as (n' & r' & k' & Hn' & Hr' & Hk' & E & -> & -> & ->).
  apply inner_inj in E; auto. destruct E as (<- & <- & <-). reflexivity.
Qed.
Lemma unravel_out : forall p a b c, ~ (0 <= p < Z.of_nat (a * b * c))%Z -> unravel p (a, b, c) = Err ValueError.
Proof.
  intros p a b c H. unfold unravel. replace ((0 <=? p)%Z && (p <? Z.of_nat (a * b * c))%Z)%bool with false; [reflexivity|].
  symmetry. apply andb_false_iff. rewrite Z.leb_gt, Z.ltb_ge. lia.
Qed.
Lemma bonds_In : forall D m bs, In bs (bonds D m) <-> length bs = m /\ forall b, In b bs -> b < D.
Proof.
  intros D. induction m as [|m IH]; intros bs; cbn [bonds].
  - split; [intros [<-|[]]; split; [reflexivity|intros b []]|]. intros [H _]. destruct bs; [left; reflexivity|discriminate].
  - rewrite in_flat_map. split.
    + intros (x & Hx & H). apply in_map_iff in H. destruct H as (t & <- & Ht). apply IH in Ht. destruct Ht as [<- Ht]. apply in_seq in Hx.
      split; [reflexivity|]. intros b [<-|Hb]; [lia|auto].
    + intros [L H]. destruct bs as [|x t]; [discriminate|]. exists x. split; [apply in_seq; specialize (H x (or_introl eq_refl)); lia|].
      apply in_map. apply IH. split; [cbn in L; lia|]. intros b Hb. apply H. right. exact Hb.
Qed.
Lemma bonds_valid : forall K D sd i bs, 2 <= K -> 1 <= D -> i < K -> In bs (bonds D (K - 1)) ->
  valid_entry K D i (occupation K sd i) (nth i (0 :: bs ++ [0]) 0) (nth (S i) (0 :: bs ++ [0]) 0).
Proof.
  intros K D sd i bs HK HD Hi H. apply bonds_In in H. destruct H as [L H]. unfold valid_entry, nrows, ncols. split; [auto|]. split.
  { unfold occupation. destruct (N.testbit _ _), (N.testbit _ _); lia. }
  cbn [nth]. split.
  - destruct (Nat.eqb_spec i 0) as [->|Ni]; [cbn; lia|]. destruct i; [lia|]. rewrite app_nth1 by lia. apply H. apply nth_In. lia.
  - destruct (Nat.eqb_spec (S i) K).
    + rewrite app_nth2 by lia. replace (i - length bs) with 0 by lia. cbn. lia.
    + rewrite app_nth1 by lia. apply H. apply nth_In. lia.
Qed.
