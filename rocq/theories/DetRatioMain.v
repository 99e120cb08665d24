(** Lemmas for C67: values of the overlap and of its derivatives *)
From Coq Require Import List ZArith NArith Arith Bool Lia Permutation Sorted.
From Verif Require Import Py BitSpec BitLemmas Fock FockLemmas Slater SlaterBits SlaterBits2 Combos Alg MathTools PermLemmas DetLemmas BicliqueLemmas CILemmas OrbSpec OrbLemmas OrbMain WedgeLemmas
  JacobiSpec WfnCI Geminal Composite Nonorth NonorthLemmas NonorthMain NonorthValues EqnSpec EqnLemmas Cache WfnCached DetRatio DetRatioSpec DetRatioLemmas.
Import ListNotations.
Local Open Scope nat_scope.

Lemma flat_prod : forall {A B} (a : list A) (b : list B), flat_map (fun x => map (fun y => (x, y)) b) a = list_prod a b.
Proof. intros A B a b. induction a as [|x a IH]; [reflexivity|]. cbn [flat_map list_prod]. now rewrite IH. Qed.
Section Writes.
Context {A : Type}.
Definition writes (ws : list (nat * A)) (o : list A) : list A := fold_left (fun o w => upd o (fst w) (snd w)) ws o.
Lemma writes_length : forall ws o, length (writes ws o) = length o.
Proof. induction ws as [|w ws IH]; intros o; [reflexivity|]. cbn [writes fold_left]. fold (writes ws (upd o (fst w) (snd w))). rewrite IH. apply upd_length. Qed.
Lemma writes_other : forall ws o i x, ~ In i (map fst ws) -> nth i (writes ws o) x = nth i o x.
Proof.
  induction ws as [|w ws IH]; intros o i x H; [reflexivity|]. cbn [writes fold_left]. fold (writes ws (upd o (fst w) (snd w))). cbn [map In] in H. rewrite IH by tauto. apply upd_other. tauto.
Qed.
Lemma writes_at : forall ws o i v x, NoDup (map fst ws) -> In (i, v) ws -> i < length o -> nth i (writes ws o) x = v.
Proof.
  induction ws as [|w ws IH]; intros o i v x N H L; [destruct H|]. cbn [writes fold_left]. fold (writes ws (upd o (fst w) (snd w))). cbn [map] in N. inversion N as [|? ? N1 N2]; subst. destruct H as [->|H].
  - cbn [fst snd] in *. rewrite writes_other by auto. now apply CILemmas.upd_same.
  - apply IH; auto. now rewrite upd_length.
Qed.
Lemma loop_writes : forall {B} (f : B -> list A -> res (list A)) (ws : B -> list (nat * A)) l o,
  (forall x o', In x l -> length o' = length o -> f x o' = Ok (writes (ws x) o')) -> loop f l o = Ok (writes (flat_map ws l) o).
Proof.
  intros B f ws l. induction l as [|x l IH]; intros o H; [reflexivity|]. cbn [loop flat_map]. rewrite (H x o) by (auto; now left). cbn [bind]. rewrite IH.
  - f_equal. unfold writes. now rewrite fold_left_app.
  - intros y o' Hy Lo. apply H; [now right|]. now rewrite Lo, writes_length.
Qed.
End Writes.

Section M.
Context {K : CField}.
Local Open Scope cr_scope.
Add Ring K_ring111 : (rth K).

(** [w] with enough parameters, [sd] a determinant of its electrons in its orbitals *)
Definition enough (w : dratio K) : Prop := (dr_num w * dr_size w <= length (dr_params w))%nat.
Definition proper (w : dratio K) (sd : N) : Prop := within (dr_cols w) sd /\ length (dr_columns sd) = dr_rows w.
Definition E_ (w : dratio K) (i : nat) : nat -> nat -> K := entry_at (dr_rows w) (dr_cols w) (dr_params w) i.
Definition D_ (w : dratio K) (sd : N) (i : nat) : K := detR (map (E_ w i) (seq 0 (dr_rows w))) (dr_columns sd).
Lemma matrix_ok : forall (w : dratio K) i, enough w -> (i < dr_num w)%nat -> exists m, dr_matrix w (Z.of_nat i) = Ok m /\ m_rows m = dr_rows w /\ m_cols m = dr_cols w /\
  forall r c, (r < dr_rows w)%nat -> (c < dr_cols w)%nat -> m_at m r c = E_ w i r c.
Proof.
  intros w i En Hi. unfold dr_matrix. rewrite (proj2 (Z.ltb_ge _ _)), (proj2 (Z.leb_gt _ _)) by lia. cbn [orb]. rewrite Nat2Z.id. unfold enough in En.
  assert (B : ((i + 1) * dr_size w <= length (dr_params w))%nat) by nia. rewrite slice_length by auto. replace ((i + 1) * dr_size w - i * dr_size w)%nat with (dr_size w) by nia. rewrite Nat.eqb_refl.
  eexists. split; [reflexivity|]. cbn [m_rows m_cols m_at]. repeat split. intros r c Hr Hc. rewrite slice_nth; unfold dr_size in *; [|nia]. unfold E_, entry_at. f_equal. lia.
Qed.
Lemma columns_inc : forall sd, increasing (dr_columns sd). Proof. intros. apply occ_indices_increasing. Qed.
Lemma columns_bound : forall (w : dratio K) sd j, proper w sd -> In j (dr_columns sd) -> (j < dr_cols w)%nat.
Proof. intros w sd j [W _] H. apply W. now apply occ_indices_In. Qed.
Lemma det_ok : forall (w : dratio K) sd i, enough w -> proper w sd -> (i < dr_num w)%nat -> dr_det w sd i = Ok (D_ w sd i).
Proof.
  intros w sd i En P Hi. unfold dr_det. destruct (matrix_ok w i En Hi) as (m & -> & R & C & M). cbn [bind]. pose proof (proj2 P) as L.
  rewrite minor_ok; rewrite ?R, ?C, ?seq_length; auto.
  - f_equal. apply detR_map_ext. intros r c Hr Hc. apply in_seq in Hr. apply M; [lia|]. now apply (columns_bound w sd).
  - intros r Hr. apply in_seq in Hr. lia.
  - intros j Hj. now apply (columns_bound w sd).
Qed.
Lemma mask_map : forall (w : dratio K), dr_mask w = map (fun i => nth i (dr_mask w) false) (seq 0 (dr_num w)).
Proof. intros w. unfold dr_num. now rewrite map_nth_seq. Qed.
Lemma olp_ok : forall (w : dratio K) sd, enough w -> proper w sd -> dr_olp w sd = Ok (product_over (dr_mask w) true (D_ w sd) * finv (product_over (dr_mask w) false (D_ w sd))).
Proof.
  intros w sd En P. unfold dr_olp. rewrite (mapM_ok_of _ (D_ w sd)) by (intros i Hi; apply in_seq in Hi; apply det_ok; auto; lia). cbn [bind]. unfold product_over. fold (dr_num w).
  rewrite (mask_map w) at 1 2. rewrite map_map, !masked_map. f_equal. apply f_equal2; [|apply f_equal]; apply f_equal; apply filter_ext; intros i; destruct (nth i (dr_mask w) false); reflexivity.
Qed.
(** the product over the matrices other than [d] *)
Definition rest (w : dratio K) (sd : N) (b : bool) (d : nat) : K := prodf (D_ w sd) (filter (fun i => Bool.eqb (nth i (dr_mask w) false) b) (without d (seq 0 (dr_num w)))).
Definition cof (w : dratio K) (sd : N) (d r c : nat) : K :=
  m1pow (position r (seq 0 (dr_rows w))) * m1pow (position c (dr_columns sd)) * detR (map (E_ w d) (without r (seq 0 (dr_rows w)))) (without c (dr_columns sd)).
Definition slope (w : dratio K) (sd : N) (d r c : nat) : K :=
  if nth d (dr_mask w) false then cof w sd d r c * rest w sd true d * finv (rest w sd false d)
  else rest w sd true d * finv (rest w sd false d) * (- (1)) * finv (D_ w sd d * D_ w sd d) * cof w sd d r c.
Definition index (w : dratio K) (d r c : nat) : nat := (d * dr_size w + r * dr_cols w + c)%nat.
Definition pairs_of (w : dratio K) (sd : N) : list (nat * nat) := flat_map (fun r => map (fun c => (r, c)) (dr_columns sd)) (seq 0 (dr_rows w)).
Definition all_writes (w : dratio K) (sd : N) (d : nat) : list (nat * K) :=
  map (fun rc => (index w d (fst rc) (snd rc), slope w sd d (fst rc) (snd rc))) (pairs_of w sd).
Lemma pairs_In : forall w sd r c, In (r, c) (pairs_of w sd) <-> (r < dr_rows w)%nat /\ In c (dr_columns sd).
Proof.
  intros w sd r c. unfold pairs_of. rewrite in_flat_map. split.
  - intros (x & Hx & H). apply in_map_iff in H as (y & E & Hy). inversion E; subst. apply in_seq in Hx. split; [lia|auto].
  - intros [Hr Hc]. exists r. split; [apply in_seq; lia|]. now apply in_map.
Qed.
Lemma without_length : forall x l, NoDup l -> In x l -> S (length (without x l)) = length l.
Proof. intros x l N H. destruct (nodup_split _ _ N H) as (a & b & -> & Ha & Hb). rewrite without_app by auto. rewrite !app_length. cbn. lia. Qed.
Lemma block_ok : forall (w : dratio K) sd d o, enough w -> proper w sd -> (d < dr_num w)%nat -> length o = length (dr_params w) -> dr_block w sd d o = Ok (writes (all_writes w sd d) o).
Proof.
  intros w sd d o En P Hd Lo. unfold dr_block. rewrite (mapM_ok_of _ (D_ w sd)) by (intros i Hi; apply without_In in Hi as [Hi _]; apply in_seq in Hi; apply det_ok; auto; lia). cbn [bind].
  destruct (matrix_ok w d En Hd) as (m & Em & R & C & M). pose proof (det_ok w sd d En P Hd) as Dd. unfold dr_det in Dd. rewrite Em in *. cbn [bind] in *. rewrite R, Dd. cbn [bind].
  rewrite (loop_writes _ (fun rc => [(index w d (fst rc) (snd rc), slope w sd d (fst rc) (snd rc))])).
  - reflexivity.
  - intros [r c] o' H Lo'. apply pairs_In in H as [Hr Hc]. pose proof (proj2 P) as L. pose proof (columns_bound w sd c P Hc) as Bc. unfold dr_write. rewrite R.
    pose proof (increasing_NoDup _ (columns_inc sd)) as Nc.
    rewrite minor_ok; rewrite ?R, ?C.
    + cbn [bind fst snd]. fold (index w d r c).
      replace (detR (map (m_at m) (without r (seq 0 (dr_rows w)))) (without c (dr_columns sd))) with (detR (map (E_ w d) (without r (seq 0 (dr_rows w)))) (without c (dr_columns sd))).
      2:{ apply detR_map_ext. intros i j Hi Hj. apply without_In in Hi as [Hi _]. apply without_In in Hj as [Hj _]. apply in_seq in Hi. symmetry. apply M; [lia|]. now apply (columns_bound w sd). }
      fold (cof w sd d r c). rewrite (proj2 (Nat.ltb_lt _ _)).
      2:{ rewrite Lo', Lo. unfold index. eapply Nat.lt_le_trans; [|exact En]. unfold dr_size. apply index_bound; auto. }
      f_equal. cbn [writes fold_left]. cbn [fst snd]. f_equal. unfold slope.
      assert (X : masked (delete d (dr_mask w)) (map (D_ w sd) (without d (seq 0 (dr_num w)))) = rest w sd true d /\ masked (map negb (delete d (dr_mask w))) (map (D_ w sd) (without d (seq 0 (dr_num w)))) = rest w sd false d).
      { rewrite (mask_map w). rewrite delete_map, delete_seq by auto. rewrite map_map, !masked_map. unfold rest. split; f_equal; apply filter_ext; intros i; destruct (nth i (dr_mask w) false); reflexivity. }
      destruct X as [-> ->]. reflexivity.
    + intros i Hi. apply without_In in Hi as [Hi _]. apply in_seq in Hi. lia.
    + intros j Hj. apply without_In in Hj as [Hj _]. now apply (columns_bound w sd).
    + assert (S (length (without r (seq 0 (dr_rows w)))) = S (length (without c (dr_columns sd)))); [|lia]. rewrite !without_length, seq_length; auto; [apply seq_NoDup|apply in_seq; lia].
Qed.
Lemma writes_In : forall (w : dratio K) sd i v, In (i, v) (flat_map (all_writes w sd) (seq 0 (dr_num w))) <->
  exists d r c, (d < dr_num w)%nat /\ (r < dr_rows w)%nat /\ In c (dr_columns sd) /\ i = index w d r c /\ v = slope w sd d r c.
Proof.
  intros w sd i v. rewrite in_flat_map. split.
  - intros (d & Hd & H). apply in_map_iff in H as ([r c] & E & H). inversion E; subst. apply pairs_In in H as [Hr Hc]. apply in_seq in Hd. exists d, r, c. repeat split; auto. lia.
  - intros (d & r & c & Hd & Hr & Hc & -> & ->). exists d. split; [apply in_seq; lia|]. apply in_map_iff. exists (r, c). split; [reflexivity|]. now apply pairs_In.
Qed.
Lemma writes_NoDup : forall (w : dratio K) sd, proper w sd -> NoDup (map fst (flat_map (all_writes w sd) (seq 0 (dr_num w)))).
Proof.
  intros w sd P.
  assert (G : forall l : list (nat * (nat * nat)), NoDup l -> (forall d r c, In (d, (r, c)) l -> (r < dr_rows w)%nat /\ (c < dr_cols w)%nat) -> NoDup (map (fun x => index w (fst x) (fst (snd x)) (snd (snd x))) l)).
  { induction l as [|[d [r c]] l IH]; intros N H; [constructor|]. cbn [map]. inversion N as [|? ? N1 N2]; subst. constructor.
    - intros X. apply in_map_iff in X as ([d' [r' c']] & E & Hx). cbn [fst snd] in E. destruct (H d r c) as [H1 H2]; [now left|]. destruct (H d' r' c') as [H3 H4]; [now right|].
      unfold index, dr_size in E. destruct (three_digits (dr_rows w) (dr_cols w) d' r' c' d r c) as (-> & -> & ->); auto.
    - apply IH; auto. intros; apply (H d0); now right. }
  replace (map fst (flat_map (all_writes w sd) (seq 0 (dr_num w)))) with (map (fun x => index w (fst x) (fst (snd x)) (snd (snd x))) (flat_map (fun d => map (fun rc => (d, rc)) (pairs_of w sd)) (seq 0 (dr_num w)))).
  - apply G.
    + unfold pairs_of. rewrite !flat_prod. apply BulkLemmas.NoDup_prod; [apply seq_NoDup|]. apply BulkLemmas.NoDup_prod; [apply seq_NoDup|apply increasing_NoDup, columns_inc].
    + intros d r c H. apply in_flat_map in H as (d' & _ & H). apply in_map_iff in H as ([r' c'] & E & H). inversion E; subst. apply pairs_In in H as [Hr Hc]. split; auto. now apply (columns_bound w sd).
  - induction (seq 0 (dr_num w)) as [|d l IH]; [reflexivity|]. cbn [flat_map]. rewrite !map_app, IH. f_equal. unfold all_writes. rewrite !map_map. reflexivity.
Qed.
Lemma dolp_ok : forall (w : dratio K) sd, enough w -> proper w sd -> exists g, dr_dolp w sd = Ok g /\ length g = length (dr_params w) /\
  (forall d r c, (d < dr_num w)%nat -> (r < dr_rows w)%nat -> In c (dr_columns sd) -> nth (index w d r c) g 0 = slope w sd d r c) /\
  (forall d r c, (d < dr_num w)%nat -> (r < dr_rows w)%nat -> (c < dr_cols w)%nat -> ~ In c (dr_columns sd) -> nth (index w d r c) g 0 = 0) /\
  (forall i, (dr_num w * dr_size w <= i)%nat -> nth i g 0 = 0).
Proof.
  intros w sd En P. unfold dr_dolp. rewrite (loop_writes _ (all_writes w sd)).
  2:{ intros d o Hd Lo. apply in_seq in Hd. unfold zeros in Lo. rewrite repeat_length in Lo. apply block_ok; auto. lia. }
  eexists. split; [reflexivity|]. assert (Z0 : forall i, nth i (zeros (K := K) (length (dr_params w))) 0 = 0).
  { intros i. unfold zeros. apply nth_repeat. }
  split; [rewrite writes_length; unfold zeros; apply repeat_length|]. repeat split.
  - intros d r c Hd Hr Hc. apply writes_at.
    + now apply writes_NoDup.
    + apply writes_In. now exists d, r, c.
    + unfold zeros. rewrite repeat_length. eapply Nat.lt_le_trans; [|exact En]. unfold index, dr_size. apply index_bound; auto. now apply (columns_bound w sd).
  - intros d r c Hd Hr Hc Nc. rewrite writes_other; auto. intros X. apply in_map_iff in X as ([i v] & E & X). cbn [fst] in E. subst i. apply writes_In in X as (d' & r' & c' & Hd' & Hr' & Hc' & E & _).
    unfold index, dr_size in E. destruct (three_digits (dr_rows w) (dr_cols w) d r c d' r' c') as (-> & -> & ->); auto. now apply (columns_bound w sd).
  - intros i Hi. rewrite writes_other; auto. intros X. apply in_map_iff in X as ([i' v] & E & X). cbn [fst] in E. subst i'. apply writes_In in X as (d' & r' & c' & Hd' & Hr' & Hc' & -> & _).
    assert (index w d' r' c' < dr_num w * dr_size w)%nat; [|lia]. unfold index, dr_size. apply index_bound; auto. now apply (columns_bound w sd).
Qed.

(** ** one parameter changed *)
Definition put (w : dratio K) (i : nat) (y : K) : dratio K := mkdr (dr_nelec w) (dr_nspin w) (dr_mask w) (upd (dr_params w) i y).
Lemma put_enough : forall w i y, enough w -> enough (put w i y).
Proof. intros w i y H. unfold enough in *. cbn. rewrite upd_length. exact H. Qed.
Lemma put_entry : forall w d r c y d' r' c', enough w -> (d < dr_num w)%nat -> (r < dr_rows w)%nat -> (c < dr_cols w)%nat -> (r' < dr_rows w)%nat -> (c' < dr_cols w)%nat ->
  E_ (put w (index w d r c) y) d' r' c' = if (Nat.eqb d' d && (Nat.eqb r' r && Nat.eqb c' c))%bool then y else E_ w d' r' c'.
Proof.
  intros w d r c y d' r' c' En Hd Hr Hc Hr' Hc'. unfold E_, entry_at. cbn [dr_params put]. change (dr_rows (put w (index w d r c) y)) with (dr_rows w). change (dr_cols (put w (index w d r c) y)) with (dr_cols w).
  destruct (Nat.eqb_spec d' d) as [->|Nd]; cbn [andb]; [destruct (Nat.eqb_spec r' r) as [->|Nr]; cbn [andb]; [destruct (Nat.eqb_spec c' c) as [->|Nn]|]|].
  - apply CILemmas.upd_same. eapply Nat.lt_le_trans; [|exact En]. unfold dr_size. apply index_bound; auto.
  - apply upd_other. unfold index, dr_size. intros E. apply three_digits in E as (_ & _ & E); auto.
  - apply upd_other. unfold index, dr_size. intros E. apply three_digits in E as (_ & E & _); auto.
  - apply upd_other. unfold index, dr_size. intros E. apply three_digits in E as (E & _ & _); auto.
Qed.
Lemma put_det : forall w sd d r c y, enough w -> proper w sd -> (d < dr_num w)%nat -> (r < dr_rows w)%nat -> (c < dr_cols w)%nat ->
  (forall d', d' <> d -> D_ (put w (index w d r c) y) sd d' = D_ w sd d') /\
  (~ In c (dr_columns sd) -> D_ (put w (index w d r c) y) sd d = D_ w sd d) /\
  (In c (dr_columns sd) -> D_ (put w (index w d r c) y) sd d = D_ w sd d + (y - E_ w d r c) * cof w sd d r c).
Proof.
  intros w sd d r c y En P Hd Hr Hc. unfold D_. change (dr_rows (put w (index w d r c) y)) with (dr_rows w). repeat split.
  - intros d' Nd. apply detR_map_ext. intros i j Hi Hj. apply in_seq in Hi. rewrite put_entry; auto; [|lia|now apply (columns_bound w sd)]. rewrite (proj2 (Nat.eqb_neq _ _) Nd). reflexivity.
  - intros Nc. apply detR_map_ext. intros i j Hi Hj. apply in_seq in Hi. rewrite put_entry; auto; [|lia|now apply (columns_bound w sd)]. rewrite Nat.eqb_refl. cbn [andb]. destruct (Nat.eqb_spec j c) as [->|]; [contradiction|]. now rewrite andb_false_r.
  - intros Ic. unfold cof. apply detR_entry; auto.
    + apply seq_NoDup.
    + apply increasing_NoDup, columns_inc.
    + apply in_seq. lia.
    + intros i j Hi Hj. apply in_seq in Hi. rewrite put_entry; auto; [|lia|now apply (columns_bound w sd)]. rewrite Nat.eqb_refl. reflexivity.
Qed.
Lemma prodf_split : forall (f : nat -> K) (g : nat -> bool) d l, NoDup l -> In d l -> prodf f (filter g l) = (if g d then f d else 1) * prodf f (filter g (without d l)).
Proof.
  intros f g d l N H. destruct (nodup_split _ _ N H) as (a & b & -> & Ha & Hb). rewrite without_app by auto. rewrite !filter_app, !prodf_app. cbn [filter]. destruct (g d); [|ring]. rewrite prodf_cons. ring.
Qed.
Lemma product_split : forall (w : dratio K) sd b d, (d < dr_num w)%nat -> product_over (dr_mask w) b (D_ w sd) = (if Bool.eqb (nth d (dr_mask w) false) b then D_ w sd d else 1) * rest w sd b d.
Proof. intros w sd b d H. unfold product_over, rest. fold (dr_num w). apply (prodf_split (D_ w sd) (fun i => Bool.eqb (nth i (dr_mask w) false) b)); [apply seq_NoDup|apply in_seq; lia]. Qed.
Lemma put_rest : forall w sd d r c y b, enough w -> proper w sd -> (d < dr_num w)%nat -> (r < dr_rows w)%nat -> (c < dr_cols w)%nat -> rest (put w (index w d r c) y) sd b d = rest w sd b d.
Proof.
  intros w sd d r c y b En P Hd Hr Hc. unfold rest. apply prodf_ext. intros i Hi. apply filter_In in Hi as [Hi _]. apply without_In in Hi as [_ Ni]. now apply put_det.
Qed.
End M.
