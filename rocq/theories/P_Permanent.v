(** Properties C24-C26: permanents. *)
From Coq Require Import List ZArith Bool Lia Arith Permutation Sorted QArith Qcanon.
From Verif Require Import Py BitSpec BitLemmas Slater Alg Graphs MathTools PermSpec Combos PermLemmas
  RyserLemmas DetLemmas BorchardtLemmas.
Import ListNotations.

Lemma injection_permutations : forall r c p, In p (permutations (seq 0 c) r) <-> injection r c p.
Proof.
  intros r c p. rewrite permutations_In by apply seq_NoDup. unfold injection, incl.
  split; intros (A & B & C); repeat split; auto; intros j Hj; apply C in Hj; apply in_seq || (apply in_seq in Hj); lia.
Qed.

Lemma app_inj_len : forall {A} (a b c d : list A), length a = length c -> a ++ b = c ++ d -> a = c /\ b = d.
Proof.
  intros A a. induction a as [|x a IH]; intros b [|y c] d L E; try discriminate; auto.
  cbn [app] in E. injection E as -> E. injection L as L. destruct (IH _ _ _ L E) as [-> ->]. auto.
Qed.

Section C24.
Context {K : CRing}.
Local Open Scope cr_scope.
Add Ring K_ring8 : (rth K).

Lemma comb_value : forall nrow ncol (m : nat -> nat -> K), (0 < nrow)%nat -> (0 < ncol)%nat ->
  permanent_combinatoric nrow ncol m = Ok
    (if Nat.ltb ncol nrow then permR (map (fun j i => m i j) (seq 0 ncol)) (seq 0 nrow)
     else permR (map m (seq 0 nrow)) (seq 0 ncol)).
Proof.
  intros nrow ncol m H1 H2. unfold permanent_combinatoric.
  destruct (Nat.eqb_spec nrow 0); [lia|]. destruct (Nat.eqb_spec ncol 0); [lia|]. cbn [orb].
  assert (G : forall r c (m : nat -> nat -> K),
    psum (fun perm => pprod (fun i => m i (nth i perm 0%nat)) (seq 0 r)) (permutations (seq 0 c) r)
    = permR (map m (seq 0 r)) (seq 0 c)).
  { intros r c m'. rewrite psum_sumf, <- perm_sum_permR by apply seq_NoDup. apply sumf_ext. intros p _.
    apply pprod_prodf. }
  destruct (Nat.ltb ncol nrow); cbv zeta iota; f_equal;
    [apply (G ncol nrow (fun j i => m i j))|apply G].
Qed.

(** C24: permanent_combinatoric computes the permanent *)
Theorem C24_value : forall nrow ncol (m : nat -> nat -> K), (0 < nrow)%nat -> (0 < ncol)%nat ->
  exists v, permanent_combinatoric nrow ncol m = Ok v /\ is_permanent nrow ncol m v.
Proof.
  intros nrow ncol m H1 H2. rewrite comb_value by auto. eexists. split; [reflexivity|].
  assert (G : forall r c (m : nat -> nat -> K),
    sum_over (injection r c) (fun p => prodf (fun i => m i (nth i p 0%nat)) (seq 0 r))
      (permR (map m (seq 0 r)) (seq 0 c))).
  { intros r c m'. exists (permutations (seq 0 c) r). split; [apply permutations_NoDup, seq_NoDup|].
    split; [apply injection_permutations|]. symmetry. apply perm_sum_permR, seq_NoDup. }
  unfold is_permanent. destruct (Nat.ltb_spec ncol nrow).
  - right. split; auto. apply (G ncol nrow (fun j i => m i j)).
  - left. split; auto.
Qed.

(** the permanent is unique: [is_permanent] determines the result *)
Theorem C24_unique : forall nrow ncol (m : nat -> nat -> K) v w, (0 < nrow)%nat -> (0 < ncol)%nat ->
  permanent_combinatoric nrow ncol m = Ok v -> is_permanent nrow ncol m w -> w = v.
Proof.
  intros nrow ncol m v w H1 H2 E W. destruct (C24_value nrow ncol m H1 H2) as (v' & E' & V).
  rewrite E in E'. injection E' as <-.
  destruct W as [[L W]|[L W]], V as [[L' V]|[L' V]]; try lia; eapply sum_over_unique; eauto.
Qed.

(** transposition does not change it *)
Theorem C24_transpose : forall nrow ncol (m : nat -> nat -> K),
  permanent_combinatoric ncol nrow (fun i j => m j i) = permanent_combinatoric nrow ncol m.
Proof.
  intros nrow ncol m. destruct (Nat.eq_dec nrow 0) as [->|H1].
  { unfold permanent_combinatoric. cbn [Nat.eqb orb]. now rewrite orb_true_r. }
  destruct (Nat.eq_dec ncol 0) as [->|H2].
  { unfold permanent_combinatoric. cbn [Nat.eqb orb]. now rewrite orb_true_r. }
  rewrite !comb_value by lia. f_equal.
  destruct (Nat.ltb_spec nrow ncol), (Nat.ltb_spec ncol nrow); try lia; try reflexivity.
  assert (nrow = ncol) by lia. subst. symmetry. apply permR_transpose. now rewrite !seq_length.
Qed.

(** permuting the columns of a wide matrix (the rows of a tall one) does not change it *)
Theorem C24_permute : forall nrow ncol (m : nat -> nat -> K) f, (0 < nrow <= ncol)%nat ->
  (forall j, (j < ncol)%nat -> (f j < ncol)%nat) ->
  (forall j k, (j < ncol)%nat -> (k < ncol)%nat -> f j = f k -> j = k) ->
  permanent_combinatoric nrow ncol (fun i j => m i (f j)) = permanent_combinatoric nrow ncol m.
Proof.
  intros nrow ncol m f H Hf Inj. rewrite !comb_value by lia. f_equal.
  destruct (Nat.ltb_spec ncol nrow); [lia|].
  transitivity (permR (map m (seq 0 nrow)) (map f (seq 0 ncol))).
  - rewrite permR_map, map_map. reflexivity.
  - assert (N : NoDup (map f (seq 0 ncol))).
    { apply NoDup_map_inj; [|apply seq_NoDup]. intros j k Hj Hk. apply in_seq in Hj, Hk. apply Inj; lia. }
    apply permR_cols_perm; auto. apply NoDup_Permutation_bis; auto; [rewrite map_length; lia|].
    intros j Hj. apply in_map_iff in Hj as (k & <- & Hk). apply in_seq in Hk. apply in_seq.
    specialize (Hf k). lia.
Qed.

(** expansion along the first row *)
Theorem C24_expand : forall nrow ncol (m : nat -> nat -> K), (1 < nrow <= ncol)%nat ->
  exists minors, (forall j, (j < ncol)%nat ->
      permanent_combinatoric (nrow - 1) (ncol - 1)
        (fun i k => m (S i) (if Nat.ltb k j then k else S k)) = Ok (minors j)) /\
    permanent_combinatoric nrow ncol m = Ok (sumf (fun j => m 0%nat j * minors j) (seq 0 ncol)).
Proof.
  intros nrow ncol m H. destruct nrow as [|r]; [lia|].
  exists (fun j => permR (map (fun i k => m (S i) (if Nat.ltb k j then k else S k)) (seq 0 r)) (seq 0 (ncol - 1))).
  replace (S r - 1)%nat with r by lia. split.
  - intros j Hj. rewrite comb_value by lia. destruct (Nat.ltb_spec (ncol - 1) r); [lia|]. reflexivity.
  - rewrite comb_value by lia. destruct (Nat.ltb_spec ncol (S r)); [lia|]. f_equal.
    cbn [seq map permR]. rewrite <- (picks_fst (seq 0 ncol)) at 2. rewrite sumf_map. apply sumf_ext.
    intros [j l'] Hp. cbn [fst snd]. f_equal. apply picks_split in Hp as (l1 & l2 & E & ->).
    assert (Ll : (length l1 + S (length l2) = ncol)%nat).
    { rewrite <- (seq_length ncol 0), E, app_length. reflexivity. }
    assert (E1 : l1 = seq 0 (length l1) /\ j = length l1 /\ l2 = seq (S (length l1)) (length l2)).
    { rewrite <- Ll, seq_app in E. cbn [seq Nat.add] in E.
      assert (X : seq 0 (length l1) = l1 /\ length l1 :: seq (S (length l1)) (length l2) = j :: l2).
      { apply app_inj_len; auto. now rewrite seq_length. }
      destruct X as [X1 X2]. injection X2 as X3 X4. repeat split; auto. }
    destruct E1 as (E1 & E2 & E3).
    transitivity (permR (map (fun i k => m (S i) k) (seq 0 r)) (l1 ++ l2)).
    { f_equal. rewrite <- seq_shift, map_map. reflexivity. }
    transitivity (permR (map (fun i k => m (S i) k) (seq 0 r))
                    (map (fun k => if Nat.ltb k j then k else S k) (seq 0 (ncol - 1)))).
    2:{ rewrite permR_map, map_map. reflexivity. }
    f_equal.
    replace (ncol - 1)%nat with (length l1 + length l2)%nat by lia. rewrite seq_app, map_app. cbn [Nat.add].
    f_equal.
    + rewrite E1 at 1. rewrite <- (map_id (seq 0 (length l1))) at 1. apply map_ext_in.
      intros k Hk. apply in_seq in Hk. destruct (Nat.ltb_spec k j); [auto|lia].
    + rewrite E3 at 1. rewrite <- seq_shift. apply map_ext_in. intros k Hk. apply in_seq in Hk.
      destruct (Nat.ltb_spec k j); [lia|auto].
Qed.

Theorem C24_error : forall nrow ncol (m : nat -> nat -> K),
  permanent_combinatoric nrow ncol m = Err ValueError <-> (nrow = 0%nat \/ ncol = 0%nat).
Proof.
  intros nrow ncol m. unfold permanent_combinatoric.
  destruct (Nat.eqb_spec nrow 0), (Nat.eqb_spec ncol 0); cbn [orb]; split; intros H; auto; try lia; discriminate.
Qed.
End C24.
Print Assumptions C24_value.
Print Assumptions C24_unique.
Print Assumptions C24_transpose.
Print Assumptions C24_permute.
Print Assumptions C24_expand.
Print Assumptions C24_error.

Example C24_ex : permanent_combinatoric 2 3 (fun i j => Z.of_nat (i * 3 + j + 1) : Z_ring) = Ok 58%Z /\
  permanent_combinatoric 3 2 (fun j i => Z.of_nat (i * 3 + j + 1) : Z_ring) = Ok 58%Z.
Proof. split; vm_compute; reflexivity. Qed.

Section C25.
Context {K : CField}.
Local Open Scope cr_scope.
Add Ring K_ring9 : (rth K).

Lemma ryser_square : forall n (m : nat -> nat -> K), (0 < n)%nat ->
  ryser_while n (2 ^ n) m (repeat false n) 0 false (fun _ => 0) (Nat.odd n) 0
  = Some (permR (map m (seq 0 n)) (seq 0 n)).
Proof.
  intros n m Hn. destruct (chain_cvecs n) as (l & E & C).
  assert (G0 : gray (repeat false n) = repeat false n).
  { clear. induction n as [|n IH]; [reflexivity|]. cbn [repeat gray]. rewrite IH. destruct n; reflexivity. }
  assert (S0 : forall r k, selsum r (seq k n) (repeat false n) = 0 :> K).
  { clear. induction n as [|n IH]; intros r k; [reflexivity|]. unfold selsum in *. cbn [seq repeat combine].
    rewrite sumf_cons, IH. cbn [fst snd]. ring. }
  rewrite (ryser_while_spec n m Hn (repeat false n) l C).
  - f_equal. rewrite <- (ryser_identity (map m (seq 0 n)) (seq 0 n)) by now rewrite map_length.
    rewrite seq_length. rewrite <- (sumf_perm _ _ _ (gray_perm n)), sumf_map, E, sumf_cons.
    rewrite prodf_map. rewrite (prodf_zero _ (seq 0 n) 0%nat).
    2:{ apply in_seq. lia. }
    2:{ rewrite G0. apply S0. }
    match goal with |- 0 + ?x = ?c * 0 + ?y => assert (Q : x = y); [|rewrite Q; ring] end.
    apply sumf_ext. intros b Hb.
    assert (Lb : length b = n) by (apply cvecs_In; rewrite E; now right).
    rewrite prodf_map. f_equal. pose proof (ntrue_nfalse (gray b)) as T. rewrite gray_length, Lb in T.
    assert (T2 : (n + ntrue (gray b) = nfalse (gray b) + (ntrue (gray b) + ntrue (gray b)))%nat) by lia.
    rewrite T2, m1pow_add, m1pow_add, m1pow_sq. ring.
  - now rewrite repeat_length.
  - rewrite <- cvecs_length, E. simpl. lia.
  - intros i. unfold rowsum_of. rewrite G0. symmetry. apply S0.
  - destruct n; [lia|]. cbn [repeat hd]. now rewrite xorb_false_r.
Qed.

(** C25: permanent_ryser agrees with permanent_combinatoric, for square and rectangular matrices *)
Theorem C25_agrees : forall nrow ncol (m : nat -> nat -> K),
  (nrow <> ncol -> nat_r (K := K) (factorial (Nat.max nrow ncol - Nat.min nrow ncol)) <> 0) ->
  permanent_ryser nrow ncol m = permanent_combinatoric nrow ncol m.
Proof.
  intros nrow ncol m H0. destruct (Nat.eq_dec nrow 0) as [->|H1]; [reflexivity|].
  destruct (Nat.eq_dec ncol 0) as [->|H2].
  { unfold permanent_ryser, permanent_combinatoric. cbn [Nat.eqb orb]. now rewrite orb_true_r. }
  rewrite comb_value by lia. unfold permanent_ryser.
  destruct (Nat.eqb_spec nrow 0); [lia|]. destruct (Nat.eqb_spec ncol 0); [lia|]. cbn [orb].
  assert (P : forall r c (m : nat -> nat -> K), (r < c)%nat -> nat_r (K := K) (factorial (c - r)) <> 0 ->
     permR (map (pad_ones r m) (seq 0 c)) (seq 0 c) * finv (nat_r (factorial (c - r)))
     = permR (map m (seq 0 r)) (seq 0 c)).
  { intros r c m' L Nz.
    assert (Er : permR (map (pad_ones r m') (seq 0 c)) (seq 0 c) = permR (map m' (seq 0 r) ++ ones (c - r)) (seq 0 c)).
    { replace (seq 0 c) with (seq 0 r ++ seq r (c - r)) at 1.
      2:{ rewrite <- seq_app. f_equal. lia. }
      rewrite map_app. apply permR_ext. apply Forall2_app.
      - assert (Q : forall i, In i (seq 0 r) -> (i < r)%nat) by (intros i Hi; apply in_seq in Hi; lia).
        revert Q. generalize (seq 0 r) as l. induction l as [|i l IH]; intros Q; cbn [map]; constructor.
        + intros x _. unfold pad_ones. destruct (Nat.ltb_spec i r); auto. specialize (Q i (or_introl eq_refl)). lia.
        + apply IH. intros k Hk. apply Q. now right.
      - assert (Q : forall a k, (r <= a)%nat -> Forall2 (fun r0 r' : nat -> K => forall x, In x (seq 0 c) -> r0 x = r' x)
                    (map (pad_ones r m') (seq a k)) (ones k)).
        { intros a k. revert a. induction k as [|k IH]; intros a Ha; cbn [seq map]; [constructor|].
          unfold ones. cbn [repeat]. constructor; [|apply IH; lia]. intros x _. unfold pad_ones.
          destruct (Nat.ltb_spec a r); [lia|auto]. }
        apply Q. lia. }
    rewrite Er, permR_app_ones by (rewrite seq_length, map_length, seq_length; lia).
    transitivity (permR (map m' (seq 0 r)) (seq 0 c) * (nat_r (factorial (c - r)) * finv (nat_r (factorial (c - r))))); [ring|].
    rewrite f_inv_r by auto. ring. }
  destruct (Nat.eqb_spec nrow ncol) as [E|E]; cbn [negb andb].
  - rewrite ryser_square by lia. subst. rewrite Nat.ltb_irrefl. f_equal. ring.
  - specialize (H0 E). destruct (Nat.ltb_spec ncol nrow).
    + rewrite ryser_square by lia. f_equal.
      apply (P ncol nrow (fun i j => m j i)); auto.
      replace (nrow - ncol)%nat with (Nat.max nrow ncol - Nat.min nrow ncol)%nat by lia. auto.
    + rewrite ryser_square by lia. f_equal. apply P; [lia|].
      replace (ncol - nrow)%nat with (Nat.max nrow ncol - Nat.min nrow ncol)%nat by lia. auto.
Qed.

(** in particular the Gray code loop ends and visits every non-empty set of columns *)
Theorem C25_value : forall nrow ncol (m : nat -> nat -> K), (0 < nrow)%nat -> (0 < ncol)%nat ->
  (nrow <> ncol -> nat_r (K := K) (factorial (Nat.max nrow ncol - Nat.min nrow ncol)) <> 0) ->
  exists v, permanent_ryser nrow ncol m = Ok v /\ is_permanent nrow ncol m v.
Proof.
  intros nrow ncol m H1 H2 H0. rewrite C25_agrees by auto. now apply C24_value.
Qed.
End C25.
Print Assumptions C25_agrees.
Print Assumptions C25_value.

(** the hypothesis on the factorial holds for the rational numbers *)
Lemma Qc_nat_pos : forall n, (0 < n)%nat -> (Q2Qc 0 < (nat_r n : Qc_field))%Qc.
Proof.
  intros n H. destruct n as [|n]; [lia|]. clear H. induction n as [|n IH].
  - reflexivity.
  - cbn [nat_r] in *. apply Qclt_trans with (1 := IH).
    set (x := @radd Qc_field rI (@nat_r Qc_field n)) in *. change (x < 1 + x)%Qc.
    rewrite <- (Qcplus_0_l x) at 1. apply Qclt_minus_iff. 
    replace (1 + x + - (0 + x))%Qc with 1%Qc by ring. reflexivity.
Qed.
Lemma factorial_pos : forall n, (0 < factorial n)%nat.
Proof. induction n; simpl; lia. Qed.
Theorem C25_rational : forall nrow ncol (m : nat -> nat -> Qc_field),
  permanent_ryser nrow ncol m = permanent_combinatoric nrow ncol m.
Proof.
  intros nrow ncol m. apply C25_agrees. intros _ E.
  pose proof (Qc_nat_pos _ (factorial_pos (Nat.max nrow ncol - Nat.min nrow ncol))) as P.
  rewrite E in P. now apply Qclt_not_eq in P.
Qed.
Print Assumptions C25_rational.

Example C25_ex : permanent_ryser (K := Qc_field) 2 3 (fun i j => Q2Qc (inject_Z (Z.of_nat (i * 3 + j + 1)))) = Ok (Q2Qc 58) /\
  permanent_ryser (K := Qc_field) 3 3 (fun i j => Q2Qc (inject_Z (Z.of_nat (i * 3 + j + 1)))) = Ok (Q2Qc 450) /\
  permanent_ryser (K := Qc_field) 3 3 (fun i j => Q2Qc (inject_Z (Z.of_nat (i * i * 2 + i * j + j * j * j + 1)))) = Ok (Q2Qc 1350).
Proof. repeat split; vm_compute; reflexivity. Qed.

Section C26.
Context {K : CField}.
Local Open Scope cr_scope.
Add Ring K_ring10 : (rth K).

Lemma f_inv_unique' : forall x y : K, y * x = 1 -> y = finv x.
Proof. intros x y E. apply f_inv_unique; auto. intros ->. apply (f_one K). rewrite <- E. ring. Qed.

Lemma nth_seq_id : forall (idx : list nat), map (fun k => nth k idx 0%nat) (seq 0 (length idx)) = idx.
Proof.
  induction idx as [|u idx IH]; [reflexivity|].
  cbn [length seq map nth]. f_equal. rewrite <- seq_shift, map_map. apply IH.
Qed.

Lemma borchardt_sum : forall r c (a : nat -> nat -> K) (x y z w : nat -> K) (s : K), (r <= c)%nat ->
    s * s = 1 ->
    (forall i i', (i < r)%nat -> (i' < r)%nat -> x i = x i' -> i = i') ->
    (forall j j', (j < c)%nat -> (j' < c)%nat -> y j = y j' -> j = j') ->
    (forall i j, (i < r)%nat -> (j < c)%nat -> x i <> y j) ->
    (forall i j, (i < r)%nat -> (j < c)%nat -> a i j = s * finv (x i - y j)) ->
    psum (fun indices =>
      det r (fun i k => a i (nth k indices 0%nat) * a i (nth k indices 0%nat))
      * finv (det r (fun i k => a i (nth k indices 0%nat))) * pprod z indices)
      (combinations (seq 0 c) r) * pprod w (seq 0 r)
    = permR (map (fun i j => z j * w i * a i j) (seq 0 r)) (seq 0 c).
Proof.
  intros r c a x y z w s L Hs Ix Iy Nxy Ha.
  rewrite psum_sumf, pprod_prodf.
  rewrite (permR_combinations (map (fun i j => z j * w i * a i j) (seq 0 r)) (seq 0 c)) by apply seq_NoDup.
  rewrite map_length, seq_length, <- sumf_mul_r. apply sumf_ext. intros idx Hi.
  apply combinations_In in Hi as [Si Li].
  assert (Ni : NoDup idx) by (eapply subseq_NoDup; [exact Si|apply seq_NoDup]).
  assert (Bi : forall j, In j idx -> (j < c)%nat) by (intros j Hj; apply (subseq_incl _ _ Si) in Hj; apply in_seq in Hj; lia).
  assert (Bs : forall i, In i (seq 0 r) -> (i < r)%nat) by (intros i Hi; apply in_seq in Hi; lia).
  set (a0 := fun i j => finv (x i - y j)).
  assert (Lr : length (seq 0 r) = length idx) by now rewrite seq_length.
  assert (Ed : forall f : nat -> nat -> K, det r (fun i k => f i (nth k idx 0%nat)) = detR (map f (seq 0 r)) idx).
  { intros f. rewrite det_detR. transitivity (detR (map f (seq 0 r)) (map (fun k => nth k idx 0%nat) (seq 0 r))).
    - rewrite detR_map, map_map. reflexivity.
    - f_equal. rewrite <- Li. apply nth_seq_id. }
  rewrite (Ed (fun i j => a i j * a i j)), (Ed a).
  assert (B0 : detR (map (fun i j => a0 i j * a0 i j) (seq 0 r)) idx
               = detR (map a0 (seq 0 r)) idx * permR (map a0 (seq 0 r)) idx).
  { apply (borchardt x y Nat.eq_dec); auto. apply seq_NoDup. }
  assert (Nz : detR (map a0 (seq 0 r)) idx <> 0).
  { assert (C : detR (map (fun u v => finv (u - v)) (map x (seq 0 r))) (map y idx) <> 0).
    { apply cauchy_nonzero.
      - now rewrite !map_length.
      - apply NoDup_map_inj; [|apply seq_NoDup]. intros i i' H1 H2. apply Ix; auto.
      - apply NoDup_map_inj; auto.
      - intros u v Hu Hv. apply in_map_iff in Hu as (i & <- & Hi). apply in_map_iff in Hv as (j & <- & Hj). auto. }
    rewrite detR_map, !map_map in C. exact C. }
  rewrite (detR_map_ext (fun i j => a i j * a i j) (fun i j => a0 i j * a0 i j)).
  2:{ intros i j Hi Hj. rewrite Ha by auto. unfold a0.
      transitivity ((s * s) * (finv (x i - y j) * finv (x i - y j))); [ring|]. rewrite Hs. ring. }
  rewrite (detR_map_ext a (fun i j => s * a0 i j)).
  2:{ intros i j Hi Hj. now rewrite Ha by auto. }
  rewrite (detR_rows_scale (fun _ => s)), B0.
  rewrite (permR_ext (map (fun i j => z j * w i * a i j) (seq 0 r)) (map (fun i j => z j * (w i * (s * a0 i j))) (seq 0 r))).
  2:{ clear - Ha Bs Bi. revert Bs. generalize (seq 0 r) as l. induction l as [|i l IH]; intros Bs; cbn [map]; constructor.
      - intros j Hj. cbv beta. rewrite Ha; [unfold a0; ring|apply Bs; now left|auto].
      - apply IH. intros k Hk. apply Bs. now right. }
  rewrite (permR_cols_scale z (fun i j => w i * (s * a0 i j))) by auto.
  rewrite (permR_rows_scale w (fun i j => s * a0 i j)), (permR_rows_scale (fun _ => s) a0).
  rewrite pprod_prodf.
  set (D := detR (map a0 (seq 0 r)) idx) in *. set (P := permR (map a0 (seq 0 r)) idx).
  set (S := prodf (fun _ => s) (seq 0 r)). set (W := prodf w (seq 0 r)). set (Z := prodf z idx).
  assert (SS : S * S = 1).
  { unfold S. rewrite <- prodf_mul. apply prodf_one. intros i _. exact Hs. }
  assert (E : finv (S * D) = S * finv D).
  { symmetry. apply f_inv_unique'.
    transitivity ((S * S) * (finv D * D)); [ring|]. rewrite SS, f_inv by auto. ring. }
  rewrite E. transitivity (Z * (W * (S * P)) * (finv D * D)); [ring|]. rewrite f_inv by auto. ring.
Qed.

(** C26: permanent_borchardt computes the permanent of zeta_j eta_i / (lambda_i - epsilon_j) *)
Theorem C26_value : forall nrow ncol (lambdas epsilons zetas : nat -> K) etas,
  (0 < nrow)%nat -> (0 < ncol)%nat ->
  (forall i i', (i < nrow)%nat -> (i' < nrow)%nat -> lambdas i = lambdas i' -> i = i') ->
  (forall j j', (j < ncol)%nat -> (j' < ncol)%nat -> epsilons j = epsilons j' -> j = j') ->
  (forall i j, (i < nrow)%nat -> (j < ncol)%nat -> lambdas i <> epsilons j) ->
  let eta := match etas with Some e => e | None => fun _ => 1 end in
  exists v, permanent_borchardt nrow ncol ncol lambdas epsilons zetas
              (match etas with Some e => Some (nrow, e) | None => None end) = Ok v /\
    is_permanent nrow ncol (fun i j => zetas j * eta i * finv (lambdas i - epsilons j)) v.
Proof.
  intros nrow ncol lam eps zet etas Hr Hc Il Ie Ne eta.
  destruct (C24_value nrow ncol (fun i j => zet j * eta i * finv (lam i - eps j)) Hr Hc) as (v & Ev & Pv).
  exists v. split; auto. rewrite comb_value in Ev by auto. rewrite <- Ev. clear Ev Pv.
  unfold permanent_borchardt. rewrite Nat.eqb_refl. cbn [negb].
  assert (Ec : match match etas with Some e => Some (nrow, e) | None => None end with
       | Some e => negb (Nat.eqb (fst e) nrow) | None => false end = false).
  { destruct etas; auto. cbn [fst]. now rewrite Nat.eqb_refl. }
  rewrite Ec.
  assert (Ee : match match etas with Some e => Some (nrow, e) | None => None end with
       | Some e => snd e | None => fun _ => 1 end = eta).
  { unfold eta. destruct etas; auto. }
  rewrite Ee. cbv zeta. f_equal.
  destruct (Nat.ltb_spec ncol nrow).
  - rewrite (borchardt_sum ncol nrow (fun i j => finv (lam j - eps i)) eps lam eta zet (- (1))); auto; try lia.
    + apply permR_ext. clear. generalize (seq 0 ncol) as l. induction l; cbn [map]; constructor; auto.
      intros x _. ring.
    + ring.
    + intros i j Hi Hj E. symmetry in E. now apply Ne in E.
    + intros i j Hi Hj. symmetry. apply f_inv_unique'.
      transitivity (finv (eps i - lam j) * (eps i - lam j)); [ring|]. apply f_inv. apply f_sub_nz.
      intros E. symmetry in E. now apply Ne in E.
  - apply (borchardt_sum nrow ncol (fun i j => finv (lam i - eps j)) lam eps zet eta 1); auto; try ring.
    intros; ring.
Qed.

(** the sizes of the parameters are checked *)
Theorem C26_error : forall nrow ncol nzetas (lambdas epsilons zetas : nat -> K) etas,
  permanent_borchardt nrow ncol nzetas lambdas epsilons zetas etas = Err ValueError <->
  (nzetas <> ncol \/ exists n e, etas = Some (n, e) /\ n <> nrow).
Proof.
  intros nrow ncol nz lam eps zet etas. unfold permanent_borchardt.
  destruct (Nat.eqb_spec nz ncol) as [->|Hn]; cbn [negb]; [|split; auto].
  destruct etas as [[n e]|]; cbn [fst].
  - destruct (Nat.eqb_spec n nrow) as [->|Hm]; cbn [negb].
    + split; [discriminate|]. intros [C|(n & e' & E & C)]; [congruence|]. injection E as <- _. congruence.
    + split; auto. intros _. right. now exists n, e.
  - split; [discriminate|]. intros [C|(n & e' & E & C)]; [congruence|discriminate].
Qed.

(** it agrees with Ryser's and the combinatoric formula on the same matrix *)
Theorem C26_agrees : forall nrow ncol (lambdas epsilons zetas etas : nat -> K),
  (0 < nrow)%nat -> (0 < ncol)%nat ->
  (forall i i', (i < nrow)%nat -> (i' < nrow)%nat -> lambdas i = lambdas i' -> i = i') ->
  (forall j j', (j < ncol)%nat -> (j' < ncol)%nat -> epsilons j = epsilons j' -> j = j') ->
  (forall i j, (i < nrow)%nat -> (j < ncol)%nat -> lambdas i <> epsilons j) ->
  permanent_borchardt nrow ncol ncol lambdas epsilons zetas (Some (nrow, etas))
  = permanent_combinatoric nrow ncol (fun i j => zetas j * etas i * finv (lambdas i - epsilons j)).
Proof.
  intros nrow ncol lam eps zet eta Hr Hc Il Ie Ne.
  destruct (C26_value nrow ncol lam eps zet (Some eta) Hr Hc Il Ie Ne) as (v & E & P). rewrite E.
  destruct (C24_value nrow ncol (fun i j => zet j * eta i * finv (lam i - eps j)) Hr Hc) as (w & Ew & Pw).
  rewrite Ew. f_equal. exact (C24_unique _ _ _ _ _ Hr Hc Ew P).
Qed.
End C26.
Print Assumptions C26_value.
Print Assumptions C26_error.
Print Assumptions C26_agrees.

Example C26_ex :
  let q := fun z => Q2Qc (inject_Z z) in
  let lam := fun i => q (Z.of_nat i) in let eps := fun j => q (Z.of_nat (10 + 2 * j)) in
  let zet := fun j => q (Z.of_nat (j + 1)) in let et := fun i => q (Z.of_nat (3 - i)) in
  same_q (permanent_borchardt (K := Qc_field) 2 3 3 lam eps zet (Some (2%nat, et)))
     (permanent_combinatoric (K := Qc_field) 2 3 (fun i j => (zet j * et i / (lam i - eps j))%Qc)) = true /\
  same_q (permanent_borchardt (K := Qc_field) 3 2 2 lam eps zet (Some (3%nat, et)))
     (permanent_combinatoric (K := Qc_field) 3 2 (fun i j => (zet j * et i / (lam i - eps j))%Qc)) = true /\
  same_q (permanent_borchardt (K := Qc_field) 1 1 1 lam eps zet None) (Ok (q (-1)%Z / q 10%Z)%Qc) = true.
Proof. repeat split; vm_compute; reflexivity. Qed.
