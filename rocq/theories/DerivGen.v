From Coq Require Import Ring_theory List ZArith NArith Bool Lia Arith Permutation Sorted.
From Verif Require Import Py BitSpec BitLemmas Slater SlaterBits SlaterBits2 Fock FockLemmas SignLemmas Alg Combos PermLemmas
  HamSpec HamGen FockInner HamLemmas HamSC HamMain HamRes HamSpin HamSpinSum HamRot HamRotLemmas HamDeriv DerivSpec DerivHams DerivLemmas.
Import ListNotations.

Section DG.
Context {K : CRing}.
Local Open Scope cr_scope.
Add Ring K_ring29 : (rth K).
Local Notation triple := (HamGen.triple K).


Section H.
Variable h : gham K.
Hypotheses (H1 : herm1 (gh_one h)) (H2 : herm2 (gh_two h)) (S2 : two_sym (gh_two h)).

Lemma deriv_zero_eq : forall x y l, (x < gh_n h)%nat -> (y < gh_n h)%nat -> NoDup l -> bounded (gh_n h) l ->
  deriv_zero h x y l = sd_sd_zero (der_g h x y) l.
Proof.
  intros x y l Hx Hy N B. unfold deriv_zero, sd_sd_zero. cbn [der_g cache_two_ints gh_n gh_one gh_two gh_ijij gh_ijji].
  rewrite chk_ok by (now apply bounded_In). rewrite steps_val by bnd. rewrite !psum_sumf, !triu_sum_pairs.
  cbn [svals pval].
  rewrite (sumf_ext (fun i => d1 x y (gh_one h) i i) (fun i => wt x y i * ((1 + 1) * gh_one h x y))) by (intros; now apply d1_diag).
  rewrite (wt_sum x y l (fun _ => (1 + 1) * gh_one h x y)) by auto.
  rewrite (sumf_ext _ (fun p => wt x y (fst p) * ((1 + 1) * gh_two h x (snd p) y (snd p)) + wt x y (snd p) * ((1 + 1) * gh_two h x (fst p) y (fst p))) (pairs l))
    by (intros; now apply d2_diag).
  rewrite (pairs_both (fun i j => wt x y i * ((1 + 1) * gh_two h x j y j))) by auto.
  rewrite (sumf_ext (fun p => d2 x y (gh_two h) (fst p) (snd p) (snd p) (fst p)) (fun p => wt x y (fst p) * ((1 + 1) * gh_two h x (snd p) (snd p) y) + wt x y (snd p) * ((1 + 1) * gh_two h x (fst p) (fst p) y)) (pairs l))
    by (intros; now apply d2_cross).
  rewrite (pairs_both (fun i j => wt x y i * ((1 + 1) * gh_two h x j j y))) by auto.
  rewrite (sumf_ext (fun i => sumf (fun j => wt x y i * ((1 + 1) * gh_two h x j y j)) (without i l)) (fun i => wt x y i * ((1 + 1) * sumf (fun j => gh_two h x j y j) (without i l))))
    by (intros; now rewrite !sumf_mul_l).
  rewrite (sumf_ext (fun i => sumf (fun j => wt x y i * ((1 + 1) * gh_two h x j j y)) (without i l)) (fun i => wt x y i * ((1 + 1) * sumf (fun j => gh_two h x j j y) (without i l))))
    by (intros; now rewrite !sumf_mul_l).
  rewrite !wt_sum by auto.
  f_equal. unfold t_add, t_zero.
  destruct (memb x l), (memb y l); tri3; ring.
Qed.

Lemma deriv_one_eq : forall x y a b l, (x < gh_n h)%nat -> (y < gh_n h)%nat -> x <> y -> (a < gh_n h)%nat -> (b < gh_n h)%nat -> a <> b -> NoDup l ->
  bounded (gh_n h) l -> ~ In a l -> ~ In b l ->
  deriv_one h [a] [b] x y l = sd_sd_one (der_g h x y) [a] [b] l.
Proof.
  intros x y a b l Hx Hy XY Ha Hb AB N B Na Nb. unfold deriv_one, sd_sd_one. cbn [der_g cache_two_ints gh_n gh_one gh_two].
  rewrite chk_ok by (intros i [<-|[<-|Hi]]; auto; revert i Hi; now apply bounded_In). rewrite steps_val by bnd. rewrite !psum_sumf.
  set (two := gh_two h) in *. set (one := gh_one h) in *.
  set (J := fun p q => sumf (fun s => two s p s q) l). set (X := fun p q => sumf (fun s => two s p q s) l).
  assert (EJ : forall p q, sumf (fun s => two p s q s) l = J p q) by (intros; apply sumf_ext; intros; apply S2).
  assert (EX : forall p q, sumf (fun s => two p s s q) l = X p q) by (intros; apply sumf_ext; intros; apply S2).
  rewrite !EJ, !EX.
  assert (DJ : sumf (fun i => d2 x y two i a i b) l =
    dl x y (fun p => J p b) a + dl x y (fun p => J a p) b + ((if memb y l then two x a y b + two y a x b else 0) - (if memb x l then two x a y b + two y a x b else 0))).
  { unfold J. rewrite !dl_sum. rewrite <- (wt_sum x y l (fun _ => two x a y b + two y a x b)) by auto. rewrite <- !sumf_add.
    apply sumf_ext. intros i _. unfold d2, d2a, d2b, dl, wt. destruct (Nat.eqb_spec i y), (Nat.eqb_spec i x); subst; try contradiction; ring. }
  assert (DX : sumf (fun i => d2 x y two i a b i) l =
    dl x y (fun p => X p b) a + dl x y (fun p => X a p) b + ((if memb y l then two x a b y + two y a b x else 0) - (if memb x l then two x a b y + two y a b x else 0))).
  { unfold X. rewrite !dl_sum. rewrite <- (wt_sum x y l (fun _ => two x a b y + two y a b x)) by auto. rewrite <- !sumf_add.
    apply sumf_ext. intros i _. unfold d2, d2a, d2b, dl, wt. destruct (Nat.eqb_spec i y), (Nat.eqb_spec i x); subst; try contradiction; ring. }
  rewrite DJ, DX. clear DJ DX EJ EX. clearbody J X. cbn [svals pval]. unfold d1, dl.
  rewrite !(Nat.eqb_sym a), !(Nat.eqb_sym b).
  f_equal. unfold t_add, t_zero.
  destruct (Nat.eqb_spec x a) as [E1|E1].
  { subst a. rewrite (memb_not x l) by auto. destruct (Nat.eqb_spec x b); [congruence|]. destruct (Nat.eqb_spec y x); [congruence|].
    destruct (Nat.eqb_spec y b) as [E2|E2]; [subst b; rewrite (memb_not y l) by auto|destruct (memb y l)]; tri3; ring. }
  destruct (Nat.eqb_spec x b) as [E2|E2].
  { subst b. rewrite (memb_not x l) by auto. destruct (Nat.eqb_spec y x); [congruence|].
    destruct (Nat.eqb_spec y a) as [E3|E3]; [subst a; rewrite (memb_not y l) by auto|destruct (memb y l)]; tri3; ring. }
  destruct (Nat.eqb_spec y a) as [E3|E3].
  { subst a. rewrite (memb_not y l) by auto. destruct (Nat.eqb_spec y b); [congruence|]. destruct (memb x l); tri3; ring. }
  destruct (Nat.eqb_spec y b) as [E4|E4].
  { subst b. rewrite (memb_not y l) by auto. destruct (memb x l); tri3; ring. }
  destruct (memb x l), (memb y l); tri3; ring.
Qed.

Lemma deriv_two_eq : forall x y a b c d, bounded (gh_n h) [x; y; a; b; c; d] -> x <> y ->
  NoDup [a; b; c; d] ->
  deriv_two h [a; b] [c; d] x y = sd_sd_two (der_g h x y) [a; b] [c; d].
Proof.
  intros x y a b c d B XY N. unfold deriv_two, sd_sd_two. cbn [der_g cache_two_ints gh_n gh_one gh_two].
  rewrite bounded_In in B.
  assert (Ba : (a < gh_n h)%nat) by (apply B; simpl; tauto). assert (Bb : (b < gh_n h)%nat) by (apply B; simpl; tauto).
  assert (Bc : (c < gh_n h)%nat) by (apply B; simpl; tauto). assert (Bd : (d < gh_n h)%nat) by (apply B; simpl; tauto).
  assert (Bx : (x < gh_n h)%nat) by (apply B; simpl; tauto). assert (By : (y < gh_n h)%nat) by (apply B; simpl; tauto).
  rewrite chk_ok by (intros i Hi; apply B; simpl in *; tauto).
  rewrite steps_val by bnd.
  cbn [svals pval]. unfold d2, d2a, d2b, dl. rewrite !(Nat.eqb_sym a), !(Nat.eqb_sym b), !(Nat.eqb_sym c), !(Nat.eqb_sym d).
  inversion N as [|? ? Na N1]; subst. inversion N1 as [|? ? Nb N2]; subst. inversion N2 as [|? ? Nc N3]; subst. clear N N1 N2 N3.
  cbn [In] in Na, Nb, Nc.
  f_equal. unfold t_add, t_zero.
  destruct (Nat.eqb_spec x a), (Nat.eqb_spec x b), (Nat.eqb_spec x c), (Nat.eqb_spec x d); try (exfalso; intuition congruence);
  destruct (Nat.eqb_spec y a), (Nat.eqb_spec y b), (Nat.eqb_spec y c), (Nat.eqb_spec y d); try (exfalso; intuition congruence);
  tri3; ring.
Qed.
End H.

Lemma diff_NoDup : forall m n, NoDup (fst (diff_orbs m n) ++ snd (diff_orbs m n)).
Proof.
  intros m n. apply NoDup_app_intro'.
  - apply increasing_NoDup. unfold diff_orbs. cbn [fst snd]. apply occ_indices_increasing.
  - apply increasing_NoDup. unfold diff_orbs. cbn [fst snd]. apply occ_indices_increasing.
  - intros x A B. apply diff_orbs_In1 in A. apply diff_orbs_In2 in B. destruct A, B; congruence.
Qed.

Lemma rowcol_at : forall n i, (i < n * (n - 1) / 2)%nat -> rowcol n (Z.of_nat i) = Ok (pair_at n i) /\
  (fst (pair_at n i) < snd (pair_at n i) < n)%nat.
Proof.
  intros n i L.
  assert (T : (2 * Z.of_nat i < Z.of_nat n * (Z.of_nat n - 1))%Z).
  { assert (2 * (n * (n - 1) / 2) <= n * (n - 1))%nat by (apply Nat.mul_div_le; lia).
    assert (2 * i < n * (n - 1))%nat by lia. destruct n; [lia|]. rewrite Nat.sub_succ, Nat.sub_0_r in *. nia. }
  destruct (rowcol_pos n (Z.of_nat i)) as (x & y & E & A); [lia|auto|]. assert (A' := A). destruct A' as (B & C & D).
  assert (P : pair_at n i = (Z.to_nat x, Z.to_nat y)).
  { unfold pair_at. apply nth_error_nth. apply triu_at. rewrite !Z2Nat.id by lia. exact A. }
  unfold rowcol. rewrite E, P. cbn [bind fst snd]. split; auto. lia.
Qed.
Lemma deriv_ok_nat : forall k ds, (forall i, In i ds -> (i < k)%nat) -> deriv_ok k (map Z.of_nat ds) = true.
Proof.
  intros k ds H. unfold deriv_ok. apply forallb_forall. intros z Hz. apply in_map_iff in Hz as (i & <- & Hi). apply H in Hi.
  rewrite (proj2 (Z.leb_le _ _)), (proj2 (Z.ltb_lt _ _)) by lia. reflexivity.
Qed.

Theorem deriv_decomposed_eq : forall (h : gham K) m n ds, herm1 (gh_one h) -> herm2 (gh_two h) -> two_sym (gh_two h) ->
  fits m (gh_n h) -> fits n (gh_n h) -> ~ (m = 0%N /\ n = 0%N) -> (forall i, In i ds -> (i < gh_n h * (gh_n h - 1) / 2)%nat) ->
  exists r, (forall i, In i ds -> integrate_sd_sd_decomposed (der_g h (fst (pair_at (gh_n h) i)) (snd (pair_at (gh_n h) i))) m n = Ok (r i)) /\
    deriv_decomposed h m n (map Z.of_nat ds) = Ok (map r ds).
Proof.
  intros h m n ds H1 H2 S2 Fm Fn NV D.
  exists (fun i => value3 (integrate_sd_sd_decomposed (der_g h (fst (pair_at (gh_n h) i)) (snd (pair_at (gh_n h) i))) m n)).
  assert (SN : NoDup (shared_orbs m n)) by (apply increasing_NoDup, occ_indices_increasing).
  assert (SB : forall i, In i (shared_orbs m n) -> (i < gh_n h)%nat).
  { intros i Hi. apply shared_orbs_In in Hi as [Hi _]. exact (fits_lt _ _ _ Fm Hi). }
  assert (MM : forall (q : nat -> res triple) (r : nat -> triple), (forall i, In i ds -> q i = Ok (r i)) -> mapM (fun z => q (Z.to_nat z)) (map Z.of_nat ds) = Ok (map r ds)).
  { intros q r Hq. rewrite (mapM_Ok _ (fun z => r (Z.to_nat z))).
    - rewrite map_map. f_equal. apply map_ext. intros. now rewrite Nat2Z.id.
    - intros z Hz. apply in_map_iff in Hz as (i & <- & Hi). rewrite Nat2Z.id. auto. }
  assert (NZ : forall z, In z (map Z.of_nat ds) -> exists i, z = Z.of_nat i /\ In i ds).
  { intros z Hz. apply in_map_iff in Hz as (i & <- & Hi). eauto. }
  assert (ME : forall (q1 q2 : Z -> res triple) l, (forall z, In z l -> q1 z = q2 z) -> mapM q1 l = mapM q2 l).
  { intros q1 q2 l. induction l as [|z l IH]; intros E; auto. cbn [mapM]. rewrite (E z) by now left. rewrite IH; auto. intros; apply E; now right. }
  assert (SB' := proj2 (bounded_In _ _) SB).
  destruct (sign_code m n) as (s & E1 & E2).
  assert (Main : forall (q : nat -> nat -> res triple) ,
     (forall i, In i ds -> forall x y, pair_at (gh_n h) i = (x, y) -> (x < y < gh_n h)%nat ->
        exists v, q x y = Ok v /\ integrate_sd_sd_decomposed (der_g h x y) m n = Ok (t_scale (sgnr (sgn s)) v)) ->
     (forall i, In i ds -> integrate_sd_sd_decomposed (der_g h (fst (pair_at (gh_n h) i)) (snd (pair_at (gh_n h) i))) m n
        = Ok (value3 (integrate_sd_sd_decomposed (der_g h (fst (pair_at (gh_n h) i)) (snd (pair_at (gh_n h) i))) m n))) /\
     mapM (fun d => do xy <- rowcol (gh_n h) d; let (x, y) := xy in do t <- q x y; Ok (t_scale (sgnr (sgn s)) t)) (map Z.of_nat ds)
       = Ok (map (fun i => value3 (integrate_sd_sd_decomposed (der_g h (fst (pair_at (gh_n h) i)) (snd (pair_at (gh_n h) i))) m n)) ds)).
  { intros q Hq. split.
    - intros i Hi. destruct (rowcol_at (gh_n h) i (D i Hi)) as [_ L]. destruct (pair_at (gh_n h) i) as [x y] eqn:P. cbn [fst snd] in *.
      destruct (Hq i Hi x y P L) as (v & _ & ->). reflexivity.
    - rewrite <- MM with (q := fun i => integrate_sd_sd_decomposed (der_g h (fst (pair_at (gh_n h) i)) (snd (pair_at (gh_n h) i))) m n).
      + apply ME. intros z Hz. apply NZ in Hz as (i & -> & Hi). rewrite Nat2Z.id. destruct (rowcol_at (gh_n h) i (D i Hi)) as [-> L].
        destruct (pair_at (gh_n h) i) as [x y] eqn:P. cbn [bind fst snd] in *. destruct (Hq i Hi x y P L) as (v & -> & ->). reflexivity.
      + intros i Hi. destruct (rowcol_at (gh_n h) i (D i Hi)) as [_ L]. destruct (pair_at (gh_n h) i) as [x y] eqn:P. cbn [fst snd] in *.
        destruct (Hq i Hi x y P L) as (v & _ & ->). reflexivity. }
  destruct (diff_cases m n) as [->|[(a & b & Df)|[(a & b & c & d & Df)|H]]].
  - unfold deriv_decomposed. unfold integrate_sd_sd_decomposed in Main. unfold integrate_sd_sd_decomposed. rewrite diff_same in *.
    cbn [fst snd length Nat.eqb negb Nat.ltb Nat.leb rev andb] in *. rewrite E1 in *. cbn [bind] in *. rewrite deriv_ok_nat by auto. cbn [negb].
    apply (Main (fun x y => deriv_zero h x y (shared_orbs n n))). intros i Hi x y P L.
    assert (LE : length (shared_orbs n n) <> 0%nat).
    { intros LE. apply length_zero_iff_nil in LE. apply NV. rewrite shared_same in LE.
      assert (n = 0%N); auto. apply bit_ext. intros j. rewrite bit_0. destruct (bit n j) eqn:B; auto. apply occ_indices_In in B. rewrite LE in B. destruct B. }
    destruct (Nat.eqb_spec (length (shared_orbs n n)) 0); [contradiction|]. cbn [negb]. rewrite deriv_zero_eq by (auto; lia).
    unfold sd_sd_zero. cbn [der_g cache_two_ints gh_n]. rewrite chk_ok by auto. eexists. split; reflexivity.
  - assert (ND := diff_NoDup m n). rewrite Df in ND. cbn [fst snd app] in ND. inversion ND as [|? ? Nab _]; subst. cbn [In] in Nab.
    assert (A : (a < gh_n h)%nat /\ ~ In a (shared_orbs m n)).
    { assert (In a (fst (diff_orbs m n))) as A by (rewrite Df; now left). apply diff_orbs_In1 in A as [A A']. split; [exact (fits_lt _ _ _ Fm A)|].
      intros I. apply shared_orbs_In in I as [_ I]. congruence. }
    assert (B : (b < gh_n h)%nat /\ ~ In b (shared_orbs m n)).
    { assert (In b (snd (diff_orbs m n))) as B by (rewrite Df; now left). apply diff_orbs_In2 in B as [B B']. split; [exact (fits_lt _ _ _ Fn B)|].
      intros I. apply shared_orbs_In in I as [I _]. congruence. }
    destruct A as [A A'], B as [B B'].
    unfold deriv_decomposed. unfold integrate_sd_sd_decomposed in Main. unfold integrate_sd_sd_decomposed. rewrite Df in *.
    cbn [fst snd length Nat.eqb negb Nat.ltb Nat.leb andb] in *. rewrite E1 in *. cbn [bind] in *. rewrite deriv_ok_nat by auto. cbn [negb].
    apply (Main (fun x y => deriv_one h [a] [b] x y (shared_orbs m n))). intros i Hi x y P L.
    rewrite deriv_one_eq by (auto; try lia; intuition congruence).
    unfold sd_sd_one. cbn [der_g cache_two_ints gh_n]. rewrite chk_ok by (intros j [<-|[<-|]]; auto). eexists. split; reflexivity.
  - assert (ND := diff_NoDup m n). rewrite Df in ND. cbn [fst snd app] in ND.
    assert (HA : forall x, In x [a; b] -> (x < gh_n h)%nat).
    { intros x Hx. change [a; b] with (fst ([a; b], [c; d])) in Hx. rewrite <- Df in Hx. apply diff_orbs_In1 in Hx as [Hx _]. exact (fits_lt _ _ _ Fm Hx). }
    assert (HB : forall x, In x [c; d] -> (x < gh_n h)%nat).
    { intros x Hx. change [c; d] with (snd ([a; b], [c; d])) in Hx. rewrite <- Df in Hx. apply diff_orbs_In2 in Hx as [Hx _]. exact (fits_lt _ _ _ Fn Hx). }
    assert (HC : forall x, In x [a; b; c; d] -> (x < gh_n h)%nat).
    { intros x Hx. cbn [In] in *. destruct Hx as [Hx|[Hx|Hx]]; [apply HA; auto|apply HA; auto|apply HB; auto]. }
    unfold deriv_decomposed. unfold integrate_sd_sd_decomposed in Main. unfold integrate_sd_sd_decomposed. rewrite Df in *.
    cbn [fst snd length Nat.eqb negb Nat.ltb Nat.leb andb] in *. rewrite E1 in *. cbn [bind] in *. rewrite deriv_ok_nat by auto. cbn [negb].
    apply (Main (fun x y => deriv_two h [a; b] [c; d] x y)). intros i Hi x y P L.
    rewrite deriv_two_eq; auto; try lia.
    + unfold sd_sd_two. cbn [der_g cache_two_ints gh_n]. rewrite chk_ok by exact HC. eexists. split; reflexivity.
    + apply bounded_In. intros j [<-|[<-|Hj]]; try lia. apply HC. exact Hj.
  - split.
    + intros i Hi. now rewrite dec_far by auto.
    + rewrite (map_ext_in _ (fun _ => t_zero)) by (intros; now rewrite dec_far by auto).
      unfold deriv_decomposed. destruct (diff_orbs m n) as [e1 e2]. cbn [fst snd] in H.
      destruct (Nat.eqb_spec (length e1) (length e2)) as [E|E]; cbn [negb]; [destruct (Nat.ltb_spec 2 (length e1)); [|lia]|]; now rewrite map_map.
Qed.
End DG.
