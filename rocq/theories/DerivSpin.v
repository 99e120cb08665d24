From Coq Require Import Ring_theory List ZArith NArith Bool Lia Arith Permutation Sorted.
From Verif Require Import Py BitSpec BitLemmas Slater SlaterBits SlaterBits2 Fock FockLemmas SignLemmas Alg Combos PermLemmas
  SpinSpec HamSpec HamGen FockInner HamLemmas HamSC HamMain HamRes HamSpin HamSpinSum HamRot HamRotLemmas HamDeriv DerivSpec DerivHams DerivLemmas DerivGen.
Import ListNotations.

(** the case of equal spins: [l] holds the shared orbitals of this spin, [l'] those of the other *)
Ltac name_sums two l l' J1 J2 X :=
    set (J1 := fun p q => sumf (fun s => two s p s q) l); set (J2 := fun p q => sumf (fun s => two s p s q) l'); set (X := fun p q => sumf (fun s => two s p q s) l);
    repeat match goal with |- context [sumf (fun s => two s ?p s ?q) l] => change (sumf (fun s => two s p s q) l) with (J1 p q) end;
    repeat match goal with |- context [sumf (fun s => two s ?p s ?q) l'] => change (sumf (fun s => two s p s q) l') with (J2 p q) end;
    repeat match goal with |- context [sumf (fun s => two s ?p ?q s) l] => change (sumf (fun s => two s p q s) l) with (X p q) end.

Section DS.
Context {K : CRing}.
Local Open Scope cr_scope.
Add Ring K_ring30 : (rth K).
Local Notation triple := (HamGen.triple K).
Local Notation "'ind' b v" := (if b then v else (0 : K)) (at level 10, b at level 9, v at level 9).

Lemma triu_d2 : forall (g : int2 K) x y l, herm2 g -> two_sym g -> NoDup l ->
  triu_sum (fun i j => d2 x y g i j i j) l =
  ind (memb y l) ((1 + 1) * sumf (fun j => g x j y j) (without y l)) - ind (memb x l) ((1 + 1) * sumf (fun j => g x j y j) (without x l)).
Proof.
  intros g x y l H2 S2 N. rewrite triu_sum_pairs.
  rewrite (sumf_ext _ (fun p => wt x y (fst p) * ((1 + 1) * g x (snd p) y (snd p)) + wt x y (snd p) * ((1 + 1) * g x (fst p) y (fst p))) (pairs l))
    by (intros; now apply d2_diag).
  rewrite (pairs_both (fun i j => wt x y i * ((1 + 1) * g x j y j))) by auto.
  rewrite (sumf_ext _ (fun i => wt x y i * ((1 + 1) * sumf (fun j => g x j y j) (without i l)))) by (intros; now rewrite !sumf_mul_l).
  now rewrite wt_sum by auto.
Qed.
Lemma triu_d2x : forall (g : int2 K) x y l, herm2 g -> two_sym g -> NoDup l ->
  triu_sum (fun i j => d2 x y g i j j i) l =
  ind (memb y l) ((1 + 1) * sumf (fun j => g x j j y) (without y l)) - ind (memb x l) ((1 + 1) * sumf (fun j => g x j j y) (without x l)).
Proof.
  intros g x y l H2 S2 N. rewrite triu_sum_pairs.
  rewrite (sumf_ext _ (fun p => wt x y (fst p) * ((1 + 1) * g x (snd p) (snd p) y) + wt x y (snd p) * ((1 + 1) * g x (fst p) (fst p) y)) (pairs l))
    by (intros; now apply d2_cross).
  rewrite (pairs_both (fun i j => wt x y i * ((1 + 1) * g x j j y))) by auto.
  rewrite (sumf_ext _ (fun i => wt x y i * ((1 + 1) * sumf (fun j => g x j j y) (without i l)))) by (intros; now rewrite !sumf_mul_l).
  now rewrite wt_sum by auto.
Qed.
Lemma sum_d1 : forall (h : int1 K) x y l, herm1 h -> NoDup l ->
  sumf (fun i => d1 x y h i i) l = ind (memb y l) ((1 + 1) * h x y) - ind (memb x l) ((1 + 1) * h x y).
Proof.
  intros h x y l H N. rewrite (sumf_ext _ (fun i => wt x y i * ((1 + 1) * h x y))) by (intros; now apply d1_diag).
  now rewrite (wt_sum x y l (fun _ => (1 + 1) * h x y)) by auto.
Qed.
Lemma block_a : forall (g : int2 K) x y la lb, herm2 g -> NoDup la ->
  block_sum (fun i j => d2a x y g i j i j) la lb =
  ind (memb y la) ((1 + 1) * sumf (fun j => g x j y j) lb) - ind (memb x la) ((1 + 1) * sumf (fun j => g x j y j) lb).
Proof.
  intros g x y la lb H N. unfold block_sum. rewrite psum_sumf.
  rewrite (sumf_ext _ (fun i => wt x y i * ((1 + 1) * sumf (fun j => g x j y j) lb))).
  - now rewrite (wt_sum x y la (fun _ => (1 + 1) * sumf (fun j => g x j y j) lb)) by auto.
  - intros i _. rewrite psum_sumf. rewrite <- !sumf_mul_l. apply sumf_ext. intros j _. now apply d2a_diag.
Qed.
Lemma block_b : forall (g : int2 K) x y la lb, herm2 g -> NoDup lb ->
  block_sum (fun i j => d2b x y g i j i j) la lb =
  ind (memb y lb) ((1 + 1) * sumf (fun i => g i x i y) la) - ind (memb x lb) ((1 + 1) * sumf (fun i => g i x i y) la).
Proof.
  intros g x y la lb H N. unfold block_sum. rewrite psum_sumf.
  rewrite (sumf_ext _ (fun i => sumf (fun j => wt x y j * ((1 + 1) * g i x i y)) lb)).
  - rewrite sumf_swap. rewrite (sumf_ext _ (fun j => wt x y j * ((1 + 1) * sumf (fun i => g i x i y) la))) by (intros; now rewrite !sumf_mul_l).
    now rewrite (wt_sum x y lb (fun _ => (1 + 1) * sumf (fun i => g i x i y) la)) by auto.
  - intros i _. rewrite psum_sumf. apply sumf_ext. intros j _. now apply d2b_diag.
Qed.
Lemma block_d2 : forall (g : int2 K) x y la lb, herm2 g -> NoDup la -> NoDup lb ->
  block_sum (fun i j => d2 x y g i j i j) la lb =
  block_sum (fun i j => d2a x y g i j i j) la lb + block_sum (fun i j => d2b x y g i j i j) la lb.
Proof.
  intros g x y la lb H Na Nb. unfold block_sum. rewrite !psum_sumf, <- sumf_add. apply sumf_ext. intros i _.
  rewrite !psum_sumf, <- sumf_add. reflexivity.
Qed.

(** sums over the shared orbitals of a single excitation *)
Lemma sum_a : forall (g : int2 K) x y a b l, x <> y -> NoDup l ->
  sumf (fun i => d2a x y g i a i b) l = ind (memb y l) (g x a y b + g y a x b) - ind (memb x l) (g x a y b + g y a x b).
Proof.
  intros g x y a b l XY N. rewrite <- (wt_sum x y l (fun _ => g x a y b + g y a x b)) by auto. apply sumf_ext. intros i _.
  unfold d2a, dl, wt. destruct (Nat.eqb_spec i y), (Nat.eqb_spec i x); subst; try contradiction; ring.
Qed.
Lemma sum_b : forall (g : int2 K) x y a b l, x <> y -> NoDup l ->
  sumf (fun i => d2b x y g a i b i) l = ind (memb y l) (g a x b y + g a y b x) - ind (memb x l) (g a x b y + g a y b x).
Proof.
  intros g x y a b l XY N. rewrite <- (wt_sum x y l (fun _ => g a x b y + g a y b x)) by auto. apply sumf_ext. intros i _.
  unfold d2b, dl, wt. destruct (Nat.eqb_spec i y), (Nat.eqb_spec i x); subst; try contradiction; ring.
Qed.
Lemma sum_a' : forall (g : int2 K) x y a b l,
  sumf (fun i => d2a x y g a i b i) l = dl x y (fun p => sumf (fun i => g p i b i) l) a + dl x y (fun p => sumf (fun i => g a i p i) l) b.
Proof. intros. now rewrite !dl_sum, <- sumf_add. Qed.
Lemma sum_b' : forall (g : int2 K) x y a b l,
  sumf (fun i => d2b x y g i a i b) l = dl x y (fun p => sumf (fun i => g i p i b) l) a + dl x y (fun p => sumf (fun i => g i a i p) l) b.
Proof. intros. now rewrite !dl_sum, <- sumf_add. Qed.
Lemma sum_d2 : forall (g : int2 K) x y a b l,
  sumf (fun i => d2 x y g i a i b) l = sumf (fun i => d2a x y g i a i b) l + sumf (fun i => d2b x y g i a i b) l.
Proof. intros. now rewrite <- sumf_add. Qed.
Lemma sum_d2x : forall (g : int2 K) x y a b l, x <> y -> NoDup l ->
  sumf (fun i => d2 x y g i a b i) l =
    dl x y (fun p => sumf (fun i => g i p b i) l) a + dl x y (fun p => sumf (fun i => g i a p i) l) b +
    (ind (memb y l) (g x a b y + g y a b x) - ind (memb x l) (g x a b y + g y a b x)).
Proof.
  intros g x y a b l XY N. rewrite !dl_sum. rewrite <- (wt_sum x y l (fun _ => g x a b y + g y a b x)) by auto. rewrite <- !sumf_add.
  apply sumf_ext. intros i _. unfold d2, d2a, d2b, dl, wt. destruct (Nat.eqb_spec i y), (Nat.eqb_spec i x); subst; try contradiction; ring.
Qed.

(** ** Restricted *)

Section R.
Variable h : rham K.
Hypotheses (H1 : herm1 (rh_one h)) (H2 : herm2 (rh_two h)) (S2 : two_sym (rh_two h)).
Let n := rh_n h.

Lemma r_deriv_zero_eq : forall x y la lb, (x < n)%nat -> (y < n)%nat -> NoDup la -> NoDup lb -> bounded n la -> bounded n lb ->
  r_deriv_zero h x y la lb = r_sd_zero (der_r h x y) la lb.
Proof.
  intros x y la lb Hx Hy Na Nb Ba Bb. unfold r_deriv_zero, r_sd_zero, spin_sd_zero.
  cbn [der_r r_cache_two_ints rh_n rh_one rh_two rh_ijij rh_ijji]. subst n.
  rewrite chk_ok by (apply bounded_In; now apply Forall_app). rewrite steps_val by bnd.
  rewrite !triu_d2, !triu_d2x, block_d2, block_a, block_b by auto. rewrite !psum_sumf. rewrite !sum_d1 by auto.
  cbn [svals pval]. f_equal. unfold t_add, t_zero.
  rewrite (sumf_ext (fun s => rh_two h s x s y) (fun s => rh_two h x s y s)) by (intros; apply S2).
  destruct (memb x la), (memb x lb), (memb y la), (memb y lb); tri3; ring.
Qed.

Lemma r_deriv_one_eq : forall x y a b la lb, (x < n)%nat -> (y < n)%nat -> x <> y -> (a < 2 * n)%nat -> (b < 2 * n)%nat -> a <> b ->
  NoDup la -> NoDup lb -> bounded n la -> bounded n lb ->
  (forall c, c = a \/ c = b -> ~ In (place n c) (if up n c then la else lb)) ->
  r_deriv_one h [a] [b] x y la lb = r_sd_one (der_r h x y) [a] [b] la lb.
Proof.
  intros x y a b la lb Hx Hy XY Ha Hb AB Na Nb Ba Bb C. unfold r_deriv_one, r_sd_one.
  cbn [der_r r_cache_two_ints rh_n rh_one rh_two]. fold n. rewrite !spatial_ok, !alpha_ok by auto. cbn [bind].
  assert (Ca := C a (or_introl eq_refl)). assert (Cb := C b (or_intror eq_refl)). clear C.
  assert (Pa := place_lt n a Ha). assert (Pb := place_lt n b Hb).
  assert (PAB : up n a = up n b -> place n a <> place n b).
  { unfold place, up. destruct (Nat.ltb_spec a n), (Nat.ltb_spec b n); intros E; try discriminate; lia. }
  assert (Wa : up n a = true -> place n a = a) by (unfold place, up; destruct (Nat.ltb a n); auto; discriminate).
  assert (Wb : up n b = true -> place n b = b) by (unfold place, up; destruct (Nat.ltb b n); auto; discriminate).
  assert (Va : up n a = false -> ~ In a lb).
  { intros U I. apply (proj1 (bounded_In n lb) Bb) in I. unfold up in U. apply Nat.ltb_ge in U. lia. }
  assert (Vb : up n b = false -> ~ In b lb).
  { intros U I. apply (proj1 (bounded_In n lb) Bb) in I. unfold up in U. apply Nat.ltb_ge in U. lia. }
  rewrite steps_val.
  2:{ destruct (up n a), (up n b); cbn [andb negb]; bnd. }
  set (two := rh_two h) in *. set (one := rh_one h) in *.
  rewrite !psum_sumf.
  destruct (up n a) eqn:Ua, (up n b) eqn:Ub; cbn [andb negb eqb]; cbv iota in Ca, Cb.
  - rewrite chk_ok by (intros i [<-|[<-|Hi]]; auto; apply in_app_iff in Hi as [Hi|Hi]; revert i Hi; now apply bounded_In).
    assert (Ca' : ~ In a la) by (rewrite Wa in Ca; auto). assert (Cb' : ~ In b la) by (rewrite Wb in Cb; auto).
    rewrite (without_id b la), (without_id a la) by auto.
    set (pa := place n a) in *. set (pb := place n b) in *. specialize (PAB eq_refl).
    assert (EJ : forall l p q, sumf (fun s => two p s q s) l = sumf (fun s => two s p s q) l) by (intros; apply sumf_ext; intros; apply S2).
    assert (EX : forall l p q, sumf (fun s => two p s s q) l = sumf (fun s => two s p q s) l) by (intros; apply sumf_ext; intros; apply S2).
    rewrite !EJ, !EX. rewrite !sum_d2, !sum_b', !sum_a, sum_d2x by auto.
    unfold d1, dl. cbv beta. name_sums two la lb J1 J2 X.
    assert (F1 : two x pb y pa = two y pa x pb) by apply H2. assert (F2 : two pa x pb y = two x pa y pb) by apply S2.
    assert (F3 : two pb x pa y = two y pa x pb) by (rewrite <- F1; apply S2).
    assert (F4 : two x pb pa y = two y pa pb x) by (transitivity (two pa y x pb); [apply H2|apply S2]).
    rewrite !F1, !F2, !F3, !F4. clearbody J1 J2 X. cbn [svals pval].
    rewrite !andb_true_r, !andb_false_r. rewrite !(Nat.eqb_sym pa), !(Nat.eqb_sym pb).
    f_equal. unfold t_add, t_zero. fold one two.
    destruct (Nat.eqb_spec x pa) as [E1|E1], (Nat.eqb_spec x pb) as [E2|E2], (Nat.eqb_spec y pa) as [E3|E3], (Nat.eqb_spec y pb) as [E4|E4];
      try (exfalso; congruence); rewrite ?E1, ?E2, ?E3, ?E4;
      rewrite ?(memb_not pa la), ?(memb_not pb la) by auto;
      rewrite ?E1, ?E2, ?E3, ?E4;
      repeat match goal with |- context [memb ?z ?l] => destruct (memb z l) end; tri3; ring.
  - cbn [svals pval]. rewrite ?andb_false_r. cbn [andb]. f_equal. unfold t_add, t_zero. tri3; ring.
  - cbn [svals pval]. rewrite ?andb_false_r. cbn [andb]. f_equal. unfold t_add, t_zero. tri3; ring.
  - rewrite chk_ok by (intros i [<-|[<-|Hi]]; auto; apply in_app_iff in Hi as [Hi|Hi]; revert i Hi; now apply bounded_In).
    rewrite (without_id b lb), (without_id a lb) by auto.
    set (pa := place n a) in *. set (pb := place n b) in *. specialize (PAB eq_refl).
    assert (EJ : forall l p q, sumf (fun s => two p s q s) l = sumf (fun s => two s p s q) l) by (intros; apply sumf_ext; intros; apply S2).
    assert (EX : forall l p q, sumf (fun s => two p s s q) l = sumf (fun s => two s p q s) l) by (intros; apply sumf_ext; intros; apply S2).
    rewrite !EJ, !EX. rewrite !sum_d2, !sum_b', !sum_a, sum_d2x by auto.
    unfold d1, dl. cbv beta. name_sums two lb la J1 J2 X.
    assert (F1 : two x pb y pa = two y pa x pb) by apply H2. assert (F2 : two pa x pb y = two x pa y pb) by apply S2.
    assert (F3 : two pb x pa y = two y pa x pb) by (rewrite <- F1; apply S2).
    assert (F4 : two x pb pa y = two y pa pb x) by (transitivity (two pa y x pb); [apply H2|apply S2]).
    rewrite !F1, !F2, !F3, !F4. clearbody J1 J2 X. cbn [svals pval].
    rewrite !andb_true_r, !andb_false_r. rewrite !(Nat.eqb_sym pa), !(Nat.eqb_sym pb).
    f_equal. unfold t_add, t_zero. fold one two.
    destruct (Nat.eqb_spec x pa) as [E1|E1], (Nat.eqb_spec x pb) as [E2|E2], (Nat.eqb_spec y pa) as [E3|E3], (Nat.eqb_spec y pb) as [E4|E4];
      try (exfalso; congruence); rewrite ?E1, ?E2, ?E3, ?E4;
      rewrite ?(memb_not pa lb), ?(memb_not pb lb) by auto;
      rewrite ?E1, ?E2, ?E3, ?E4;
      repeat match goal with |- context [memb ?z ?l] => destruct (memb z l) end; tri3; ring.
Qed.
End R.
End DS.
