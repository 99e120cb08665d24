From Coq Require Import Ring_theory List ZArith NArith Bool Lia Arith Permutation Sorted.
From Verif Require Import Py BitSpec BitLemmas Slater SlaterBits SlaterBits2 Fock FockLemmas SignLemmas Alg Combos PermLemmas
  SpinSpec HamSpec HamGen FockInner HamLemmas HamSC HamMain HamRes HamSpin HamSpinSum HamRot HamRotLemmas HamDeriv DerivSpec DerivHams DerivLemmas DerivGen DerivSpin.
Import ListNotations.

Section DS2.
Context {K : CRing}.
Local Open Scope cr_scope.
Add Ring K_ring31 : (rth K).
Local Notation triple := (HamGen.triple K).

Lemma up_mono : forall n a b, (a < b)%nat -> up n b = true -> up n a = true.
Proof. intros n a b L. unfold up. rewrite !Nat.ltb_lt. lia. Qed.
Lemma place_ne : forall n a b, (a < 2 * n)%nat -> (b < 2 * n)%nat -> a <> b -> up n a = up n b -> place n a <> place n b.
Proof.
  intros n a b Ha Hb N. unfold place, up. destruct (Nat.ltb_spec a n), (Nat.ltb_spec b n); intros E; try discriminate; lia.
Qed.

Lemma ifz : forall (c : bool) (p q r p' q' r' : K), (if c then (p, q, r) else (p', q', r')) = (if c then p else p', if c then q else q', if c then r else r').
Proof. intros []; auto. Qed.
Lemma ifneg : forall (c : bool) (p : K), (if c then - p else 0) = - (if c then p else 0).
Proof. intros []; intros; auto. ring. Qed.
Lemma if00 : forall (c : bool), (if c then 0 else 0 : K) = 0.
Proof. intros []; auto. Qed.

Lemma r_deriv_two_eq : forall (h : rham K) x y a b c d, two_sym (rh_two h) -> (x < rh_n h)%nat -> (y < rh_n h)%nat -> x <> y ->
  (forall i, In i [a; b; c; d] -> i < 2 * rh_n h)%nat -> (a < b)%nat -> (c < d)%nat ->
  r_deriv_two h [a; b] [c; d] x y = r_sd_two (der_r h x y) [a; b] [c; d].
Proof.
  intros h x y a b c d S2 Hx Hy XY B AB CD. unfold r_deriv_two, r_sd_two. cbn [der_r r_cache_two_ints rh_n rh_two].
  assert (Ba := B a ltac:(simpl; tauto)). assert (Bb := B b ltac:(simpl; tauto)). assert (Bc := B c ltac:(simpl; tauto)). assert (Bd := B d ltac:(simpl; tauto)).
  set (n := rh_n h) in *. set (two := rh_two h) in *. rewrite !spatial_ok, !alpha_ok by auto. cbn [bind].
  assert (Mab := up_mono n a b AB). assert (Mcd := up_mono n c d CD).
  assert (Pa := place_lt n a Ba). assert (Pb := place_lt n b Bb). assert (Pc := place_lt n c Bc). assert (Pd := place_lt n d Bd).
  rewrite steps_val by bnd.
  rewrite !chk_ok by (intros i Hi; cbn [In] in Hi; destruct Hi as [<-|[<-|[<-|[<-|[]]]]]; auto).
  set (pa := place n a) in *. set (pb := place n b) in *. set (pc := place n c) in *. set (pd := place n d) in *.
  assert (G1 : forall z, two z pa pd pc = two pa z pc pd) by (intros; apply S2). assert (G2 : forall z, two z pa pc pd = two pa z pd pc) by (intros; apply S2).
  assert (G3 : forall z, two pb pa z pd = two pa pb pd z) by (intros; apply S2). assert (G4 : forall z, two pb pa z pc = two pa pb pc z) by (intros; apply S2).
  rewrite !G1, !G2, !G3, !G4. cbn [svals pval].
  destruct (up n a), (up n b), (up n c), (up n d); try (specialize (Mab eq_refl); discriminate Mab); try (specialize (Mcd eq_refl); discriminate Mcd);
    cbn [eqb andb negb bind]; rewrite ?andb_true_r, ?andb_false_r; f_equal; unfold d2, d2a, d2b, dl, t_add, t_zero;
    try (tri3; ring);
    rewrite !(Nat.eqb_sym pa), !(Nat.eqb_sym pb), !(Nat.eqb_sym pc), !(Nat.eqb_sym pd);
    rewrite !ifz; rewrite ?ifneg, ?if00; tri3; ring.
Qed.

(** ** Unrestricted *)

Lemma triu_zero : forall l, triu_sum (fun _ _ => 0 : K) l = 0.
Proof. intros. rewrite triu_sum_pairs. apply sumf_zero. reflexivity. Qed.

Section U.
Variable h : uham K.
Hypotheses (H0 : herm1 (uh_one0 h)) (H1 : herm1 (uh_one1 h)) (Haa : herm2 (uh_two0 h)) (Hab : herm2 (uh_two1 h)) (Hbb : herm2 (uh_two2 h))
  (Saa : two_sym (uh_two0 h)) (Sbb : two_sym (uh_two2 h)).
Let n := uh_n h.

Lemma u_deriv_zero_eq : forall t x y la lb, (x < n)%nat -> (y < n)%nat -> NoDup la -> NoDup lb -> bounded n la -> bounded n lb ->
  u_deriv_zero h t x y la lb = u_sd_zero (der_u h t x y) la lb.
Proof.
  intros t x y la lb Hx Hy Na Nb Ba Bb. unfold u_deriv_zero, u_sd_zero, spin_sd_zero. subst n.
  rewrite steps_val by bnd.
  rewrite chk_ok by (apply bounded_In; cbn [der_u u_cache_two_ints uh_n]; now apply Forall_app).
  destruct t; cbn [der_u u_cache_two_ints uh_n uh_one0 uh_one1 uh_two0 uh_two1 uh_two2 uh_0_ijij uh_1_ijij uh_2_ijij uh_0_ijji uh_2_ijji];
    rewrite !triu_zero, triu_d2, triu_d2x by auto; [rewrite block_a by auto|rewrite block_b by auto]; rewrite !psum_sumf;
    rewrite (sumf_zero (fun _ : nat => 0 : K)) by auto; rewrite sum_d1 by auto; cbn [svals pval]; f_equal; unfold t_add, t_zero; cbn [andb negb].
  - destruct (memb x la), (memb y la); tri3; ring.
  - destruct (memb x lb), (memb y lb); tri3; ring.
Qed.

Lemma u_deriv_one_eq : forall t x y a b la lb, (x < n)%nat -> (y < n)%nat -> x <> y -> (a < 2 * n)%nat -> (b < 2 * n)%nat -> a <> b ->
  NoDup la -> NoDup lb -> bounded n la -> bounded n lb ->
  (forall c, c = a \/ c = b -> ~ In (place n c) (if up n c then la else lb)) ->
  u_deriv_one h [a] [b] t x y la lb = u_sd_one (der_u h t x y) [a] [b] la lb.
Proof.
  intros t x y a b la lb Hx Hy XY Ha Hb AB Na Nb Ba Bb C. unfold u_deriv_one, u_sd_one.
  assert (En : uh_n (der_u h t x y) = n) by reflexivity. rewrite En. fold n. rewrite !spatial_ok, !alpha_ok by auto. cbn [bind].
  assert (Ca := C a (or_introl eq_refl)). assert (Cb := C b (or_intror eq_refl)). clear C.
  assert (Pa := place_lt n a Ha). assert (Pb := place_lt n b Hb). assert (PAB := place_ne n a b Ha Hb AB).
  rewrite steps_val by bnd. rewrite !psum_sumf.
  set (pa := place n a) in *. set (pb := place n b) in *.
  set (two0 := uh_two0 h) in *. set (two1 := uh_two1 h) in *. set (two2 := uh_two2 h) in *. set (one0 := uh_one0 h) in *. set (one1 := uh_one1 h) in *.
  assert (EJ0 : forall l p q, sumf (fun s => two0 p s q s) l = sumf (fun s => two0 s p s q) l) by (intros; apply sumf_ext; intros; apply Saa).
  assert (EX0 : forall l p q, sumf (fun s => two0 p s s q) l = sumf (fun s => two0 s p q s) l) by (intros; apply sumf_ext; intros; apply Saa).
  assert (EJ2 : forall l p q, sumf (fun s => two2 p s q s) l = sumf (fun s => two2 s p s q) l) by (intros; apply sumf_ext; intros; apply Sbb).
  assert (EX2 : forall l p q, sumf (fun s => two2 p s s q) l = sumf (fun s => two2 s p q s) l) by (intros; apply sumf_ext; intros; apply Sbb).
  rewrite !EJ0, !EX0, !EJ2, !EX2. clear EJ0 EX0 EJ2 EX2.
  assert (F0 : two0 x pb y pa = two0 y pa x pb) by apply Haa. assert (F1 : two1 x pb y pa = two1 y pa x pb) by apply Hab.
  assert (F1' : two1 pb x pa y = two1 pa y pb x) by apply Hab. assert (F2 : two2 x pb y pa = two2 y pa x pb) by apply Hbb.
  assert (X0 : two0 x pb pa y = two0 y pa pb x) by (transitivity (two0 pa y x pb); [apply Haa|apply Saa]).
  assert (X2 : two2 x pb pa y = two2 y pa pb x) by (transitivity (two2 pa y x pb); [apply Hbb|apply Sbb]).
  rewrite !F0, !F1, !F1', !F2, !X0, !X2. clear F0 F1 F1' F2 X0 X2.
  assert (BB : bounded n (pa :: pb :: la ++ lb)) by (repeat constructor; auto; now apply Forall_app). rewrite bounded_In in BB.
  destruct (up n a) eqn:Ua, (up n b) eqn:Ub; cbn [andb negb eqb]; cbv iota in Ca, Cb; rewrite ?chk_ok by exact BB; clear BB;
    rewrite ?andb_true_r, ?andb_false_r, ?andb_true_l.
  - specialize (PAB eq_refl). destruct t; cbn [der_u u_cache_two_ints uh_one0 uh_one1 uh_two0 uh_two1 uh_two2 eqb andb negb];
      fold two0 two1 two2 one0 one1; rewrite ?psum_sumf; rewrite ?andb_true_r, ?andb_false_r, ?andb_true_l.
    + rewrite sum_d2, sum_b', sum_a, sum_a', sum_d2x by auto. unfold d1, dl. cbv beta.
      name_sums two0 la lb J1 J2 X.
      set (J3 := fun p q => sumf (fun s => two1 p s q s) lb).
      repeat match goal with |- context [sumf (fun s => two1 ?p s ?q s) lb] => change (sumf (fun s => two1 p s q s) lb) with (J3 p q) end.
      clearbody J1 J2 J3 X. cbn [svals pval andb negb]. f_equal. unfold t_add, t_zero.
      rewrite !(Nat.eqb_sym pa), !(Nat.eqb_sym pb).
      destruct (Nat.eqb_spec x pa) as [E1|E1], (Nat.eqb_spec x pb) as [E2|E2], (Nat.eqb_spec y pa) as [E3|E3], (Nat.eqb_spec y pb) as [E4|E4];
      try (exfalso; congruence); rewrite ?E1, ?E2, ?E3, ?E4;
      rewrite ?(memb_not pa la), ?(memb_not pb la) by auto; cbn [orb negb andb]; rewrite ?andb_true_r, ?andb_false_r;
      repeat match goal with |- context [memb ?z ?l] => destruct (memb z l) end; tri3; ring.
    + rewrite !(sumf_zero (fun _ : nat => (0 : K))) by auto. rewrite sum_b by auto. cbn [svals pval andb negb]. f_equal. unfold t_add, t_zero.
      destruct (memb x lb), (memb y lb); tri3; ring.
  - cbn [svals pval andb]. rewrite ?andb_false_r. f_equal. unfold t_add, t_zero. destruct t; cbn [andb eqb]; rewrite ?andb_false_r; cbn [andb]; tri3; ring.
  - cbn [svals pval andb]. rewrite ?andb_false_r. f_equal. unfold t_add, t_zero. destruct t; cbn [andb eqb]; rewrite ?andb_false_r; cbn [andb]; tri3; ring.
  - specialize (PAB eq_refl). destruct t; cbn [der_u u_cache_two_ints uh_one0 uh_one1 uh_two0 uh_two1 uh_two2 eqb andb negb];
      fold two0 two1 two2 one0 one1; rewrite ?psum_sumf; rewrite ?andb_true_r, ?andb_false_r, ?andb_true_l.
    + rewrite !(sumf_zero (fun _ : nat => (0 : K))) by auto. rewrite sum_a by auto. cbn [svals pval andb negb]. f_equal. unfold t_add, t_zero.
      destruct (memb x la), (memb y la); tri3; ring.
    + rewrite sum_d2, sum_a, !sum_b', sum_d2x by auto. unfold d1, dl. cbv beta.
      name_sums two2 lb la J1 J2 X.
      set (J3 := fun p q => sumf (fun s => two1 s p s q) la).
      repeat match goal with |- context [sumf (fun s => two1 s ?p s ?q) la] => change (sumf (fun s => two1 s p s q) la) with (J3 p q) end.
      clearbody J1 J2 J3 X. cbn [svals pval andb negb]. f_equal. unfold t_add, t_zero.
      rewrite !(Nat.eqb_sym pa), !(Nat.eqb_sym pb).
      destruct (Nat.eqb_spec x pa) as [E1|E1], (Nat.eqb_spec x pb) as [E2|E2], (Nat.eqb_spec y pa) as [E3|E3], (Nat.eqb_spec y pb) as [E4|E4];
      try (exfalso; congruence); rewrite ?E1, ?E2, ?E3, ?E4;
      rewrite ?(memb_not pa lb), ?(memb_not pb lb) by auto; cbn [orb negb andb]; rewrite ?andb_true_r, ?andb_false_r;
      repeat match goal with |- context [memb ?z ?l] => destruct (memb z l) end; tri3; ring.
Qed.
End U.
End DS2.
