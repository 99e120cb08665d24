From Coq Require Import Ring_theory List ZArith NArith Bool Lia Arith Permutation Sorted.
From Verif Require Import Py BitSpec BitLemmas Slater SlaterBits SlaterBits2 Fock FockLemmas SignLemmas Alg Combos PermLemmas
  SpinSpec HamSpec HamGen FockInner HamLemmas HamSC HamMain HamRes HamSpin HamSpinSum HamRot HamRotLemmas HamDeriv DerivSpec DerivHams DerivLemmas DerivGen
  DerivSpin DerivSpin2.
Import ListNotations.

Section DS3.
Context {K : CRing}.
Local Open Scope cr_scope.
Add Ring K_ring32 : (rth K).
Local Notation triple := (HamGen.triple K).

Lemma u_deriv_two_eq : forall (h : uham K) t x y a b c d, two_sym (uh_two0 h) -> two_sym (uh_two2 h) ->
  (x < uh_n h)%nat -> (y < uh_n h)%nat -> x <> y ->
  (forall i, In i [a; b; c; d] -> i < 2 * uh_n h)%nat -> (a < b)%nat -> (c < d)%nat -> NoDup [a; b; c; d] ->
  u_deriv_two h [a; b] [c; d] t x y = u_sd_two (der_u h t x y) [a; b] [c; d].
Proof.
  intros h t x y a b c d Saa Sbb Hx Hy XY B AB CD N. unfold u_deriv_two, u_sd_two.
  assert (En : uh_n (der_u h t x y) = uh_n h) by reflexivity. rewrite En.
  assert (Ba := B a ltac:(simpl; tauto)). assert (Bb := B b ltac:(simpl; tauto)). assert (Bc := B c ltac:(simpl; tauto)). assert (Bd := B d ltac:(simpl; tauto)).
  set (n := uh_n h) in *. rewrite !(spatial_ok n a), !(spatial_ok n b), !(spatial_ok n c), !(spatial_ok n d), !(alpha_ok n a), !(alpha_ok n b), !(alpha_ok n c), !(alpha_ok n d) by auto. cbn [bind].
  assert (Mab := up_mono n a b AB). assert (Mcd := up_mono n c d CD).
  inversion N as [|? ? Na N1]; subst. inversion N1 as [|? ? Nb N2]; subst. inversion N2 as [|? ? Nc N3]; subst. clear N N1 N2 N3. cbn [In] in Na, Nb, Nc.
  assert (Pab := place_ne n a b Ba Bb ltac:(intuition congruence)). assert (Pac := place_ne n a c Ba Bc ltac:(intuition congruence)).
  assert (Pad := place_ne n a d Ba Bd ltac:(intuition congruence)). assert (Pbc := place_ne n b c Bb Bc ltac:(intuition congruence)).
  assert (Pbd := place_ne n b d Bb Bd ltac:(intuition congruence)). assert (Pcd := place_ne n c d Bc Bd ltac:(intuition congruence)).
  assert (Pa := place_lt n a Ba). assert (Pb := place_lt n b Bb). assert (Pc := place_lt n c Bc). assert (Pd := place_lt n d Bd).
  rewrite steps_val by bnd.
  assert (CH : forall v : K, chk n [place n a; place n b; place n c; place n d] v = Ok v).
  { intros. apply chk_ok. intros i Hi; cbn [In] in Hi; destruct Hi as [<-|[<-|[<-|[<-|[]]]]]; auto. }
  set (two0 := uh_two0 h) in *. set (two1 := uh_two1 h) in *. set (two2 := uh_two2 h) in *. cbn [svals pval].
  destruct (up n a) eqn:Ua, (up n b) eqn:Ub; try (specialize (Mab eq_refl); discriminate Mab); cbn [andb negb];
    rewrite !(spatial_ok n a), !(spatial_ok n b), !(spatial_ok n c), !(spatial_ok n d), !(alpha_ok n a), !(alpha_ok n b), !(alpha_ok n c), !(alpha_ok n d) by auto; cbn [bind]; rewrite ?Ua, ?Ub;
    rewrite !CH; clear CH; clear Na Nb Nc B Ba Bb Bc Bd AB CD Mab;
    set (pa := place n a) in *; set (pb := place n b) in *; set (pc := place n c) in *; set (pd := place n d) in *;
    assert (G1 : forall z, two0 z pa pd pc = two0 pa z pc pd) by (intros; apply Saa); assert (G2 : forall z, two0 z pa pc pd = two0 pa z pd pc) by (intros; apply Saa);
    assert (G3 : forall z, two0 pb pa z pd = two0 pa pb pd z) by (intros; apply Saa); assert (G4 : forall z, two0 pb pa z pc = two0 pa pb pc z) by (intros; apply Saa);
    rewrite !G1, !G2, !G3, !G4; clear G1 G2 G3 G4;
    assert (G1 : forall z, two2 z pa pd pc = two2 pa z pc pd) by (intros; apply Sbb); assert (G2 : forall z, two2 z pa pc pd = two2 pa z pd pc) by (intros; apply Sbb);
    assert (G3 : forall z, two2 pb pa z pd = two2 pa pb pd z) by (intros; apply Sbb); assert (G4 : forall z, two2 pb pa z pc = two2 pa pb pc z) by (intros; apply Sbb);
    rewrite !G1, !G2, !G3, !G4; clear G1 G2 G3 G4;
    destruct (up n c) eqn:Uc, (up n d) eqn:Ud; try (specialize (Mcd eq_refl); discriminate Mcd); clear Mcd;
    cbn [der_u u_cache_two_ints uh_two0 uh_two1 uh_two2]; fold two0 two1 two2;
    destruct t; cbn [eqb andb negb bind]; rewrite ?andb_true_r, ?andb_false_r; f_equal; unfold d2, d2a, d2b, dl, t_add, t_zero;
    rewrite ?ifz, ?if00; try (tri3; ring);
    rewrite ?(Nat.eqb_sym pa), ?(Nat.eqb_sym pb), ?(Nat.eqb_sym pc), ?(Nat.eqb_sym pd);
    destruct (Nat.eqb_spec x pa) as [E1|E1]; try (destruct (Nat.eqb_spec x pb) as [E2|E2]; [try (exfalso; intuition congruence)|]);
      try (destruct (Nat.eqb_spec x pc) as [E3|E3]; [try (exfalso; intuition congruence)|]); try (destruct (Nat.eqb_spec x pd) as [E4|E4]; [try (exfalso; intuition congruence)|]);
    destruct (Nat.eqb_spec y pa) as [F1|F1]; try (destruct (Nat.eqb_spec y pb) as [F2|F2]; [try (exfalso; intuition congruence)|]);
      try (destruct (Nat.eqb_spec y pc) as [F3|F3]; [try (exfalso; intuition congruence)|]); try (destruct (Nat.eqb_spec y pd) as [F4|F4]; [try (exfalso; intuition congruence)|]);
    tri3; try ring.
Qed.
End DS3.
