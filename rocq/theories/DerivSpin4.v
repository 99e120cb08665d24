From Coq Require Import Ring_theory List ZArith NArith Bool Lia Arith Permutation Sorted.
From Verif Require Import Py BitSpec BitLemmas Slater SlaterBits SlaterBits2 Fock FockLemmas SignLemmas Alg Combos PermLemmas
  HamSpec HamGen FockInner HamLemmas HamSC HamMain HamRes SpinSpec HamSpin HamSpinSum HamRot HamRotLemmas HamRotAssign HamDeriv DerivSpec DerivHams DerivLemmas DerivGen
  DerivSpin DerivSpin2 DerivSpin3.
Import ListNotations.

Section DS4.
Context {K : CRing}.
Local Open Scope cr_scope.
Add Ring K_ring33 : (rth K).
Local Notation triple := (HamGen.triple K).

Lemma mapM_eq {A B} : forall (q1 q2 : A -> res B) l, (forall z, In z l -> q1 z = q2 z) -> mapM q1 l = mapM q2 l.
Proof.
  intros q1 q2 l. induction l as [|z l IH]; intros E; auto. cbn [mapM]. rewrite (E z) by now left. rewrite IH; auto. intros; apply E; now right.
Qed.
Lemma mapM_map {A B C} : forall (f : A -> B) (q : B -> res C) l, mapM q (map f l) = mapM (fun a => q (f a)) l.
Proof. intros f q. induction l as [|a l IH]; auto. cbn [map mapM]. now rewrite IH. Qed.
Lemma mapM_const {A B} : forall (b : B) (l : list A), mapM (fun _ => Ok b) l = Ok (map (fun _ => b) l).
Proof. intros b. induction l as [|a l IH]; auto. cbn [mapM map]. rewrite IH. reflexivity. Qed.

Section S.
Context {P : Type}.
Variables (n np : nat) (rc : Z -> res P) (good : P -> Prop).
Variables (zero zero' : P -> list nat -> list nat -> res triple) (one one' : list nat -> list nat -> P -> list nat -> list nat -> res triple)
  (two two' : list nat -> list nat -> P -> res triple).
Hypothesis np0 : (0 < n)%nat.
Hypothesis Z0 : forall p la lb, good p -> NoDup la -> NoDup lb -> bounded n la -> bounded n lb -> zero p la lb = zero' p la lb.
Hypothesis Z1 : forall p a b la lb, good p -> (a < 2 * n)%nat -> (b < 2 * n)%nat -> a <> b -> NoDup la -> NoDup lb -> bounded n la -> bounded n lb ->
  (forall c, c = a \/ c = b -> ~ In (place n c) (if up n c then la else lb)) -> one [a] [b] p la lb = one' [a] [b] p la lb.
Hypothesis Z2 : forall p a b c d, good p -> (forall i, In i [a; b; c; d] -> i < 2 * n)%nat -> (a < b)%nat -> (c < d)%nat -> NoDup [a; b; c; d] ->
  two [a; b] [c; d] p = two' [a; b] [c; d] p.

Lemma spin_deriv_eq : forall m1 m2 ds, fits m1 (2 * n) -> fits m2 (2 * n) -> deriv_ok np ds = true ->
  (forall d, In d ds -> exists p, rc d = Ok p /\ good p) ->
  spin_deriv_decomposed n np rc zero one two m1 m2 ds =
  mapM (fun d => do p <- rc d; spin_decomposed n (zero' p) (fun d1 d2 => one' d1 d2 p) (fun d1 d2 => two' d1 d2 p) m1 m2) ds.
Proof.
  intros m1 m2 ds F1 F2 OK R. unfold spin_deriv_decomposed, spin_decomposed.
  destruct (split_occ (shared_sd m1 m2) n np0) as (x & y & Es & _ & _ & Ex & _ & Ey). rewrite Es. cbn [bind fst snd]. rewrite Ex, Ey.
  change (occ_indices (Some (shared_sd m1 m2))) with (shared_orbs m1 m2) in *.
  set (la := lows n (shared_orbs m1 m2)). set (lb := map (fun i => i - n)%nat (highs n (shared_orbs m1 m2))).
  assert (SB : forall i, In i (shared_orbs m1 m2) -> (i < 2 * n)%nat).
  { intros i Hi. apply shared_orbs_In in Hi as [Hi _]. exact (fits_lt _ _ _ F1 Hi). }
  assert (NA : NoDup la) by (unfold la; rewrite <- Ex; apply increasing_NoDup, occ_indices_increasing).
  assert (NB : NoDup lb) by (unfold lb; rewrite <- Ey; apply increasing_NoDup, occ_indices_increasing).
  assert (BA : bounded n la) by (apply bounded_In; intros i Hi; apply lows_In in Hi; tauto).
  assert (BB : bounded n lb).
  { apply bounded_In. intros i Hi. apply in_map_iff in Hi as (j & <- & Hj). apply highs_In in Hj as [Hj L]. apply SB in Hj. lia. }
  assert (EX : forall c, ~ In c (shared_orbs m1 m2) -> ~ In (place n c) (if up n c then la else lb)).
  { intros c Hc. unfold place. destruct (up n c) eqn:U; unfold up in U.
    - intros I. apply lows_In in I. tauto.
    - intros I. apply in_map_iff in I as (j & E & Hj). apply highs_In in Hj as [Hj L]. apply Nat.ltb_ge in U. assert (j = c) by lia. subst; auto. }
  destruct (sign_code m1 m2) as (s & E1 & E2).
  destruct (diff_cases m1 m2) as [->|[(a & b & D)|[(a & b & c & d & D)|H]]].
  - rewrite diff_same in *. cbn [fst snd length Nat.eqb negb Nat.ltb Nat.leb rev] in *. rewrite E1. cbn [bind]. rewrite OK. cbn [negb].
    apply mapM_eq. intros z Hz. destruct (R z Hz) as (p & -> & G). cbn [bind]. rewrite Z0 by auto. reflexivity.
  - assert (ND := diff_NoDup m1 m2). rewrite D in *. cbn [fst snd length Nat.eqb negb Nat.ltb Nat.leb app] in *. rewrite E1. cbn [bind]. rewrite OK. cbn [negb].
    inversion ND as [|? ? Nab _]; subst. cbn [In] in Nab.
    assert (A : (a < 2 * n)%nat /\ ~ In a (shared_orbs m1 m2)).
    { assert (In a (fst (diff_orbs m1 m2))) as A by (rewrite D; now left). apply diff_orbs_In1 in A as [A A']. split; [exact (fits_lt _ _ _ F1 A)|].
      intros I. apply shared_orbs_In in I as [_ I]. congruence. }
    assert (B : (b < 2 * n)%nat /\ ~ In b (shared_orbs m1 m2)).
    { assert (In b (snd (diff_orbs m1 m2))) as B by (rewrite D; now left). apply diff_orbs_In2 in B as [B B']. split; [exact (fits_lt _ _ _ F2 B)|].
      intros I. apply shared_orbs_In in I as [I _]. congruence. }
    apply mapM_eq. intros z Hz. destruct (R z Hz) as (p & -> & G). cbn [bind]. rewrite Z1; try tauto; [intuition congruence|].
    intros c [->| ->]; apply EX; tauto.
  - assert (ND := diff_NoDup m1 m2).
    assert (IA : increasing (fst (diff_orbs m1 m2))) by (unfold diff_orbs; cbn [fst snd]; apply occ_indices_increasing).
    assert (IB : increasing (snd (diff_orbs m1 m2))) by (unfold diff_orbs; cbn [fst snd]; apply occ_indices_increasing).
    assert (HA : forall x, In x [a; b] -> (x < 2 * n)%nat).
    { intros i Hx. change [a; b] with (fst ([a; b], [c; d])) in Hx. rewrite <- D in Hx. apply diff_orbs_In1 in Hx as [Hx _]. exact (fits_lt _ _ _ F1 Hx). }
    assert (HB : forall x, In x [c; d] -> (x < 2 * n)%nat).
    { intros i Hx. change [c; d] with (snd ([a; b], [c; d])) in Hx. rewrite <- D in Hx. apply diff_orbs_In2 in Hx as [Hx _]. exact (fits_lt _ _ _ F2 Hx). }
    rewrite D in *. cbn [fst snd length Nat.eqb negb Nat.ltb Nat.leb app] in *. rewrite E1. cbn [bind]. rewrite OK. cbn [negb].
    apply SS_cons_inv in IA as [_ IA]. apply SS_cons_inv in IB as [_ IB]. inversion IA; inversion IB; subst.
    apply mapM_eq. intros z Hz. destruct (R z Hz) as (p & -> & G). cbn [bind]. rewrite Z2; auto.
    intros i [<-|[<-|Hi]]; [apply HA; simpl; auto|apply HA; simpl; auto|apply HB; auto].
  - destruct (diff_orbs m1 m2) as [e1 e2]. cbn [fst snd] in H.
    assert (X : mapM (fun d => do _ <- rc d; Ok (t_zero (K := K))) ds = Ok (map (fun _ => t_zero) ds)).
    { rewrite <- mapM_const. apply mapM_eq. intros z Hz. destruct (R z Hz) as (p & -> & _). reflexivity. }
    destruct (Nat.eqb_spec (length e1) (length e2)) as [E|E]; cbn [negb]; [destruct (Nat.ltb_spec 2 (length e1)); [|lia]|]; now rewrite X.
Qed.
End S.

Theorem r_deriv_decomposed_eq : forall (h : rham K) m n ds, herm1 (rh_one h) -> herm2 (rh_two h) -> two_sym (rh_two h) -> (0 < rh_n h)%nat ->
  fits m (2 * rh_n h) -> fits n (2 * rh_n h) -> (forall i, In i ds -> (i < rh_n h * (rh_n h - 1) / 2)%nat) ->
  r_deriv_decomposed h m n (map Z.of_nat ds) =
  mapM (fun i => r_decomposed (der_r h (fst (pair_at (rh_n h) i)) (snd (pair_at (rh_n h) i))) m n) ds.
Proof.
  intros h m n ds H1 H2 S2 P F1 F2 B. unfold r_deriv_decomposed.
  rewrite (spin_deriv_eq (rh_n h) _ _ (fun p => fst p < snd p < rh_n h)%nat _ (fun p => r_sd_zero (der_r h (fst p) (snd p)))
    _ (fun d1 d2 p => r_sd_one (der_r h (fst p) (snd p)) d1 d2) _ (fun d1 d2 p => r_sd_two (der_r h (fst p) (snd p)) d1 d2)); auto.
  - rewrite mapM_map. apply mapM_eq. intros i Hi. destruct (rowcol_at _ i (B i Hi)) as [-> _]. reflexivity.
  - intros p la lb G ? ? ? ?. apply r_deriv_zero_eq; auto; lia.
  - intros p a b la lb G ? ? ? ? ? ? ? ?. apply r_deriv_one_eq; auto; lia.
  - intros p a b c d G ? ? ? ?. apply r_deriv_two_eq; auto; lia.
  - now apply deriv_ok_nat.
  - intros z Hz. apply in_map_iff in Hz as (i & <- & Hi). destruct (rowcol_at _ i (B i Hi)) as [-> L]. eauto.
Qed.

Lemma u_rowcol_at : forall n i, (i < n * (n - 1))%nat ->
  u_rowcol n (Z.of_nat i) = Ok (fst (u_pair_at n i), fst (snd (u_pair_at n i)), snd (snd (u_pair_at n i))) /\
  (fst (snd (u_pair_at n i)) < snd (snd (u_pair_at n i)) < n)%nat.
Proof.
  intros n i L. assert (H := half_tri n). unfold u_rowcol, u_param_ind_to_rowcol_ind, u_pair_at.
  assert (E : (Z.of_nat n * (Z.of_nat n - 1) / 2)%Z = Z.of_nat (n * (n - 1) / 2)).
  { rewrite Nat2Z.inj_div, Nat2Z.inj_mul. destruct n; auto. do 2 f_equal. lia. }
  rewrite E. destruct (Z.ltb_spec (Z.of_nat i) (Z.of_nat (n * (n - 1) / 2))) as [G|G]; destruct (Nat.ltb_spec i (n * (n - 1) / 2)); try lia; cbn [fst snd].
  - destruct (rowcol_at n i) as [X Y]; [lia|]. split; auto. unfold rowcol in X. destruct (param_ind_to_rowcol_ind n (Z.of_nat i)) as [[a b]|]; [|discriminate].
    cbn [bind fst snd] in *. apply Ok_inj in X. rewrite <- X. reflexivity.
  - rewrite <- Nat2Z.inj_sub by lia. destruct (rowcol_at n (i - n * (n - 1) / 2)) as [X Y]; [lia|]. split; auto. unfold rowcol in X.
    destruct (param_ind_to_rowcol_ind n (Z.of_nat (i - n * (n - 1) / 2))) as [[a b]|]; [|discriminate].
    cbn [bind fst snd] in *. apply Ok_inj in X. rewrite <- X. reflexivity.
Qed.
Theorem u_deriv_decomposed_eq : forall (h : uham K) m n ds, herm1 (uh_one0 h) -> herm1 (uh_one1 h) ->
  herm2 (uh_two0 h) -> herm2 (uh_two1 h) -> herm2 (uh_two2 h) -> two_sym (uh_two0 h) -> two_sym (uh_two2 h) -> (0 < uh_n h)%nat ->
  fits m (2 * uh_n h) -> fits n (2 * uh_n h) -> (forall i, In i ds -> (i < uh_n h * (uh_n h - 1))%nat) ->
  u_deriv_decomposed h m n (map Z.of_nat ds) =
  mapM (fun i => let p := u_pair_at (uh_n h) i in u_decomposed (der_u h (fst p) (fst (snd p)) (snd (snd p))) m n) ds.
Proof.
  intros h m n ds H1 H1' H2 H2' H2'' S2 S2' P F1 F2 B. unfold u_deriv_decomposed.
  rewrite (spin_deriv_eq (uh_n h) _ _ (fun p => snd (fst p) < snd p < uh_n h)%nat _ (fun p => u_sd_zero (der_u h (fst (fst p)) (snd (fst p)) (snd p)))
    _ (fun d1 d2 p => u_sd_one (der_u h (fst (fst p)) (snd (fst p)) (snd p)) d1 d2) _ (fun d1 d2 p => u_sd_two (der_u h (fst (fst p)) (snd (fst p)) (snd p)) d1 d2)); auto.
  - rewrite mapM_map. apply mapM_eq. intros i Hi. destruct (u_rowcol_at _ i (B i Hi)) as [-> _]. reflexivity.
  - intros p la lb G ? ? ? ?. apply u_deriv_zero_eq; auto; lia.
  - intros p a b la lb G ? ? ? ? ? ? ? ?. apply u_deriv_one_eq; auto; lia.
  - intros p a b c d G ? ? ? ?. apply u_deriv_two_eq; auto; lia.
  - now apply deriv_ok_nat.
  - intros z Hz. apply in_map_iff in Hz as (i & <- & Hi). destruct (u_rowcol_at _ i (B i Hi)) as [-> L]. eexists. split; [reflexivity|]. exact L.
Qed.
End DS4.
