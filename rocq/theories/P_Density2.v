(** C38, continued: what a positive threshold leaves out; examples. *)
From Coq Require Import Ring_theory List ZArith NArith Arith Lia Bool Permutation Sorted.
From Verif Require Import Py BitSpec BitLemmas Slater SlaterBits SlaterBits2 Fock FockLemmas Alg Combos
  PermLemmas HamSpec HamGen HamRes FockInner HamLemmas HamSC HamMain SpinSpec HamSpin Density DensSpec DensLemmas DensCalls DensState
  DensMain DensEx P_Density.
Import ListNotations.
Local Open Scope nat_scope.

Section Order.
Context {K : CRing} (lt : K -> K -> bool) (ab : K -> K).
Local Open Scope cr_scope.
Add Ring K_ring43 : (rth K).
Definition le (x y : K) : Prop := lt y x = false.
(** what is used of the order and of the absolute value *)
Record ord_ok : Prop := {
  le_refl : forall x, le x x;
  le_tot : forall x y, lt x y = true -> le x y;
  le_tr : forall x y z, le x y -> le y z -> le x z;
  le_mul : forall x y x' y' n n', le (ab x') (ab x) -> le (ab y') (ab y) -> (n' <= n)%nat ->
    le (ab (x' * y') * (nat_r n' * nat_r n')) (ab (x * y) * (nat_r n * nat_r n));
  ab_sq : forall x y : K, (x * y) * (x * y) = ab (x * x) * (y * y)
}.
Hypothesis O : ord_ok.

Definition by_size (l : list (K * N)) : Prop := StronglySorted (fun a b => le (ab (fst b)) (ab (fst a))) l.

Lemma le_lt : forall x y t, le x y -> lt y t = true -> lt x t = true.
Proof.
  intros x y t H1 H2. destruct (lt x t) eqn:E; auto. assert (X : le t y) by (eapply le_tr; eauto).
  unfold le in X. congruence.
Qed.
Lemma ins_sorted : forall x l, by_size l -> by_size (ins lt ab x l).
Proof.
  intros x l. induction l as [|y l IH]; intros S; [repeat constructor|]. inversion S as [|? ? S' F]; subst. cbn [ins].
  destruct (lt (ab (fst x)) (ab (fst y))) eqn:E.
  - constructor; [now apply IH|]. rewrite Forall_forall. intros z Hz.
    apply (Permutation_in _ (ins_perm lt ab x l)) in Hz. destruct Hz as [<-|Hz]; [now apply (le_tot O)|].
    rewrite Forall_forall in F. now apply F.
  - constructor; auto. constructor; auto. rewrite Forall_forall in *. intros z Hz. eapply (le_tr O); [now apply F|exact E].
Qed.
Lemma sort_sorted : forall l, by_size (sort_civec lt ab l).
Proof. induction l; [constructor|]. now apply ins_sorted. Qed.

Variable thr : K.
(** the pair of [a] with [b] is kept, [k] determinants being left from [a] on *)
Definition kept (k : nat) (a b : K * N) : bool := negb (lt (ab (fst a * fst b) * (nat_r k * nat_r k)) thr).
Fixpoint tri_kept (F : K * N -> K * N -> K) (l : list (K * N)) : K :=
  match l with [] => 0 | a :: l' => sumf (fun b => if kept (length l) a b then F a b else 0) l + tri_kept F l' end.

Lemma inner_kept : forall o n rem x1 sd1 l (st : dstate K), o <> OtherOrb -> fits sd1 (2 * n) ->
  (forall b, In b l -> fits (snd b) (2 * n)) -> by_size l -> shaped o st ->
  exists st', inner_loop lt ab o (dm_dim o n) thr rem x1 sd1 l st = Ok st' /\ shaped o st' /\
    adds o n st st' (fun w => sumf (fun b => if kept rem (x1, sd1) b then F1 w (x1, sd1) b else 0) l)
                    (fun w => sumf (fun b => if kept rem (x1, sd1) b then F2 w (x1, sd1) b else 0) l).
Proof.
  intros o n rem x1 sd1 l. induction l as [|[x2 sd2] l IH]; intros st No F1' Fl B S.
  - exists st. split; [reflexivity|]. split; auto. split; intros; cbn; ring.
  - cbn [inner_loop]. inversion B as [|? ? B' F]; subst. rewrite Forall_forall in F.
    destruct (lt (ab (x1 * x2) * (nat_r rem * nat_r rem)) thr) eqn:E.
    + exists st. split; [reflexivity|]. split; auto.
      assert (Z : forall b, In b ((x2, sd2) :: l) -> kept rem (x1, sd1) b = false).
      { intros b Hb; destruct Hb as [<-|Hb]; unfold kept; cbn [fst]; [now rewrite E|].
        rewrite (le_lt _ (ab (x1 * x2) * (nat_r rem * nat_r rem)) thr); auto. apply (le_mul O); auto. 1: apply (le_refl O).
      }
      split; intros; rewrite (sumf_zero (fun b => if kept rem (x1, sd1) b then _ else 0)); try ring; intros b Hb; now rewrite Z.
    + destruct (do_calls_ok o n (pair_calls x1 x2 sd1 sd2) st) as (st1 & E1 & S1 & A1 & A2); auto.
      { apply pair_calls_range; auto. apply (Fl (x2, sd2)). now left. }
      rewrite E1. cbn [bind]. destruct (IH st1) as (st2 & E2 & S2 & B1 & B2); auto.
      { intros; apply Fl; now right. }
      exists st2. split; [auto|]. split; [auto|].
      assert (Kp : kept rem (x1, sd1) (x2, sd2) = true) by (unfold kept; cbn [fst]; now rewrite E).
      split; intros.
      * rewrite B1, A1 by auto. rewrite sumf_cons, Kp. unfold F1 at 2. cbn [fst snd]. ring.
      * rewrite B2, A2 by auto. rewrite sumf_cons, Kp. unfold F2 at 2. cbn [fst snd]. ring.
Qed.

Lemma tri_kept_zero : forall F l k (x : K), by_size l -> (length l <= k)%nat -> (forall a, In a l -> le (ab (fst a)) (ab x)) ->
  lt ((x * nat_r k) * (x * nat_r k)) thr = true -> tri_kept F l = 0.
Proof.
  intros F l k x. induction l as [|a l IH]; intros B L H T; [reflexivity|]. cbn [tri_kept]. inversion B as [|? ? B' Fa]; subst.
  cbn [length] in L. rewrite IH; auto; [|lia|intros; apply H; now right].
  rewrite (sumf_zero (fun b => if kept _ a b then _ else 0)); [ring|]. intros b Hb.
  unfold kept. rewrite (le_lt _ ((x * nat_r k) * (x * nat_r k)) thr); auto. rewrite (ab_sq O). apply (le_mul O); auto.
  apply H. now left.
Qed.

Lemma outer_kept : forall o n l (st : dstate K), o <> OtherOrb ->
  (forall b, In b l -> fits (snd b) (2 * n)) -> by_size l -> shaped o st ->
  exists st', outer_loop lt ab o (dm_dim o n) thr l st = Ok st' /\ shaped o st' /\
    adds o n st st' (fun w => tri_kept (F1 w) l) (fun w => tri_kept (F2 w) l).
Proof.
  intros o n l. induction l as [|[x1 sd1] l IH]; intros st No Fl B S.
  - exists st. split; [reflexivity|]. split; auto. split; intros; cbn; ring.
  - cbn [outer_loop]. inversion B as [|? ? B' F]; subst. rewrite Forall_forall in F.
    destruct (lt ((x1 * _) * _) thr) eqn:E.
    + exists st. split; [reflexivity|]. split; auto.
      assert (Z : forall F, tri_kept F ((x1, sd1) :: l) = 0).
      { intros G. apply (tri_kept_zero G _ (length ((x1, sd1) :: l)) x1); auto. intros a [<-|Ha]; [apply (le_refl O)|].
        now apply (F a). }
      split; intros; rewrite Z; ring.
    + destruct (inner_kept o n (length ((x1, sd1) :: l)) x1 sd1 ((x1, sd1) :: l) st) as (st1 & E1 & S1 & A1 & A2); auto.
      { apply (Fl (x1, sd1)). now left. }
      rewrite E1. cbn [bind]. destruct (IH st1) as (st2 & E2 & S2 & B1 & B2); auto.
      { intros; apply Fl; now right. }
      exists st2. split; [auto|]. split; [auto|]. split; intros; cbn [tri_kept].
      * rewrite B1, A1 by auto. ring.
      * rewrite B2, A2 by auto. ring.
Qed.

(** sum over the unordered pairs that are kept, largest coefficients first *)
Definition kept_sum (k : nat) (os : list op) (psi : list (K * N)) : K :=
  tri_kept (fun a b => if N.eqb (snd a) (snd b) then fst a * fst b * sgnr (melem (snd a) os (snd b))
                       else fst a * fst b * sgnr (melem (snd a) os (snd b)) + fst b * fst a * sgnr (melem (snd b) os (snd a))) psi.

Lemma tri_kept_ext : forall F G l, (forall a b, In a l -> In b l -> F a b = G a b) -> tri_kept F l = tri_kept G l.
Proof.
  intros F G l. induction l as [|a l IH]; intros H; [reflexivity|]. cbn [tri_kept]. f_equal.
  - apply sumf_ext. intros b Hb. rewrite H; auto. now left.
  - apply IH. intros; apply H; now right.
Qed.

(** with any threshold: exactly the pairs with |c_a c_b| n_a^2 >= threshold contribute, where n_a is
    the number of determinants from [a] on in the order of decreasing |c| *)
Theorem C38_truncated : forall cs sds n, ci_ok n (combine cs sds) ->
  exists psi g1 g2, Permutation psi (combine cs sds) /\ by_size psi /\
    density_matrix lt ab cs sds n false thr Generalized = Ok ([g1], [g2]) /\
    (forall p q, (p < 2 * n)%nat -> (q < 2 * n)%nat -> g1 p q = kept_sum (2 * n) [Ann q; Cre p] psi) /\
    (forall p q r s, (p < 2 * n)%nat -> (q < 2 * n)%nat -> (r < 2 * n)%nat -> (s < 2 * n)%nat ->
       g2 p q r s = kept_sum (2 * n) [Ann r; Ann s; Cre q; Cre p] psi).
Proof.
  intros cs sds n (Ne & Nd & Fl). pose proof (sort_perm lt ab (combine cs sds)) as P.
  pose proof (sort_sorted (combine cs sds)) as B. unfold density_matrix.
  set (l := sort_civec lt ab (combine cs sds)) in *.
  assert (Fl' : forall b, In b l -> fits (snd b) (2 * n)).
  { intros b Hb. apply Fl, in_map. now rewrite <- P. }
  set (st0 := (repeat (fun _ _ : nat => 0 : K) (n_one Generalized), repeat (fun _ _ _ _ : nat => 0 : K) (n_two Generalized))).
  assert (S0 : shaped Generalized st0) by (split; reflexivity).
  destruct (outer_kept Generalized n l st0) as (st & E & [S1 S2] & A1 & A2); auto; try discriminate.
  exists l, (get1 st 0), (get2 st 0). split; auto. split; auto. split; [|split].
  - destruct l as [|x l]; [apply Permutation_nil in P; congruence|].
    rewrite E. cbn [bind n_one n_two] in *.
    rewrite (len1 (fst st) (fun _ _ => 0) S1), (len1 (snd st) (fun _ _ _ _ => 0) S2). reflexivity.
  - intros p q Hp Hq. rewrite A1 by (cbn; lia). unfold get1 at 1. cbn [st0 fst n_one repeat nth].
    match goal with |- 0 + ?a = _ => transitivity a; [ring|] end.
    unfold kept_sum. apply tri_kept_ext. intros a b Ha Hb. unfold F1. rewrite (pair_ev1 (2 * n)) by auto.
    change (w1 Generalized n 0 p q) with (e1 (K := K) p q). rewrite !one_body_e1 by auto.
    destruct (N.eqb_spec (snd a) (snd b)) as [->|]; auto.
  - intros p q r s Hp Hq Hr Hs. rewrite A2 by (cbn; lia). unfold get2 at 1. cbn [st0 snd n_two repeat nth].
    match goal with |- 0 + ?a = _ => transitivity a; [ring|] end.
    unfold kept_sum. apply tri_kept_ext. intros a b Ha Hb. unfold F2. rewrite (pair_ev2 (2 * n)) by auto.
    change (w2 Generalized n 0 p q r s) with (e2 (K := K) p q r s). rewrite !two_body_e2 by auto.
    destruct (N.eqb_spec (snd a) (snd b)) as [->|]; auto.
Qed.
End Order.

Lemma nat_r_Z : forall n, nat_r (K := Z_ring) n = Z.of_nat n.
Proof. induction n as [|n IH]; [reflexivity|]. cbn [nat_r]. rewrite IH. change (1 + Z.of_nat n = Z.of_nat (S n))%Z. lia. Qed.
Example Z_order : ord_ok (K := Z_ring) Z.ltb Z.abs.
Proof.
  split; unfold le; intros.
  - apply Z.ltb_irrefl.
  - apply Z.ltb_ge. apply Z.ltb_lt in H. change (x < y)%Z in H. change (x <= y)%Z. lia.
  - apply Z.ltb_ge in H, H0. apply Z.ltb_ge. change (x <= y)%Z in H. change (y <= z)%Z in H0. change (x <= z)%Z. lia.
  - apply Z.ltb_ge in H, H0. apply Z.ltb_ge. rewrite !nat_r_Z.
    change (Z.abs x' <= Z.abs x)%Z in H. change (Z.abs y' <= Z.abs y)%Z in H0.
    change (Z.abs (x' * y') * (Z.of_nat n' * Z.of_nat n') <= Z.abs (x * y) * (Z.of_nat n * Z.of_nat n))%Z.
    rewrite !Z.abs_mul. apply Z.mul_le_mono_nonneg; [nia|nia|nia|nia].
  - change ((x * y) * (x * y) = Z.abs (x * x) * (y * y))%Z. rewrite Z.abs_eq by nia. ring.
Qed.

Print Assumptions C38_truncated.

Example C38_ex_gen2 : zshow2 0 ixs (zdens [2; -3; 5]%Z [3; 6; 12]%N 2 false 0 Generalized) = Ok [4; -4; -4; 9; 10; 10; -6; -6; 15; -15]%Z.
Proof. vm_compute. reflexivity. Qed.
Example C38_ex_chem :
  zshow2 0 [((0,0),(1,1)); ((0,0),(1,2)); ((0,2),(3,1)); ((1,3),(2,2)); ((0,2),(1,3)); ((2,0),(3,1))]
    (zdens [2; -3; 5]%Z [3; 6; 12]%N 2 true 0 Generalized) = Ok [4; 0; 10; 15; 0; 0]%Z.
Proof. vm_compute. reflexivity. Qed.
Example C38_ex_res :
  zshow1 3 (zdens [2; -3; 5; 7]%Z [9; 10; 18; 33]%N 3 false 0 Restricted) = Ok [[66; -21; 14; -21; 59; 0; 14; 0; 49]%Z] /\
  zshow2 0 [((0,0),(0,0)); ((1,1),(0,0)); ((0,2),(0,0)); ((0,1),(1,0)); ((0,1),(0,1)); ((0,2),(1,0)); ((2,0),(0,1))]
    (zdens [2; -3; 5; 7; 11]%Z [9; 10; 18; 33; 3]%N 3 false 0 Restricted) = Ok [8; 20; 14; -121; 130; -21; -21]%Z.
Proof. vm_compute. split; reflexivity. Qed.
Example C38_ex_unres :
  zshow1 3 (zdens [2; -3; 5; 7]%Z [9; 10; 18; 33]%N 3 false 0 Unrestricted)
  = Ok [[53; -6; 0; -6; 34; 0; 0; 0; 0]; [13; -15; 14; -15; 25; 0; 14; 0; 49]]%Z /\
  map (fun w => zshow2 w [((0,0),(0,0)); ((1,1),(0,0)); ((0,2),(0,0)); ((0,1),(1,0)); ((0,1),(0,1)); ((0,2),(1,0)); ((1,2),(2,1))]
    (zdens [2; -3; 5; 7; 11; 13]%Z [9; 10; 18; 33; 3; 48]%N 3 false 0 Unrestricted)) [0; 1; 2]
  = [Ok [0; 0; 0; -121; 121; 0; 0]; Ok [4; 10; 14; 0; 0; -21; 0]; Ok [0; 0; 0; 0; 0; 0; -169]]%Z.
Proof. vm_compute. split; reflexivity. Qed.
Example C38_ex_threshold :
  map (fun t => zshow1 4 (zdens [2; -3; 5]%Z [3; 6; 12]%N 2 false t Generalized)) [0; 4; 5; 24; 25; 135; 136; 225; 226]%Z
  = [Ok [[4; 0; 6; 0; 0; 13; 0; 15; 6; 0; 34; 0; 0; 15; 0; 25]];
     Ok [[4; 0; 6; 0; 0; 13; 0; 15; 6; 0; 34; 0; 0; 15; 0; 25]];
     Ok [[0; 0; 6; 0; 0; 9; 0; 15; 6; 0; 34; 0; 0; 15; 0; 25]];
     Ok [[0; 0; 6; 0; 0; 9; 0; 15; 6; 0; 34; 0; 0; 15; 0; 25]];
     Ok [[0; 0; 0; 0; 0; 9; 0; 15; 0; 0; 34; 0; 0; 15; 0; 25]];
     Ok [[0; 0; 0; 0; 0; 0; 0; 15; 0; 0; 25; 0; 0; 15; 0; 25]];
     Ok [[0; 0; 0; 0; 0; 0; 0; 0; 0; 0; 25; 0; 0; 0; 0; 25]];
     Ok [[0; 0; 0; 0; 0; 0; 0; 0; 0; 0; 25; 0; 0; 0; 0; 25]];
     Ok [[0; 0; 0; 0; 0; 0; 0; 0; 0; 0; 0; 0; 0; 0; 0; 0]]]%Z.
Proof. vm_compute. reflexivity. Qed.
Example C38_ex_errors :
  zshow1 1 (zdens [2; -3]%Z [3; 6]%N 1 false 0 Generalized) = Err IndexError /\
  zshow1 1 (zdens [2; -3]%Z [3; 4]%N 1 false 0 Restricted) = Err IndexError /\
  zshow1 1 (zdens [2; -3]%Z [1; 8]%N 1 false 0 Unrestricted) = Err ValueError /\
  zshow1 1 (zdens [] [1; 8]%N 1 false 0 Unrestricted) = Err ValueError /\
  zshow1 1 (zdens [2]%Z [1]%N 1 false 0 OtherOrb) = Err ValueError.
Proof. vm_compute. repeat split; reflexivity. Qed.
