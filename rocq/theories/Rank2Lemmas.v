(** Values of the permanents of rank-two matrices and of their minors, and derivatives of permanents *)
From Coq Require Import List ZArith NArith Arith Bool Lia Permutation Sorted Ring_theory.
From Verif Require Import Py Slater BitSpec BitLemmas SlaterBits Combos Alg MathTools SdLemmas PermSpec PermLemmas RyserLemmas BorchardtLemmas
  HamLemmas BicliqueLemmas BicliqueMain Graphs WfnCI CILemmas Geminal GemPairs GemOlp P_Permanent EqnSpec EqnLemmas Rank2 Rank2Spec.
Import ListNotations.
Local Open Scope nat_scope.

Section Chain.
Context {K : CField}.
Local Open Scope cr_scope.
Add Ring K_ring100 : (rth K).
Variable Der : (K -> K) -> K -> K -> Prop.
Variable C : calculus Der.
Lemma without_cons_ne : forall x y l, x <> y -> without x (y :: l) = y :: without x l.
Proof. intros x y l H. unfold without. cbn [filter]. destruct (Nat.eqb_spec y x); [congruence|reflexivity]. Qed.
Lemma without_cons_eq : forall x l, ~ In x l -> without x (x :: l) = l.
Proof. intros x l H. unfold without. cbn [filter]. rewrite Nat.eqb_refl. cbn [negb]. now apply without_notin. Qed.
Lemma sumf_without : forall (f : nat -> K) c l, sumf f (without c l) = sumf (fun j => if Nat.eqb j c then 0 else f j) l.
Proof. intros f c l. unfold without. rewrite sumf_filter. apply sumf_ext. intros j _. destruct (Nat.eqb j c); reflexivity. Qed.
(** the derivative of a permanent whose entries depend on a variable *)
Lemma der_permR : forall (F : K -> nat -> nat -> K) (G : nat -> nat -> K) x0,
  forall rows cols, NoDup rows -> NoDup cols -> (forall i j, In i rows -> In j cols -> Der (fun x => F x i j) x0 (G i j)) ->
  Der (fun x => permR (map (F x) rows) cols) x0
      (sumf (fun i => sumf (fun j => G i j * permR (map (F x0) (without i rows)) (without j cols)) cols) rows).
Proof.
  intros F G x0 rows. induction rows as [|r rows IH]; intros cols Nr Nc H.
  - cbn [map permR sumf fold_right]. apply (cal_const Der C).
  - inversion Nr as [|? ? N1 N2]; subst.
    apply (cal_ext Der C (fun x => sumf (fun c => F x r c * permR (map (F x) rows) (without c cols)) cols)).
    { intros x. cbn [map]. now rewrite permR_cons. }
    eapply der_eq.
    { apply (der_sum Der C nat (fun x c => F x r c * permR (map (F x) rows) (without c cols))
        (fun c => G r c * permR (map (F x0) rows) (without c cols) +
           F x0 r c * sumf (fun i => sumf (fun j => G i j * permR (map (F x0) (without i rows)) (without j (without c cols))) (without c cols)) rows)).
      intros c Hc. apply (cal_mul Der C (fun x => F x r c) (fun x => permR (map (F x) rows) (without c cols))); [apply H; [now left|auto]|].
      apply IH; auto; [now apply without_NoDup|]. intros i j Hi Hj. apply without_In in Hj as [Hj _]. apply H; [now right|auto]. }
    rewrite sumf_cons, sumf_add. f_equal.
    { apply sumf_ext. intros c Hc. now rewrite without_cons_eq. }
    transitivity (sumf (fun i => sumf (fun j => sumf (fun c => if Nat.eqb j c then 0 else F x0 r c * (G i j * permR (map (F x0) (without i rows)) (without j (without c cols)))) cols) cols) rows).
    + rewrite (sumf_ext _ (fun c => sumf (fun i => sumf (fun j => if Nat.eqb j c then 0 else F x0 r c * (G i j * permR (map (F x0) (without i rows)) (without j (without c cols)))) cols) rows)).
      * rewrite sumf_swap. apply sumf_ext. intros i Hi. apply sumf_swap.
      * intros c Hc. rewrite <- sumf_mul_l. apply sumf_ext. intros i Hi.
        rewrite sumf_without, <- sumf_mul_l. apply sumf_ext. intros j Hj. destruct (Nat.eqb j c); [ring|reflexivity].
    + apply sumf_ext. intros i Hi. apply sumf_ext. intros j Hj.
      rewrite without_cons_ne by (intros ->; contradiction). cbn [map]. rewrite permR_cons by now apply without_NoDup.
      rewrite <- sumf_mul_l, sumf_without. apply sumf_ext. intros c Hc. destruct (Nat.eqb_spec c j) as [->|D].
      * now rewrite Nat.eqb_refl.
      * rewrite (proj2 (Nat.eqb_neq j c)) by congruence. rewrite without_comm. ring.
Qed.
Lemma der_pm : forall (F : K -> nat -> nat -> K) (G : nat -> nat -> K) x0,
  forall rows cols, NoDup rows -> NoDup cols -> (forall i j, In i rows -> In j cols -> Der (fun x => F x i j) x0 (G i j)) ->
  Der (fun x => pm (F x) rows cols) x0
      (sumf (fun i => sumf (fun j => G i j * pm (F x0) (without i rows) (without j cols)) cols) rows).
Proof.
  intros F G x0 rows cols Nr Nc H. unfold pm at 1. destruct (Nat.ltb_spec (length cols) (length rows)) as [Lt|Ge].
  - eapply der_eq; [apply (der_permR (fun x c r => F x r c) (fun c r => G r c) x0 cols rows Nc Nr (fun i j Hi Hj => H j i Hj Hi))|].
    rewrite sumf_swap. apply sumf_ext. intros i Hi. apply sumf_ext. intros j Hj. f_equal. unfold pm.
    pose proof (without_length i rows Hi Nr). pose proof (without_length j cols Hj Nc).
    destruct (Nat.ltb_spec (length (without j cols)) (length (without i rows))); [reflexivity|lia].
  - eapply der_eq; [apply (der_permR F G x0 rows cols Nr Nc H)|].
    apply sumf_ext. intros i Hi. apply sumf_ext. intros j Hj. f_equal. unfold pm.
    pose proof (without_length i rows Hi Nr). pose proof (without_length j cols Hj Nc).
    destruct (Nat.ltb_spec (length (without j cols)) (length (without i rows))); [lia|reflexivity].
Qed.
(** the derivative of an entry *)
Lemma finv_sq : forall d : K, d <> 0 -> finv (d * d) = finv d * finv d.
Proof.
  intros d H. assert (N : d * d <> 0).
  { intros E. apply H. transitivity (finv d * d * d); [rewrite f_inv by auto; ring|]. transitivity (finv d * (d * d)); [ring|]. rewrite E. ring. }
  transitivity (finv (d * d) * ((finv d * d) * (finv d * d))); [rewrite f_inv by auto; ring|].
  transitivity ((finv (d * d) * (d * d)) * (finv d * finv d)); [ring|]. rewrite f_inv by auto. ring.
Qed.
Lemma der_upd : forall (p : list K) k q, (k < length p)%nat -> Der (fun x => nth q (upd p k x) 0) (nth k p 0) (if Nat.eqb q k then 1 else 0).
Proof.
  intros p k q Hk. destruct (Nat.eqb_spec q k) as [->|D].
  - apply (cal_ext Der C (fun x => x)); [intros x; rewrite nth_upd by auto; now rewrite Nat.eqb_refl|]. apply (cal_id Der C).
  - apply (cal_ext Der C (fun _ => nth q p 0)); [intros x; rewrite nth_upd by auto; rewrite (proj2 (Nat.eqb_neq k q)) by congruence; auto|]. apply (cal_const Der C).
Qed.
Lemma upd_same : forall (p : list K) k, (k < length p)%nat -> forall q, nth q (upd p k (nth k p 0)) 0 = nth q p 0.
Proof. intros p k Hk q. rewrite nth_upd by auto. destruct (Nat.eqb_spec k q) as [->|]; auto. Qed.
Lemma der_entry : forall ngem norb p k i j, (k < length p)%nat -> length p = (ngem + norb + norb)%nat -> (i < ngem)%nat -> (j < norb)%nat -> lam p i <> eps ngem p j ->
  Der (fun x => rank2 ngem norb (upd p k x) i j) (nth k p 0) (rank2_deriv ngem norb p k i j).
Proof.
  intros ngem norb p k i j Hk L Hi Hj Ne. unfold rank2, zet, lam, eps.
  assert (Nz : lam p i - eps ngem p j <> 0).
  { intros E. apply Ne. transitivity (lam p i - eps ngem p j + eps ngem p j); [ring|rewrite E; ring]. }
  eapply der_eq.
  { apply (der_div Der C (fun x => nth (ngem + norb + j) (upd p k x) 0) (fun x => nth i (upd p k x) 0 - nth (ngem + j) (upd p k x) 0) (nth k p 0)
      (if Nat.eqb (ngem + norb + j) k then 1 else 0) ((if Nat.eqb i k then 1 else 0) - (if Nat.eqb (ngem + j) k then 1 else 0))).
    - cbn beta. rewrite !upd_same by auto. exact Nz.
    - now apply der_upd.
    - apply (der_sub Der C); now apply der_upd. }
  cbn beta. rewrite !upd_same by auto. unfold rank2_deriv. fold (lam p i). fold (eps ngem p j). fold (zet ngem norb p j).
  rewrite finv_sq by exact Nz. set (d := finv (lam p i - eps ngem p j)).
  destruct (Nat.ltb_spec k ngem) as [H1|H1].
  { rewrite (proj2 (Nat.eqb_neq (ngem + norb + j) k)), (proj2 (Nat.eqb_neq (ngem + j) k)) by lia. destruct (Nat.eqb i k); ring. }
  rewrite (proj2 (Nat.eqb_neq i k)) by lia. destruct (Nat.ltb_spec k (ngem + norb)) as [H2|H2].
  { rewrite (proj2 (Nat.eqb_neq (ngem + norb + j) k)) by lia. destruct (Nat.eqb_spec (ngem + j) k), (Nat.eqb_spec j (k - ngem)); try lia; ring. }
  rewrite (proj2 (Nat.eqb_neq (ngem + j) k)) by lia. destruct (Nat.eqb_spec (ngem + norb + j) k), (Nat.eqb_spec j (k - ngem - norb)); try lia; ring.
Qed.
End Chain.
