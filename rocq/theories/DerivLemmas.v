From Coq Require Import Ring_theory List ZArith NArith Bool Lia Arith Permutation Sorted.
From Verif Require Import Py BitSpec BitLemmas Slater SlaterBits SlaterBits2 Fock FockLemmas SignLemmas Alg Combos PermLemmas
  HamSpec HamGen FockInner HamLemmas HamSC HamMain HamRes HamSpin HamRot HamRotLemmas HamDeriv DerivSpec DerivHams.
Import ListNotations.

Section DL.
Context {K : CRing}.
Local Open Scope cr_scope.
Add Ring K_ring28 : (rth K).
Local Notation triple := (HamGen.triple K).

Lemma memb_In : forall x l, memb x l = true <-> In x l.
Proof.
  intros x l. unfold memb. rewrite existsb_exists. split.
  - intros (y & H & E). apply Nat.eqb_eq in E. now subst.
  - intros H. exists x. now rewrite Nat.eqb_refl.
Qed.
Lemma memb_not : forall x l, ~ In x l -> memb x l = false.
Proof. intros x l H. destruct (memb x l) eqn:E; auto. apply memb_In in E. contradiction. Qed.
Lemma without_In : forall x l i, In i (without x l) <-> In i l /\ i <> x.
Proof.
  intros. unfold without. rewrite filter_In. split; intros [A B]; split; auto.
  - destruct (Nat.eqb_spec i x); auto; discriminate.
  - destruct (Nat.eqb_spec i x); auto.
Qed.
Lemma without_id : forall x l, ~ In x l -> without x l = l.
Proof.
  induction l as [|z l IH]; intros H; auto. cbn [without filter].
  destruct (Nat.eqb_spec z x) as [->|N]; [exfalso; apply H; now left|]. cbn [negb]. f_equal. apply IH. firstorder.
Qed.

(** values of the if/elif chains *)
Fixpoint pval (l : list (@branch K)) : triple :=
  match l with [] => t_zero | (c, _, t) :: l => if c then t else pval l end.
Fixpoint svals (ls : list (list (@branch K))) : triple :=
  match ls with [] => t_zero | l :: ls => t_add (pval l) (svals ls) end.
Definition bounded (n : nat) (l : list nat) : Prop := Forall (fun i => (i < n)%nat) l.
Lemma bounded_In : forall n l, bounded n l <-> (forall i, In i l -> (i < n)%nat).
Proof. intros. apply Forall_forall. Qed.
Definition fine (n : nat) (b : @branch K) : Prop := bounded n (snd (fst b)).
Lemma pick_val : forall n l, Forall (fine n) l -> pick n l = Ok (pval l).
Proof.
  intros n l H. induction H as [|[[c idx] t] l Hb H IH]; auto. cbn [pick pval]. destruct c; auto.
  apply chk_ok. now apply bounded_In.
Qed.
Lemma steps_val : forall n ls, Forall (Forall (fine n)) ls -> steps n ls = Ok (svals ls).
Proof.
  intros n ls H. induction H as [|l ls Hl H IH]; auto. cbn [steps svals].
  rewrite pick_val by auto. cbn [bind]. rewrite IH. reflexivity.
Qed.
Lemma bounded_without : forall n x l, bounded n l -> bounded n (without x l).
Proof. intros n x l H. apply bounded_In. intros i Hi. apply without_In in Hi. rewrite bounded_In in H. apply H. tauto. Qed.

Lemma sum_ind : forall x l (f : nat -> K), NoDup l ->
  sumf (fun i => if Nat.eqb i x then f i else 0) l = if memb x l then f x else 0.
Proof.
  intros x l f N. induction N as [|z l Hz N IH]; auto. rewrite sumf_cons, IH. cbn [memb existsb].
  destruct (Nat.eqb_spec z x) as [->|Hx].
  - rewrite Nat.eqb_refl. cbn [orb]. rewrite memb_not by auto. ring.
  - destruct (Nat.eqb_spec x z); [congruence|]. cbn [orb]. fold (memb x l). ring.
Qed.
(** y minus x *)
Definition wt (x y i : nat) : K := (if Nat.eqb i y then 1 else 0) - (if Nat.eqb i x then 1 else 0).
Lemma wt_sum : forall x y l (f : nat -> K), NoDup l ->
  sumf (fun i => wt x y i * f i) l = (if memb y l then f y else 0) - (if memb x l then f x else 0).
Proof.
  intros x y l f N. rewrite <- (sum_ind x l f N), <- (sum_ind y l f N), <- sumf_sub. apply sumf_ext. intros i _.
  unfold wt. destruct (Nat.eqb i y), (Nat.eqb i x); ring.
Qed.
Lemma pairs_both : forall (A : nat -> nat -> K) l, NoDup l ->
  sumf (fun p => A (fst p) (snd p) + A (snd p) (fst p)) (pairs l) = sumf (fun i => sumf (A i) (without i l)) l.
Proof.
  intros A l N. induction N as [|z l Hz N IH]; auto. cbn [pairs]. rewrite sumf_app, sumf_map, IH, sumf_cons, sumf_add.
  cbn [fst snd]. assert (E : without z (z :: l) = l).
  { cbn [without filter]. rewrite Nat.eqb_refl. cbn [negb]. now apply without_id. }
  rewrite E. clear E.
  rewrite (sumf_ext (fun i => sumf (A i) (without i (z :: l))) (fun i => A i z + sumf (A i) (without i l)) l).
  - rewrite !sumf_add. change (fun x : nat => A z x) with (A z). ring.
  - intros i Hi. cbn [without filter]. destruct (Nat.eqb_spec z i) as [->|]; [contradiction|]. cbn [negb]. now rewrite sumf_cons.
Qed.

Lemma dl_sum : forall {A} x y (F : nat -> A -> K) l p, dl x y (fun i => sumf (F i) l) p = sumf (fun s => dl x y (fun i => F i s) p) l.
Proof.
  intros A x y F l p. unfold dl. destruct (Nat.eqb p y), (Nat.eqb p x).
  - transitivity (sumf (F x) l - sumf (F y) l); [ring|]. symmetry. apply (sumf_sub (F x) (F y)).
  - transitivity (sumf (F x) l); [ring|apply sumf_ext; intros; ring].
  - transitivity (- sumf (F y) l); [ring|rewrite <- sumf_opp; apply sumf_ext; intros; ring].
  - transitivity (0 : K); [ring|symmetry; apply sumf_zero; intros; ring].
Qed.

(** the diagonal elements of the derivatives *)
Section Sym.
Variables (h : nat -> nat -> K) (g : nat -> nat -> nat -> nat -> K).
Hypotheses (H1 : herm1 h) (H2 : herm2 g) (S2 : two_sym g).
Lemma d1_diag : forall x y i, d1 x y h i i = wt x y i * ((1 + 1) * h x y).
Proof.
  intros x y i. unfold d1, dl, wt. rewrite (H1 i x), (H1 i y).
  destruct (Nat.eqb_spec i y), (Nat.eqb_spec i x); subst; rewrite ?(H1 y x); ring.
Qed.
Lemma d2a_diag : forall g x y i j, herm2 g -> d2a x y g i j i j = wt x y i * ((1 + 1) * g x j y j).
Proof.
  intros g' x y i j H. unfold d2a, dl, wt.
  destruct (Nat.eqb_spec i y), (Nat.eqb_spec i x); subst; try subst; try ring; rewrite ?(H y j x j); ring.
Qed.
Lemma d2b_diag : forall g x y i j, herm2 g -> d2b x y g i j i j = wt x y j * ((1 + 1) * g i x i y).
Proof.
  intros g' x y i j H. unfold d2b, dl, wt.
  destruct (Nat.eqb_spec j y), (Nat.eqb_spec j x); subst; try subst; try ring; rewrite ?(H i y i x); ring.
Qed.
Lemma d2_diag : forall x y i j, d2 x y g i j i j = wt x y i * ((1 + 1) * g x j y j) + wt x y j * ((1 + 1) * g x i y i).
Proof. intros. unfold d2. rewrite d2a_diag, d2b_diag by auto. now rewrite (S2 i x i y). Qed.
Lemma d2_cross : forall x y i j, d2 x y g i j j i = wt x y i * ((1 + 1) * g x j j y) + wt x y j * ((1 + 1) * g x i i y).
Proof.
  intros x y i j. unfold d2, d2a, d2b, dl, wt.
  assert (A : forall u v w, g u v v w = g w v v u) by (intros u v w; rewrite (H2 u v v w); apply S2).
  rewrite (S2 i x j i), (S2 i y j i), (S2 i j x i), (S2 i j y i).
  destruct (Nat.eqb_spec i y) as [Ey|Ey], (Nat.eqb_spec i x) as [Ex|Ex];
  destruct (Nat.eqb_spec j y) as [Fy|Fy], (Nat.eqb_spec j x) as [Fx|Fx]; try subst i; try subst j; try subst y;
    rewrite ?(A y x x), ?(A y _ x), ?(A x y y); try ring; rewrite ?(A y j x), ?(A y i x); ring.
Qed.
End Sym.
End DL.
Ltac bnd := repeat first [apply Forall_nil | apply Forall_cons]; unfold fine; cbn [fst snd]; unfold bounded;
  repeat first [apply Forall_nil | assumption | apply bounded_without | apply Forall_cons | (apply Forall_app; split)].
Ltac tri3 := match goal with |- (_, _, _) = (_, _, _) => f_equal; [f_equal|] end.
