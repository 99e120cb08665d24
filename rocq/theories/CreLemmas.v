(** Lemmas on strings of creation operators and on products of geminals *)
From Coq Require Import List ZArith NArith Arith Bool Lia Permutation Sorted.
From Verif Require Import Py Slater BitSpec BitLemmas SlaterBits Combos Fock FockLemmas FockInner Alg SignSpec SignLemmas
  MatchSpec MatchLemmas GeneralLemmas MathTools SdLemmas PermLemmas RyserLemmas BorchardtLemmas HamLemmas BicliqueLemmas WfnCI Geminal CreSpec.
Import ListNotations.

Section Cre.
Context {K : CRing}.
Local Open Scope cr_scope.
Add Ring K_ring46 : (rth K).

Definition cres (l : list Z) (psi : state K) : state K := fold_right cre psi l.
Lemma cres_cons : forall i l psi, cres (i :: l) psi = cre i (cres l psi).
Proof. reflexivity. Qed.
Definition sgb (b : bool) (x : K) : K := if b then - x else x.

Lemma cre_ext : forall i psi phi m, (forall m, psi m = phi m) -> cre (K := K) i psi m = cre i phi m.
Proof. intros i psi phi m H. unfold cre. destruct (_ && _)%bool; auto. now rewrite H. Qed.
Lemma cres_ext : forall l psi phi m, (forall m, psi m = phi m) -> cres l psi m = cres l phi m.
Proof. induction l as [|i l IH]; intros psi phi m H; cbn [cres fold_right]; auto. apply cre_ext. intros m'. now apply IH. Qed.
Lemma cre_scale : forall i psi (a : K) m, cre i (fun m => a * psi m) m = a * cre i psi m.
Proof. intros i psi a m. unfold cre. destruct (_ && _)%bool; [destruct (par _ _)|]; ring. Qed.
Lemma cre_sum : forall {A} i (f : A -> state K) l m, cre i (fun m => sumf (fun x => f x m) l) m = sumf (fun x => cre i (f x) m) l.
Proof.
  intros A i f l m. unfold cre. destruct (_ && _)%bool; [destruct (par _ _)|].
  - now rewrite sumf_opp.
  - reflexivity.
  - symmetry. apply sumf_zero. auto.
Qed.
Lemma cre_opp : forall i psi m, cre (K := K) i (fun m => - psi m) m = - cre i psi m.
Proof. intros i psi m. unfold cre. destruct (_ && _)%bool; [destruct (par _ _)|]; ring. Qed.
Lemma cre_swap : forall i j psi m, i <> j -> cre (K := K) i (cre j psi) m = - cre j (cre i psi) m.
Proof.
  intros i j psi m H. unfold cre.
  assert (Z0 : forall b : bool, (if b then - (0 : K) else 0) = 0) by (intros [|]; ring).
  destruct (Z.leb_spec 0 i), (Z.leb_spec 0 j); cbn [andb]; rewrite ?Z0.
  - assert (D : Z.to_nat i <> Z.to_nat j) by lia.
    rewrite !bit_flip_neq by auto. destruct (bit m (Z.to_nat i)), (bit m (Z.to_nat j)); rewrite ?Z0; try ring.
    rewrite (flip_comm m (Z.to_nat j)), !par_flip.
    destruct (par m (Z.to_nat i)), (par m (Z.to_nat j)), (Nat.ltb_spec (Z.to_nat i) (Z.to_nat j)), (Nat.ltb_spec (Z.to_nat j) (Z.to_nat i)); try lia; cbn [xorb]; ring.
  - destruct (bit m (Z.to_nat i)); ring.
  - destruct (bit m (Z.to_nat j)); ring.
  - ring.
Qed.
Lemma cres_opp : forall l psi m, cres l (fun m => - psi m) m = - cres l psi m.
Proof.
  induction l as [|i l IH]; intros psi m; cbn [cres fold_right]; auto. rewrite <- cre_opp. apply cre_ext. intros m'. apply IH.
Qed.
Lemma cres_app : forall l1 l2 psi, cres (l1 ++ l2) psi = cres l1 (cres l2 psi).
Proof. intros. unfold cres. apply fold_right_app. Qed.
Lemma cres_swaps : forall k l l' psi m, NoDup l -> swaps k l l' -> cres l psi m = sgb (Nat.odd k) (cres l' psi m).
Proof.
  intros k l l' psi m N S. revert N. induction S as [l|k l1 a b l2 l' S IH]; intros N; [reflexivity|].
  assert (N' : NoDup (l1 ++ b :: a :: l2)).
  { eapply Permutation_NoDup; [|exact N]. apply Permutation_app_head. constructor. }
  specialize (IH N'). rewrite cres_app. cbn [cres fold_right].
  rewrite (cres_ext l1 _ (fun m => - cre b (cre a (cres l2 psi)) m)).
  2:{ intros m'. apply cre_swap. apply NoDup_remove_2 in N. intros ->. apply N. apply in_or_app. right. now left. }
  rewrite cres_opp. change (cre b (cre a (cres l2 psi))) with (cres (b :: a :: l2) psi). rewrite <- cres_app, IH.
  rewrite Nat.odd_succ, <- Nat.negb_odd. destruct (Nat.odd k); cbn [negb sgb]; ring.
Qed.
(** nonzero only on permutations of the occupied orbitals *)
Lemma occZ_In : forall m i, In i (zocc m) <-> (0 <= i)%Z /\ bit m (Z.to_nat i) = true.
Proof.
  intros m i. unfold zocc. rewrite in_map_iff. split.
  - intros (j & <- & H). apply occ_indices_In in H. rewrite Nat2Z.id. split; [lia|auto].
  - intros [H1 H2]. exists (Z.to_nat i). rewrite occ_indices_In. split; [lia|auto].
Qed.
Lemma occZ_sorted : forall m, StronglySorted Z.lt (zocc m).
Proof.
  intros m. unfold zocc. pose proof (occ_indices_increasing (Some m)) as H.
  induction H as [|x l H IH F]; cbn [map]; constructor; auto. apply Forall_map. eapply Forall_impl; [|exact F]. cbn. intros. lia.
Qed.
Lemma occZ_NoDup : forall m, NoDup (zocc m).
Proof. intros m. unfold zocc. apply FinFun.Injective_map_NoDup; [intros x y; lia|]. apply increasing_NoDup, occ_indices_increasing. Qed.
Lemma occZ_flip : forall m i, (0 <= i)%Z -> bit m (Z.to_nat i) = true -> Permutation (zocc m) (i :: zocc (flip m (Z.to_nat i))).
Proof.
  intros m i H B. apply NoDup_Permutation.
  - apply occZ_NoDup.
  - constructor; [|apply occZ_NoDup]. rewrite occZ_In, bit_flip_eq, B. intros [_ Q]. discriminate.
  - intros x. cbn [In]. rewrite !occZ_In, bit_flip. destruct (Z.eq_dec i x) as [->|D].
    + tauto.
    + split.
      * intros [P Q]. right. split; auto. rewrite (proj2 (Nat.eqb_neq _ _)) by lia. now rewrite xorb_false_r.
      * intros [->|[P Q]]; [contradiction|]. split; auto. destruct (Nat.eqb_spec (Z.to_nat i) (Z.to_nat x)); [lia|]. now rewrite xorb_false_r in Q.
Qed.
Lemma zocc_0 : zocc 0 = [].
Proof. reflexivity. Qed.
Lemma zocc_nil : forall m, zocc m = [] -> m = 0%N.
Proof.
  intros m H. apply bit_ext. intros i. destruct (bit m i) eqn:B.
  - assert (I : In (Z.of_nat i) (zocc m)) by (apply occZ_In; rewrite Nat2Z.id; split; [lia|auto]). rewrite H in I. destruct I.
  - unfold bit. now rewrite N.bits_0.
Qed.
Lemma par_vacuum : forall i, par 0 i = false.
Proof. induction i as [|i IH]; [reflexivity|]. now rewrite par_S, IH, bit_0. Qed.
Lemma cres_zero : forall l m, ~ Permutation l (zocc m) -> cres l (vacuum (K := K)) m = 0.
Proof.
  induction l as [|i l IH]; intros m H.
  - unfold cres, vacuum. cbn [fold_right]. destruct (N.eqb_spec m 0) as [Em|]; try subst m; auto. exfalso. apply H. reflexivity.
  - rewrite cres_cons. unfold cre. destruct (Z.leb_spec 0 i); auto. cbn [andb]. destruct (bit m (Z.to_nat i)) eqn:B; auto.
    rewrite IH; [destruct (par _ _); ring|]. intros P. apply H. rewrite (occZ_flip m i) by auto. now constructor.
Qed.
Lemma cres_occ_gen : forall l m, StronglySorted Z.lt l -> Permutation l (zocc m) -> cres l (vacuum (K := K)) m = 1.
Proof.
  induction l as [|i l IH]; intros m S P.
  - apply Permutation_nil in P. apply zocc_nil in P. subst. reflexivity.
  - inversion S as [|? ? S' F]; subst. rewrite cres_cons.
    assert (I : In i (zocc m)) by (eapply Permutation_in; [exact P|now left]). apply occZ_In in I as [I1 I2].
    unfold cre. rewrite (proj2 (Z.leb_le 0 i) I1), I2. cbn [andb].
    assert (P0 : par m (Z.to_nat i) = false).
    { rewrite (par_ext m 0); [apply par_vacuum|]. intros j Hj. rewrite (bit_0 j). destruct (bit m j) eqn:B; auto. exfalso.
      assert (J : In (Z.of_nat j) (i :: l)). { eapply Permutation_in; [symmetry; exact P|]. apply occZ_In. rewrite Nat2Z.id. split; [lia|auto]. }
      rewrite Forall_forall in F. destruct J as [J|J]; [lia|]. apply F in J. lia. }
    rewrite P0. apply IH; auto. rewrite (occZ_flip m i) in P by auto. now apply Permutation_cons_inv in P.
Qed.
Lemma cres_occ : forall m, cres (zocc m) (vacuum (K := K)) m = 1.
Proof. intros m. apply cres_occ_gen; [apply occZ_sorted|reflexivity]. Qed.
Lemma cres_value : forall k l m, swaps k l (zocc m) -> cres l (vacuum (K := K)) m = sgnr (pow_m1 k).
Proof.
  intros k l m S. assert (N : NoDup l). { eapply Permutation_NoDup; [symmetry; eapply swaps_perm; eauto|]. apply occZ_NoDup. }
  rewrite (cres_swaps _ _ _ _ _ N S), cres_occ. unfold pow_m1. destruct (Nat.odd k); cbn [sgb]; unfold sgnr; cbn; ring.
Qed.

(** *** products of geminals *)
Fixpoint words {A} (l : list A) (n : nat) : list (list A) :=
  match n with O => [[]] | S n => flat_map (fun x => map (cons x) (words l n)) l end.
Lemma words_In : forall {A} (l : list A) n w, In w (words l n) <-> length w = n /\ incl w l.
Proof.
  induction n as [|n IH]; intros w; cbn [words].
  - split; [intros [<-|[]]; split; auto; intros x []|]. intros [H _]. destruct w; [now left|discriminate].
  - rewrite in_flat_map. split.
    + intros (x & Hx & H). apply in_map_iff in H as (v & <- & Hv). apply IH in Hv as [L I]. cbn [length]. split; [lia|]. intros y [<-|Hy]; auto.
    + intros [L I]. destruct w as [|x w]; [discriminate|]. exists x. split; [apply I; now left|]. apply in_map. apply IH. injection L as L.
      split; auto. intros y Hy. apply I. now right.
Qed.
Lemma words_NoDup : forall {A} (l : list A) n, NoDup l -> NoDup (words l n).
Proof.
  intros A l n N. induction n as [|n IH]; cbn [words]; [repeat constructor; auto|]. apply NoDup_flat_map; auto.
  - intros x _. apply FinFun.Injective_map_NoDup; auto. intros a b E. now injection E.
  - intros x y w _ _ H1 H2. apply in_map_iff in H1 as (a & <- & _). apply in_map_iff in H2 as (b & E & _). now injection E.
Qed.
Lemma product_words : forall pairs cs m,
  gem_product pairs cs m = sumf (fun qs => prod2 cs qs * cres (flat qs) vacuum m) (words pairs (length cs)).
Proof.
  intros pairs. induction cs as [|c cs IH]; intros m; cbn [gem_product fold_right length words].
  - change (vacuum (K := K) m = 1 * vacuum m + 0). ring.
  - unfold geminal at 1. rewrite sumf_flat_map. apply sumf_ext. intros p _. rewrite sumf_map.
    rewrite (cre_ext (fst p) _ (fun m => sumf (fun qs => prod2 cs qs * cre (snd p) (cres (flat qs) vacuum) m) (words pairs (length cs)))).
    2:{ intros m'. rewrite (cre_ext (snd p) _ (fun m => sumf (fun qs => prod2 cs qs * cres (flat qs) vacuum m) (words pairs (length cs)))) by (intros; apply IH).
        rewrite (cre_sum (snd p) (fun qs m => prod2 cs qs * cres (flat qs) vacuum m)). apply sumf_ext. intros qs _. apply cre_scale. }
    rewrite (cre_sum (fst p) (fun qs m => prod2 cs qs * cre (snd p) (cres (flat qs) vacuum) m)).
    rewrite <- sumf_mul_l. apply sumf_ext. intros qs _. rewrite cre_scale. unfold prod2. cbn [combine]. rewrite prodf_cons. cbn [fst snd].
    destruct p as [a b]. cbn [fst snd flat]. rewrite !cres_cons. ring.
Qed.
End Cre.
