(** Inner products of signed basis states, adjoints, and sums over pairs. *)
From Coq Require Import List ZArith NArith Bool Lia Arith Permutation Sorted.
From Verif Require Import Py BitSpec BitLemmas Slater SlaterBits SlaterBits2 Fock FockLemmas SignLemmas Alg Combos PermLemmas.
Import ListNotations.

Definition inner (u v : ket) : Z :=
  match u, v with
  | Some (s, n), Some (t, m) => if N.eqb n m then sgn (xorb s t) else 0%Z
  | _, _ => 0%Z
  end.
Lemma inner_sym : forall u v, inner u v = inner v u.
Proof. intros [[s n]|] [[t m]|]; auto. simpl. rewrite N.eqb_sym. now rewrite xorb_comm. Qed.
Lemma inner_None_r : forall u, inner u None = 0%Z.
Proof. now intros [[s n]|]. Qed.
Lemma melem_inner : forall m os n, melem m os n = inner (Some (false, m)) (applys os (Some (false, n))).
Proof.
  intros m os n. unfold melem. destruct (applys os _) as [[s p]|]; auto. simpl. 
  destruct (N.eqb m p), s; reflexivity.
Qed.
Lemma inner_adj : forall d i u v, inner (apply1 (d, i) u) v = inner u (apply1 (negb d, i) v).
Proof.
  intros d i [[s n]|] [[t m]|]; auto.
  2:{ rewrite inner_None_r. reflexivity. }
  simpl apply1. cbn [fst snd].
  assert (X : N.eqb (flip n i) m = N.eqb n (flip m i)).
  { destruct (N.eqb_spec (flip n i) m) as [E|E], (N.eqb_spec n (flip m i)) as [E'|E']; auto; exfalso.
    - apply E'. rewrite <- E. now rewrite flip_flip.
    - apply E. rewrite E'. now rewrite flip_flip. }
  destruct (Bool.eqb (bit n i) d) eqn:En, (Bool.eqb (bit m i) (negb d)) eqn:Em.
  - now rewrite inner_None_r.
  - unfold inner. rewrite <- X. destruct (N.eqb_spec (flip n i) m) as [E|E]; auto.
    exfalso. apply Bool.eqb_prop in En. subst. rewrite bit_flip_eq in Em. 
    rewrite Bool.eqb_reflx in Em. discriminate.
  - rewrite inner_None_r. unfold inner. destruct (N.eqb_spec (flip n i) m) as [E|E]; auto.
    exfalso. apply Bool.eqb_prop in Em. subst. rewrite bit_flip_eq in Em.
    destruct (bit n i), d; discriminate.
  - unfold inner. rewrite X. destruct (N.eqb_spec n (flip m i)) as [E|E]; auto. subst.
    rewrite par_flip, Nat.ltb_irrefl, xorb_false_r. f_equal. destruct s, (par m i), t; reflexivity.
Qed.
Lemma inner_adj_r : forall d i u v, inner u (apply1 (d, i) v) = inner (apply1 (negb d, i) u) v.
Proof. intros. rewrite inner_sym, inner_adj, inner_sym. reflexivity. Qed.
Lemma inner_xor_l : forall b u v, inner (xor_ket b u) v = (sgn b * inner u v)%Z.
Proof.
  intros b [[s n]|] [[t m]|]; simpl; try lia. destruct (N.eqb n m); [|lia]. destruct b, s, t; reflexivity.
Qed.
Lemma inner_xor_r : forall b u v, inner u (xor_ket b v) = (sgn b * inner u v)%Z.
Proof. intros. rewrite inner_sym, inner_xor_l, inner_sym. reflexivity. Qed.
Lemma inner_cre_list : forall l u v, inner u (applys (map Cre (rev l)) v) = inner (applys (map Ann l) u) v.
Proof.
  induction l as [|i l IH]; intros u v; [reflexivity|]. cbn [rev map]. rewrite map_app, applys_app.
  cbn [map]. rewrite applys_cons. cbn [applys fold_left]. unfold Cre at 1. rewrite inner_adj_r. cbn [negb].
  rewrite IH. reflexivity.
Qed.
(** the two matrix elements of the Hamiltonian *)
Lemma melem1_inner : forall m i j n, melem m [Ann j; Cre i] n
  = inner (applys [Ann i] (Some (false, m))) (applys [Ann j] (Some (false, n))).
Proof.
  intros. rewrite melem_inner. change [Ann j; Cre i] with ([Ann j] ++ map Cre (rev [i])).
  rewrite applys_app, inner_cre_list. reflexivity.
Qed.
Lemma melem2_inner : forall m i j k l n, melem m [Ann k; Ann l; Cre j; Cre i] n
  = inner (applys [Ann i; Ann j] (Some (false, m))) (applys [Ann k; Ann l] (Some (false, n))).
Proof.
  intros. rewrite melem_inner. change [Ann k; Ann l; Cre j; Cre i] with ([Ann k; Ann l] ++ map Cre (rev [i; j])).
  rewrite applys_app, inner_cre_list. reflexivity.
Qed.

Lemma apply1_ann : forall x s n,
  apply1 (Ann x) (Some (s, n)) = if bit n x then Some (xorb s (par n x), flip n x) else None.
Proof. intros. unfold Ann. cbn [apply1 fst snd]. destruct (bit n x); reflexivity. Qed.

Lemma applys_ann : forall l s n, NoDup l -> (forall i, In i l -> bit n i = true) ->
  exists t p, applys (map Ann l) (Some (s, n)) = Some (t, p) /\
    forall i, bit p i = bit n i && negb (setbits l i).
Proof.
  induction l as [|x l IH]; intros s n N H.
  - exists s, n. split; auto. intros i. simpl. now rewrite andb_true_r.
  - inversion N; subst. cbn [map]. rewrite applys_cons. rewrite apply1_ann.
    rewrite (H x) by now left.
    destruct (IH (xorb s (par n x)) (flip n x)) as (t & p & E & B); auto.
    { intros i Hi. rewrite bit_flip_neq by congruence. apply H. now right. }
    exists t, p. split; auto. intros i. rewrite B, bit_flip. cbn [setbits existsb]. unfold setbits.
    cbn [existsb]. destruct (Nat.eqb_spec x i) as [->|E']; cbn [orb].
    + rewrite (H i) by now left. cbn [xorb]. rewrite Nat.eqb_refl. reflexivity.
    + rewrite xorb_false_r. rewrite (proj2 (Nat.eqb_neq i x)) by auto. reflexivity.
Qed.
Lemma applys_ann_Some : forall l s n t p, applys (map Ann l) (Some (s, n)) = Some (t, p) ->
  NoDup l /\ (forall i, In i l -> bit n i = true) /\ forall i, bit p i = bit n i && negb (setbits l i).
Proof.
  intros l s n t p E. assert (X : NoDup l /\ forall i, In i l -> bit n i = true).
  { revert s n E. induction l as [|x l IH]; intros s n E; [split; [constructor|intros i []]|].
    cbn [map] in E. rewrite applys_cons in E. rewrite apply1_ann in E.
    destruct (bit n x) eqn:B; [|rewrite applys_None in E; discriminate].
    apply IH in E as [N H]. split.
    - constructor; auto. intros C. apply H in C. rewrite bit_flip_eq, B in C. discriminate.
    - intros i [<-|Hi]; auto. destruct (Nat.eq_dec i x) as [->|Ne]; auto. specialize (H i Hi).
      now rewrite bit_flip_neq in H by auto. }
  destruct X as [N H]. repeat split; auto. destruct (applys_ann l s n N H) as (t' & p' & E' & B).
  rewrite E in E'. injection E' as _ <-. auto.
Qed.
Lemma inner_nz : forall l l' m n, inner (applys (map Ann l) (Some (false, m))) (applys (map Ann l') (Some (false, n))) <> 0%Z ->
  NoDup l /\ NoDup l' /\ (forall i, In i l -> bit m i = true) /\ (forall i, In i l' -> bit n i = true) /\
  forall i, bit m i && negb (setbits l i) = bit n i && negb (setbits l' i).
Proof.
  intros l l' m n H. destruct (applys (map Ann l) _) as [[s p]|] eqn:E1; [|now destruct H].
  destruct (applys (map Ann l') _) as [[t q]|] eqn:E2; [|now destruct H].
  apply applys_ann_Some in E1 as (N1 & H1 & B1). apply applys_ann_Some in E2 as (N2 & H2 & B2).
  simpl in H. destruct (N.eqb_spec p q) as [->|]; [|now destruct H].
  repeat split; auto. intros i. now rewrite <- B1, <- B2.
Qed.
Lemma inner_one : forall l m n l', NoDup l -> NoDup l' -> (forall i, In i l -> bit m i = true) ->
  (forall i, In i l' -> bit n i = true) ->
  (forall i, bit m i && negb (setbits l i) = bit n i && negb (setbits l' i)) ->
  exists s, inner (applys (map Ann l) (Some (false, m))) (applys (map Ann l') (Some (false, n))) = sgn s.
Proof.
  intros l m n l' N N' H H' E. destruct (applys_ann l false m N H) as (s & p & E1 & B1).
  destruct (applys_ann l' false n N' H') as (t & q & E2 & B2). rewrite E1, E2. exists (xorb s t).
  assert (p = q) by (apply bit_ext; intros i; rewrite B1, B2; auto). subst. simpl. now rewrite N.eqb_refl.
Qed.
(** removing the same orbital on both sides *)
Lemma inner_both : forall s t p x, bit p x = true ->
  inner (apply1 (Ann x) (Some (s, p))) (apply1 (Ann x) (Some (t, p))) = sgn (xorb s t).
Proof.
  intros s t p x B. unfold Ann. cbn [apply1 fst snd]. rewrite B. cbn [Bool.eqb inner]. rewrite N.eqb_refl.
  f_equal. destruct s, t, (par p x); reflexivity.
Qed.
Lemma inner_swap_l : forall i j m v, i <> j ->
  inner (applys [Ann j; Ann i] (Some (false, m))) v = (- inner (applys [Ann i; Ann j] (Some (false, m))) v)%Z.
Proof.
  intros i j m v H. assert (E : applys [Ann j; Ann i] (Some (false, m)) = xor_ket true (applys [Ann i; Ann j] (Some (false, m)))).
  { apply (applys_swap [] [] false false j i). auto. }
  rewrite E, inner_xor_l. cbn [sgn]. lia.
Qed.
Lemma inner_swap_r : forall i j n v, i <> j ->
  inner v (applys [Ann j; Ann i] (Some (false, n))) = (- inner v (applys [Ann i; Ann j] (Some (false, n))))%Z.
Proof. intros. rewrite inner_sym, inner_swap_l by auto. now rewrite inner_sym. Qed.
Lemma inner_twice_l : forall i m v, inner (applys [Ann i; Ann i] (Some (false, m))) v = 0%Z.
Proof. intros. rewrite applys_cons. cbn [applys fold_left]. unfold Ann. now rewrite apply1_twice. Qed.
Lemma inner_twice_r : forall i n v, inner v (applys [Ann i; Ann i] (Some (false, n))) = 0%Z.
Proof. intros. now rewrite inner_sym, inner_twice_l. Qed.

(** ** sums over pairs *)
Fixpoint pairs {A} (l : list A) : list (A * A) :=
  match l with [] => [] | x :: t => map (pair x) t ++ pairs t end.
Lemma pairs_combinations : forall {A} (l : list A), combinations l 2 = map (fun p => [fst p; snd p]) (pairs l).
Proof.
  induction l as [|x l IH]; [reflexivity|]. rewrite combinations_2_cons. cbn [pairs].
  rewrite map_app, map_map, IH. reflexivity.
Qed.
Lemma pairs_In : forall l i j, increasing l -> (In (i, j) (pairs l) <-> In i l /\ In j l /\ i < j).
Proof.
  induction l as [|x l IH]; intros i j S; [simpl; tauto|]. inversion S as [|? ? S' F]; subst.
  rewrite Forall_forall in F. cbn [pairs]. rewrite in_app_iff, in_map_iff, IH by auto. split.
  - intros [(y & E & H)|(H1 & H2 & H3)].
    + injection E as -> ->. specialize (F _ H). simpl. auto.
    + simpl. auto.
  - intros ([<-|H1] & [<-|H2] & H3); auto; try lia.
    + left. exists j. auto.
    + specialize (F _ H1). lia.
Qed.
Lemma pairs_NoDup : forall {A} (l : list A), NoDup l -> NoDup (pairs l).
Proof.
  induction l as [|x l IH]; intros N; [constructor|]. inversion N; subst. cbn [pairs].
  assert (Q : forall i j (t : list A), In (i, j) (pairs t) -> In i t).
  { clear. intros i j. induction t as [|y t IH]; simpl; auto. rewrite in_app_iff, in_map_iff.
    intros [(z & E & _)|H]; auto. injection E as -> _. auto. }
  apply NoDup_app_intro'; auto.
  - apply NoDup_map_inj; auto. intros a b _ _ E. congruence.
  - intros [i j] H C. apply in_map_iff in H as (z & E & _). injection E as <- _. apply Q in C. auto.
Qed.

Section Sums2.
Context {K : CRing}.
Local Open Scope cr_scope.
Add Ring K_ring11 : (rth K).
Lemma sum2_pairs : forall {A} (F : A -> A -> K) l,
  sumf (fun i => sumf (F i) l) l
  = sumf (fun p => F (fst p) (snd p) + F (snd p) (fst p)) (pairs l) + sumf (fun i => F i i) l.
Proof.
  intros A F. induction l as [|x l IH]; [simpl; ring|].
  cbn [pairs]. rewrite sumf_app, sumf_map, !sumf_cons. cbn [fst snd].
  assert (E : sumf (fun i => sumf (F i) (x :: l)) l = sumf (fun i => F i x) l + sumf (fun i => sumf (F i) l) l).
  { rewrite <- sumf_add. apply sumf_ext. intros i _. apply sumf_cons. }
  rewrite E, IH, !sumf_add. change (sumf (fun x0 => F x x0) l) with (sumf (F x) l). ring.
Qed.
Lemma sumf_support : forall {A} (f : A -> K) L' L, NoDup L -> NoDup L' -> incl L' L ->
  (forall x, In x L -> f x = 0 \/ In x L') -> sumf f L = sumf f L'.
Proof.
  intros A f. induction L' as [|x L' IH]; intros L N N' I H.
  - apply sumf_zero. intros x Hx. destruct (H x Hx) as [|[]]; auto.
  - inversion N'; subst. assert (Hx : In x L) by (apply I; now left).
    apply in_split in Hx as (l1 & l2 & ->).
    assert (P : Permutation (l1 ++ x :: l2) (x :: l1 ++ l2)) by (symmetry; apply Permutation_middle).
    rewrite (sumf_perm _ _ _ P), !sumf_cons. f_equal.
    assert (N2 : NoDup (x :: l1 ++ l2)) by (eapply Permutation_NoDup; eauto). inversion N2; subst.
    apply IH; auto.
    + intros y Hy. assert (In y (l1 ++ x :: l2)) by (apply I; now right).
      eapply Permutation_in in H0; [|exact P]. destruct H0 as [->|]; auto. contradiction.
    + intros y Hy. destruct (H y) as [|[->|]]; auto; [|contradiction].
      eapply Permutation_in; [symmetry; exact P|now right].
Qed.
Lemma sgnr_0 : sgnr 0 = 0 :> K. Proof. reflexivity. Qed.
Lemma sgnr_opp : forall z, z = 0%Z \/ z = 1%Z \/ z = (-1)%Z -> sgnr (- z) = - sgnr z :> K.
Proof. intros z [->|[->| ->]]; unfold sgnr; simpl; ring. Qed.
Lemma inner_values : forall u v, inner u v = 0%Z \/ inner u v = 1%Z \/ inner u v = (-1)%Z.
Proof.
  intros [[s n]|] [[t m]|]; simpl; auto. destruct (N.eqb n m); auto. destruct (xorb s t); simpl; auto.
Qed.
End Sums2.
