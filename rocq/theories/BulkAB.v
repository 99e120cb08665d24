(** excite_bulk_two_ab enumerates the alpha-beta double excitations exactly once. *)
From Coq Require Import List ZArith NArith Bool Lia Arith Sorted Permutation.
From Verif Require Import Py BitSpec BitLemmas Slater SlaterBits SlaterBits2 Combos BulkLemmas.
Import ListNotations.

Lemma setbits_two : forall a b i, setbits [a; b] i = Nat.eqb i a || Nat.eqb i b.
Proof. intros. unfold setbits. cbn [existsb]. now rewrite orb_false_r. Qed.

Lemma bulk_ab_exact : forall n norbs k oa ob va vb, fits n norbs ->
  NoDup oa -> NoDup ob -> NoDup va -> NoDup vb ->
  (forall i, In i oa <-> i < k /\ bit n i = true) ->
  (forall i, In i ob <-> k <= i /\ bit n i = true) ->
  (forall i, In i va <-> i < k /\ i < norbs /\ bit n i = false) ->
  (forall i, In i vb <-> k <= i /\ i < norbs /\ bit n i = false) ->
  let l := map (fun p => moved n [fst (fst p); snd (fst p)] [fst (snd p); snd (snd p)])
            (list_prod (list_prod oa ob) (list_prod va vb)) in
  NoDup l /\
  forall m, In m l <->
    fits m norbs /\ exists a b c d, a < k /\ k <= b /\ c < k /\ k <= d /\
      (forall i, lost n m i = Nat.eqb i a || Nat.eqb i b) /\
      (forall i, lost m n i = Nat.eqb i c || Nat.eqb i d).
Proof.
  intros n norbs k oa ob va vb F Noa Nob Nva Nvb Hoa Hob Hva Hvb l.
  assert (Hp : forall a b c d, In ((a, b), (c, d)) (list_prod (list_prod oa ob) (list_prod va vb)) <->
    (a < k /\ bit n a = true) /\ (k <= b /\ bit n b = true) /\
    (c < k /\ c < norbs /\ bit n c = false) /\ (k <= d /\ d < norbs /\ bit n d = false)).
  { intros. rewrite !in_prod_iff, Hoa, Hob, Hva, Hvb. tauto. }
  assert (Hl : forall a b c d, bit n a = true -> bit n b = true -> bit n c = false -> bit n d = false ->
     forall i, lost n (moved n [a; b] [c; d]) i = (Nat.eqb i a || Nat.eqb i b) /\
               lost (moved n [a; b] [c; d]) n i = (Nat.eqb i c || Nat.eqb i d)).
  { intros a b c d A B C D i. rewrite <- !setbits_two. apply moved_lost.
    - intros j [<-|[<-|[]]]; auto.
    - intros j [<-|[<-|[]]]; auto. }
  split.
  - apply NoDup_map_inj; [|now repeat apply NoDup_prod].
    intros [[a b] [c d]] [[a' b'] [c' d']] P Q. cbn [fst snd]. intros E.
    apply Hp in P as ((A1 & A2) & (B1 & B2) & (C1 & C3 & C2) & D1 & D3 & D2).
    apply Hp in Q as ((A1' & A2') & (B1' & B2') & (C1' & C3' & C2') & D1' & D3' & D2').
    assert (X : forall i, (Nat.eqb i a || Nat.eqb i b) = (Nat.eqb i a' || Nat.eqb i b')).
    { intros i. destruct (Hl a b c d A2 B2 C2 D2 i) as [<- _]. rewrite E.
      now destruct (Hl a' b' c' d' A2' B2' C2' D2' i) as [-> _]. }
    assert (Y : forall i, (Nat.eqb i c || Nat.eqb i d) = (Nat.eqb i c' || Nat.eqb i d')).
    { intros i. destruct (Hl a b c d A2 B2 C2 D2 i) as [_ <-]. rewrite E.
      now destruct (Hl a' b' c' d' A2' B2' C2' D2' i) as [_ ->]. }
    pose proof (X a) as Xa. pose proof (X b) as Xb. pose proof (Y c) as Yc. pose proof (Y d) as Yd.
    rewrite Nat.eqb_refl in Xa, Xb, Yc, Yd. rewrite ?orb_true_r in *. simpl in Xa, Yc.
    symmetry in Xa, Xb, Yc, Yd. apply orb_true_iff in Xa, Xb, Yc, Yd. rewrite !Nat.eqb_eq in *.
    assert (a = a') by lia. assert (b = b') by lia. assert (c = c') by lia. assert (d = d') by lia.
    now subst.
  - intros m. unfold l. rewrite in_map_iff. split.
    + intros ([[a b] [c d]] & <- & P). cbn [fst snd].
      apply Hp in P as ((A1 & A2) & (B1 & B2) & (C1 & C3 & C2) & D1 & D3 & D2).
      split.
      * intros i Hi. rewrite moved_bits, F; auto.
        -- cbn [andb orb]. rewrite setbits_two. apply orb_false_iff. rewrite !Nat.eqb_neq. lia.
        -- intros j [<-|[<-|[]]]; auto.
        -- intros j [<-|[<-|[]]]; auto.
      * exists a, b, c, d. repeat split; auto; intros i; now apply Hl.
    + intros (Fm & a & b & c & d & A & B & C & D & L1 & L2).
      pose proof (L1 a) as Xa. pose proof (L1 b) as Xb. pose proof (L2 c) as Yc. pose proof (L2 d) as Yd.
      rewrite Nat.eqb_refl in Xa, Xb, Yc, Yd. rewrite ?orb_true_r in *. cbn [orb] in Xa, Yc.
      unfold lost in Xa, Xb, Yc, Yd. apply andb_true_iff in Xa, Xb, Yc, Yd.
      rewrite !negb_true_iff in *.
      assert (K : forall i, bit m i = true -> i < norbs).
      { intros i Hi. destruct (Nat.lt_ge_cases i norbs); auto. rewrite Fm in Hi by auto. discriminate. }
      exists ((a, b), (c, d)). split.
      * cbn [fst snd]. apply bit_ext. intros i.
        destruct (Hl a b c d (proj1 Xa) (proj1 Xb) (proj2 Yc) (proj2 Yd) i) as [E1 E2].
        rewrite <- L1 in E1. rewrite <- L2 in E2. unfold lost in E1, E2.
        destruct (bit (moved n [a; b] [c; d]) i), (bit m i), (bit n i); auto; discriminate.
      * apply Hp. repeat split; auto; try tauto; apply K; tauto.
Qed.
