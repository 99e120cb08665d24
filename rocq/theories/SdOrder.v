(** The order in which sd_list lists determinants. *)
From Coq Require Import List ZArith NArith Bool Lia Arith Sorted Permutation.
From Verif Require Import Py BitSpec BitLemmas Slater SlaterBits SlaterBits2 Combos BulkLemmas SdList
  SdSpec SdLemmas.
Import ListNotations.

Lemma SSo_app : forall {A} (R : A -> A -> Prop) l1 l2, StronglySorted R l1 -> StronglySorted R l2 ->
  (forall x y, In x l1 -> In y l2 -> R x y) -> StronglySorted R (l1 ++ l2).
Proof.
  induction l1 as [|x l1 IH]; intros l2 H1 H2 H; simpl; auto.
  inversion H1 as [|? ? Ha Hb]; subst. constructor.
  - apply IH; auto. intros; apply H; auto. now right.
  - apply Forall_app. split; auto. apply Forall_forall. intros y Hy. apply H; auto. now left.
Qed.
Lemma SSo_map : forall {A B} (R : A -> A -> Prop) (S : B -> B -> Prop) (f : A -> B) l,
  (forall x y, In x l -> In y l -> R x y -> S (f x) (f y)) -> StronglySorted R l ->
  StronglySorted S (map f l).
Proof.
  induction l as [|x l IH]; intros H1 H; simpl; [constructor|]. inversion H as [|? ? Ha Hb]; subst. constructor.
  - apply IH; auto. intros a b A1 B1. apply H1; now right.
  - apply Forall_forall. intros y Hy. apply in_map_iff in Hy as (z & <- & Hz).
    apply H1; [now left|now right|]. rewrite Forall_forall in Hb. auto.
Qed.
Lemma SSo_filter : forall {A} (R : A -> A -> Prop) f l, StronglySorted R l -> StronglySorted R (filter f l).
Proof.
  induction l as [|x l IH]; intros H; simpl; auto. inversion H as [|? ? Ha Hb]; subst.
  destruct (f x); auto. constructor; auto. rewrite Forall_forall in *. intros y Hy.
  apply filter_In in Hy as [Hy _]. auto.
Qed.
Lemma SSo_subseq : forall {A} (R : A -> A -> Prop) a l, subseq a l -> StronglySorted R l -> StronglySorted R a.
Proof.
  induction 1 as [l|x a l H IH|x a l H IH]; intros S; [constructor| |];
    inversion S as [|? ? Ha Hb]; subst; auto.
  constructor; auto. rewrite Forall_forall in *. intros y Hy. apply Hb. eapply subseq_incl; eauto.
Qed.

(** combinations of a sorted list come in lexicographic order *)
Lemma combinations_lex : forall {A} (R : A -> A -> Prop) l k, StronglySorted R l ->
  StronglySorted (lex_before R) (combinations l k).
Proof.
  induction l as [|x l IH]; intros k H.
  - destruct k; simpl; repeat constructor.
  - destruct k as [|k]; [simpl; repeat constructor|].
    inversion H as [|? ? Ha Hb]; subst. cbn [combinations]. apply SSo_app.
    + eapply SSo_map; [|apply IH; auto]. intros a b _ _ L. now constructor.
    + apply IH; auto.
    + intros a b Ha' Hb'. apply in_map_iff in Ha' as (a' & <- & _).
      apply combinations_In in Hb' as [S L]. destruct b as [|y b]; [discriminate|].
      apply lex_here. rewrite Forall_forall in Hb. apply Hb. eapply subseq_incl; [exact S|now left].
Qed.

Lemma prod_lex : forall {A B} (R : A -> A -> Prop) (S : B -> B -> Prop) l1 l2,
  StronglySorted R l1 -> StronglySorted S l2 ->
  StronglySorted (fun p q => R (fst p) (fst q) \/ fst p = fst q /\ S (snd p) (snd q)) (list_prod l1 l2).
Proof.
  induction l1 as [|x l1 IH]; intros l2 H1 H2; simpl; [constructor|].
  inversion H1 as [|? ? Ha Hb]; subst. apply SSo_app; auto.
  - eapply SSo_map; [|exact H2]. intros a b _ _ L. right. auto.
  - intros [a b] [c d] Hp Hq. apply in_map_iff in Hp as (y & [= <- <-] & _).
    apply in_prod_iff in Hq as [Hc _]. left. simpl. rewrite Forall_forall in Hb. auto.
Qed.

(** stable sort of an increasing list: sorted by key, then by index *)
Lemma insert_key_sorted : forall (f : nat -> Z) x l,
  let R := fun x y => (f x < f y)%Z \/ f x = f y /\ x < y in
  (forall y, In y l -> x < y) -> StronglySorted R l -> StronglySorted R (insert_key f x l).
Proof.
  induction l as [|y l IH]; intros R Hx H; simpl; [repeat constructor|].
  inversion H as [|? ? Ha Hb]; subst. rewrite Forall_forall in Hb.
  destruct (Z.leb_spec (f x) (f y)) as [L|L].
  - constructor; auto. apply Forall_forall. intros z Hz.
    pose proof (Hx z Hz). unfold R. destruct Hz as [<-|Hz]; [lia|].
    specialize (Hb z Hz). unfold R in Hb. lia.
  - constructor.
    + apply IH; auto. intros; apply Hx; now right.
    + apply Forall_forall. intros z Hz.
      apply (Permutation_in _ (insert_key_perm f x l)) in Hz as [<-|Hz]; auto. left. lia.
Qed.
Lemma sorted_key_sorted : forall (f : nat -> Z) l, increasing l ->
  StronglySorted (fun x y => (f x < f y)%Z \/ f x = f y /\ x < y) (sorted_key f l).
Proof.
  induction l as [|x l IH]; intros H; simpl; [constructor|].
  apply SS_cons_inv in H as [H1 H2]. apply insert_key_sorted; [|now apply IH].
  intros y Hy. fold (sorted_key f l) in Hy. apply (Permutation_in _ (sorted_key_perm f l)) in Hy. rewrite Forall_forall in H2. auto.
Qed.

Lemma spatial_key_of : forall ns x, (0 <= ns)%Z ->
  spatial_key ns x = Z.of_nat (spatial_of (Z.to_nat ns) x).
Proof.
  intros ns x H. unfold spatial_key, spatial_of.
  destruct (Z.leb_spec ns (Z.of_nat x)), (Nat.leb_spec (Z.to_nat ns) x); lia.
Qed.

Lemma SSo_impl : forall {A} (R S : A -> A -> Prop) l, (forall x y, R x y -> S x y) ->
  StronglySorted R l -> StronglySorted S l.
Proof.
  intros A R S l H X. rewrite <- (map_id l). eapply SSo_map; [|exact X]. auto.
Qed.

Lemma occs_of_sorted : forall nspin g, (0 <= nspin)%Z ->
  StronglySorted (empties_before (Z.to_nat (nspin / 2))) (occs_of nspin g).
Proof.
  intros nspin g H. assert (0 <= nspin / 2)%Z by (apply Z.div_pos; lia).
  unfold occs_of, sorted_key_rev. eapply SSo_impl; [|apply sorted_key_sorted, occ_indices_increasing].
  intros x y. cbv beta. rewrite !spatial_key_of by auto. unfold empties_before. lia.
Qed.
Lemma virs_of_sorted : forall nspin g, (0 <= nspin)%Z ->
  StronglySorted (fills_before (Z.to_nat (nspin / 2))) (virs_of nspin g).
Proof.
  intros nspin g H. assert (0 <= nspin / 2)%Z by (apply Z.div_pos; lia).
  unfold virs_of. eapply SSo_impl; [|apply sorted_key_sorted].
  - intros x y. cbv beta. rewrite !spatial_key_of by auto. unfold fills_before. lia.
  - replace nspin with (Z.of_nat (Z.to_nat nspin)) by lia. rewrite vir_indices_filter.
    apply increasing_filter, increasing_seq.
Qed.

Lemma block_sorted : forall nspin g k, (0 <= nspin)%Z ->
  StronglySorted (det_before (Z.to_nat (nspin / 2)) g)
    (map (fun p => moved g (fst p) (snd p))
       (list_prod (combinations (occs_of nspin g) k) (combinations (virs_of nspin g) k))).
Proof.
  intros nspin g k H.
  destruct (occs_of_spec nspin g) as [O1 O2]. destruct (virs_of_spec nspin g H) as [V1 V2].
  eapply SSo_map; [|apply prod_lex; apply combinations_lex; [now apply occs_of_sorted|now apply virs_of_sorted]].
  assert (Q : forall p, In p (list_prod (combinations (occs_of nspin g) k) (combinations (virs_of nspin g) k)) ->
    listed_by (empties_before (Z.to_nat (nspin / 2))) (lost g (moved g (fst p) (snd p))) (fst p) /\
    listed_by (fills_before (Z.to_nat (nspin / 2))) (lost (moved g (fst p) (snd p)) g) (snd p)).
  { intros [a c] Hp. apply in_prod_iff in Hp as [H1 H2]. cbn [fst snd].
    apply combinations_In in H1 as [S1 _]. apply combinations_In in H2 as [S2 _].
    assert (A1 : forall i, In i a -> bit g i = true) by (intros i Hi; apply O2; eapply subseq_incl; eauto).
    assert (A2 : forall i, In i c -> bit g i = false) by (intros i Hi; apply V2; eapply subseq_incl; eauto).
    split; split.
    - eapply SSo_subseq; [exact S1|now apply occs_of_sorted].
    - intros i. destruct (moved_lost g a c i A1 A2) as [-> _]. now rewrite setbits_In.
    - eapply SSo_subseq; [exact S2|now apply virs_of_sorted].
    - intros i. destruct (moved_lost g a c i A1 A2) as [_ ->]. now rewrite setbits_In. }
  intros p q Hp Hq L. destruct (Q p Hp) as [P1 P2]. destruct (Q q Hq) as [Q1 Q2].
  exists (fst p), (snd p), (fst q), (snd q). auto.
Qed.
