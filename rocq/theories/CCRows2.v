(** All rows of an excitation, and the table built from them *)
From Coq Require Import List ZArith NArith Arith Bool Lia Permutation Sorted.
From Verif Require Import Py Slater SignSpec SignLemmas Graphs GraphSpec MatchSpec MathTools PermLemmas SdLemmas Combos
  GeneralLemmas BicliqueLemmas BicliqueMain P_Graphs P_Slater2 CC CCRows.
Import ListNotations.
Local Open Scope nat_scope.

Lemma pd_flat_map : forall {A B} (Q : A -> A -> Prop) (R : B -> B -> Prop) (f : A -> list B) l,
  pairwise_distinct Q l -> (forall x, In x l -> pairwise_distinct R (f x)) ->
  (forall x y r s, In x l -> In y l -> In r (f x) -> In s (f y) -> R r s -> Q x y) -> pairwise_distinct R (flat_map f l).
Proof.
  intros A B Q R f. unfold pairwise_distinct. induction 1 as [|x l F D IH]; intros H1 H2; [constructor|]. cbn [flat_map].
  assert (G : forall l1 l2, ForallOrdPairs (fun a b => ~ R a b) l1 -> ForallOrdPairs (fun a b => ~ R a b) l2 ->
     (forall r s, In r l1 -> In s l2 -> ~ R r s) -> ForallOrdPairs (fun a b => ~ R a b) (l1 ++ l2)).
  { clear. induction 1 as [|x l1 F D IH]; intros D2 H; [auto|]. cbn [app]. constructor.
    - apply Forall_app. split; auto. apply Forall_forall. intros s Hs. apply H; auto. now left.
    - apply IH; auto. intros r s Hr Hs. apply H; auto. now right. }
  apply G.
  - apply H1. now left.
  - apply IH; [intros y Hy; apply H1; now right|]. intros y z r s Hy Hz. apply H2; now right.
  - intros r s Hr Hs X. apply in_flat_map in Hs as (y & Hy & Hs). rewrite Forall_forall in F. apply (F y Hy).
    apply (H2 x y r s); auto; [now left|now right].
Qed.
Lemma pd_rev : forall {A} (R : A -> A -> Prop) l, (forall x y, R x y -> R y x) -> pairwise_distinct R l -> pairwise_distinct R (rev l).
Proof.
  intros A R l Sy D. unfold pairwise_distinct in *. induction D as [|x l F D IH]; [constructor|]. cbn [rev].
  assert (G : forall l2, ForallOrdPairs (fun a b => ~ R a b) l2 -> (forall r, In r l2 -> ~ R r x) -> ForallOrdPairs (fun a b => ~ R a b) (l2 ++ [x])).
  { clear. induction 1 as [|y l F D IH]; intros H; [repeat constructor|]. cbn [app]. constructor; [|apply IH; intros r Hr; apply H; now right].
    apply Forall_app. split; auto. constructor; [|constructor]. apply H. now left. }
  apply G; auto. intros r Hr X. apply in_rev in Hr. rewrite Forall_forall in F. apply (F r Hr). auto.
Qed.
Lemma pd_NoDup_eq : forall {A} (R : A -> A -> Prop) l, NoDup l -> (forall x y, In x l -> In y l -> R x y -> x = y) -> pairwise_distinct R l.
Proof.
  intros A R l N H. unfold pairwise_distinct. induction N as [|x l Hx N IH]; constructor.
  - apply Forall_forall. intros y Hy X. apply Hx. rewrite (H x y); auto; [now left|now right].
  - apply IH. intros y z Hy Hz. apply H; now right.
Qed.
Lemma assoc_perm_eq : forall {A B} (l l' : list (A * B)), NoDup (map fst l) -> map fst l = map fst l' -> Permutation l l' -> l = l'.
Proof.
  induction l as [|[k v] l IH]; intros [|[k' v'] l'] N E P; try discriminate; [reflexivity|]. cbn [map fst] in *. injection E as <- E. inversion N; subst.
  assert (Hv : In (k, v) ((k, v') :: l')) by (eapply Permutation_in; [exact P|now left]). destruct Hv as [Hv|Hv].
  - injection Hv as <-. f_equal. apply IH; auto. eapply Permutation_cons_inv; eauto.
  - exfalso. apply H1. rewrite E. apply (in_map fst) in Hv. exact Hv.
Qed.
Lemma of_to_nat_perm : forall p q, (forall x, In x p -> (0 < x)%Z) -> (forall x, In x q -> (0 < x)%Z) ->
  Permutation (map Z.to_nat p) (map Z.to_nat q) -> Permutation p q.
Proof.
  intros p q Hp Hq P. apply (Permutation_map Z.of_nat) in P. rewrite !map_map in P.
  rewrite (map_ext_in _ (fun x => x) p), (map_ext_in _ (fun x => x) q), !map_id in P; auto.
  - intros x Hx. apply Hq in Hx. lia.
  - intros x Hx. apply Hp in Hx. lia.
Qed.
Lemma Zsum_nat : forall p, (forall x, In x p -> (0 < x)%Z) -> Z.to_nat (Zsum p) = list_sum (map Z.to_nat p) /\ (0 <= Zsum p)%Z.
Proof.
  induction p as [|x p IH]; intros H; [split; [reflexivity|simpl; lia]|]. destruct IH as [IH1 IH2]; [intros y Hy; apply H; now right|].
  assert (0 < x)%Z by (apply H; now left). cbn [Zsum fold_right map list_sum]. unfold Zsum, list_sum in *. split; [|lia]. rewrite Z2Nat.inj_add by lia. lia.
Qed.

Section All.
Variables (ranks a c : list Z).
Hypothesis Sa : StronglySorted Z.lt a.
Hypothesis Sc : StronglySorted Z.lt c.
Hypothesis Hpos : forall r, In r ranks -> (0 < r)%Z.
Hypothesis Hnd : NoDup ranks.
Hypothesis Lac : length a <= length c.

Definition parts_ok (parts : list (list Z)) : Prop :=
  (forall p, In p parts -> payment ranks (Z.of_nat (length a)) p) /\
  (forall q, payment ranks (Z.of_nat (length a)) q -> exists p, In p parts /\ Permutation q p) /\
  pairwise_distinct (@Permutation Z) parts.
Lemma parts_exist : exists parts, int_partition (S (length a + length ranks)) ranks (length ranks) (Z.of_nat (length a)) = Ok parts /\ parts_ok parts.
Proof.
  destruct (C22_payments ranks (length ranks) (Z.of_nat (length a)) (le_n _)) as (out & E & A & B & C).
  { rewrite firstn_all. auto. } { rewrite firstn_all. auto. }
  rewrite firstn_all in A, B. exists out. split; [apply E; lia|]. split; [|split]; auto.
Qed.
Variable parts : list (list Z).
Hypothesis Hparts : parts_ok parts.

Lemma part_pos : forall p, In p parts -> (forall x, In x p -> (0 < x)%Z) /\ list_sum (map Z.to_nat p) = length a.
Proof.
  intros p H. apply Hparts in H as [I E]. assert (P : forall x, In x p -> (0 < x)%Z) by auto. split; [auto|].
  destruct (Zsum_nat p P) as [F _]. rewrite E, Nat2Z.id in F. auto.
Qed.
Lemma part_row_sound : forall p r, length a = length c -> In p parts -> In r (part_rows a c p) ->
  row_of ranks a c r /\ Permutation (map (fun q => length (fst q)) r) (map Z.to_nat p).
Proof.
  intros p r L Hp Hr. destruct (part_pos p Hp) as [Pp Ps]. unfold part_rows in Hr.
  destruct (part_facts a c Sa Sc p Pp Ps L) as (As & Cs & EA & EC & FA & FC & _ & _ & _ & _). rewrite EA, EC in Hr.
  apply in_flat_map in Hr as (annhs & HA & Hr). apply in_flat_map in Hr as (creas & HC & Hr).
  destruct (FA annhs HA) as (PA & LA & SA). destruct (FC creas HC) as (PC & LC & SC).
  destruct (part_pairings a c Sc p Pp Ps L annhs creas PA PC LA LC) as (rs & E & _ & I). rewrite E in Hr. apply I in Hr as (E1 & E2 & S).
  assert (PL : Permutation (map (fun q => length (fst q)) r) (map Z.to_nat p)).
  { rewrite <- (map_map fst (@length Z)), E1, LA. apply bins_capacities. }
  split; [|auto]. split; [|split].
  - apply Forall_forall. intros q Hq. unfold same_size in S. rewrite Forall_forall in S. rewrite Forall_forall in SA, SC. split; [|split; [|split]].
    + apply SA. rewrite <- E1. now apply in_map.
    + apply SC. eapply Permutation_in; [exact E2|]. now apply in_map.
    + auto.
    + apply (proj1 Hparts) in Hp as [I' _]. apply I'. assert (X : In (length (fst q)) (map Z.to_nat p)).
      { eapply Permutation_in; [exact PL|]. apply in_map_iff. eauto. }
      apply in_map_iff in X as (x & <- & Hx). rewrite Z2Nat.id; auto. apply Z.lt_le_incl. auto.
  - now rewrite E1.
  - rewrite <- PC. rewrite <- !flat_map_concat_map with (f := fun x => x) || idtac. 
    clear - E2. induction E2; cbn [concat]; auto.
    + now apply Permutation_app_head.
    + rewrite !app_assoc. apply Permutation_app_tail, Permutation_app_comm.
    + etransitivity; eauto.
Qed.
Lemma rows_sound : forall r, In r (flat_map (part_rows a c) (rev parts)) -> row_of ranks a c r.
Proof.
  intros r H. apply in_flat_map in H as (p & Hp & Hr). apply in_rev in Hp. destruct (Nat.eq_dec (length a) (length c)) as [L|L]; [now apply (part_row_sound p r L Hp)|].
  destruct (part_pos p Hp) as [Pp Ps]. destruct (part_rows_more a c Sa Sc p Pp Ps) as (As & E1 & E2); [lia|]. unfold part_rows in Hr.
  rewrite E1, E2 in Hr. exfalso. clear - Hr. induction As; auto.
Qed.
Lemma row_lengths : forall r, row_of ranks a c r -> length a = length c.
Proof.
  intros r (F & P1 & P2). rewrite <- (Permutation_length P1), <- (Permutation_length P2). clear - F.
  induction F as [|p r (_ & _ & L & _) F IH]; [reflexivity|]. cbn [map concat]. rewrite !app_length, L, IH. reflexivity.
Qed.
Lemma rows_complete : forall r, row_of ranks a c r -> exists r', In r' (flat_map (part_rows a c) (rev parts)) /\ Permutation r r'.
Proof.
  intros r H. pose proof (row_lengths r H) as L. destruct H as (F & P1 & P2).
  assert (Pay : payment ranks (Z.of_nat (length a)) (map (fun q => Z.of_nat (length (fst q))) r)).
  { split.
    - intros x Hx. apply in_map_iff in Hx as (q & <- & Hq). rewrite Forall_forall in F. now apply F.
    - rewrite <- (Permutation_length P1). clear. induction r as [|q r IH]; [reflexivity|]. cbn [map concat Zsum fold_right]. rewrite app_length. unfold Zsum in IH. rewrite IH. lia. }
  destruct (proj1 (proj2 Hparts) _ Pay) as (p & Hp & Pm). destruct (part_pos p Hp) as [Pp Ps].
  destruct (part_facts a c Sa Sc p Pp Ps L) as (As & Cs & EA & EC & FA & FC & CA & CCc & _ & _).
  assert (Caps : Permutation (map (fun q => length (fst q)) r) (capacities (bins_of p))).
  { rewrite (bins_capacities p). apply (Permutation_map Z.to_nat) in Pm. rewrite map_map in Pm. rewrite <- Pm. apply Permutation_refl'.
    apply map_ext. intros q. now rewrite Nat2Z.id. }
  rewrite Forall_forall in F.
  destruct (CA (map fst r)) as (annhs & HA & PA); auto.
  { apply Forall_forall. intros b Hb. apply in_map_iff in Hb as (q & <- & Hq). now apply F. }
  { now rewrite map_map. }
  destruct (CCc (map snd r)) as (creas & HC & PC); auto.
  { apply Forall_forall. intros b Hb. apply in_map_iff in Hb as (q & <- & Hq). now apply F. }
  { rewrite map_map. rewrite <- Caps. apply Permutation_refl'. apply map_ext_in. intros q Hq. symmetry. now apply F. }
  apply Permutation_map_inv in PA as (r' & EA' & Pr). exists r'. split; [|auto].
  apply in_flat_map. exists p. split; [now apply in_rev in Hp|]. unfold part_rows. rewrite EA, EC.
  apply in_flat_map. exists annhs. split; [auto|]. apply in_flat_map. exists creas. split; [auto|].
  destruct (FA annhs HA) as (QA & LA & _). destruct (FC creas HC) as (QC & LC & _).
  destruct (part_pairings a c Sc p Pp Ps L annhs creas QA QC LA LC) as (rs & E & _ & I). rewrite E. apply I. split; [auto|]. split.
  - rewrite PC. symmetry. now apply Permutation_map.
  - apply Forall_forall. intros q Hq. apply F. eapply Permutation_in; [symmetry; exact Pr|auto].
Qed.
Lemma rows_distinct : pairwise_distinct (@Permutation (list Z * list Z)) (flat_map (part_rows a c) (rev parts)).
Proof.
  destruct (Nat.eq_dec (length a) (length c)) as [L|L].
  2:{ assert (E : flat_map (part_rows a c) (rev parts) = []); [|rewrite E; constructor].
      assert (G : forall l, incl l parts -> flat_map (part_rows a c) l = []); [|apply G; intros x; apply in_rev].
      induction l as [|p l IH]; intros I; [reflexivity|]. cbn [flat_map]. rewrite IH by (intros x Hx; apply I; now right). rewrite app_nil_r.
      destruct (part_pos p (I p (or_introl eq_refl))) as [Pp Ps]. destruct (part_rows_more a c Sa Sc p Pp Ps) as (As & E1 & E2); [lia|]. unfold part_rows.
      rewrite E1, E2. clear. induction As; auto. }
  apply (pd_flat_map (@Permutation Z)).
  - apply pd_rev; [intros; now symmetry|]. apply Hparts.
  - intros p Hp. apply in_rev in Hp. destruct (part_pos p Hp) as [Pp Ps]. unfold part_rows.
    destruct (part_facts a c Sa Sc p Pp Ps L) as (As & Cs & EA & EC & FA & FC & _ & _ & DA & DC). rewrite EA, EC.
    assert (I : forall annhs creas, In annhs As -> In creas Cs -> exists rs, pairings (bins_of p) annhs creas = Ok rs /\ NoDup rs /\
       forall r, In r rs <-> map fst r = annhs /\ Permutation (map snd r) creas /\ same_size r).
    { intros annhs creas HA HC. destruct (FA annhs HA) as (QA & LA & _). destruct (FC creas HC) as (QC & LC & _). now apply (part_pairings a c Sc p Pp Ps L). }
    apply (pd_flat_map (@Permutation (list Z))); [auto| |].
    + intros annhs HA. apply (pd_flat_map (@Permutation (list Z))); [auto| |].
      * intros creas HC. destruct (I annhs creas HA HC) as (rs & E & N & J). rewrite E. apply pd_NoDup_eq; auto.
        intros r s Hr Hs P. apply J in Hr as (E1 & _ & _), Hs as (E2 & _ & _). apply assoc_perm_eq; [|congruence|auto].
        rewrite E1. apply concat_NoDup_blocks.
        -- destruct (FA annhs HA) as (QA & _ & _). eapply Permutation_NoDup; [symmetry; exact QA|now apply SS_NoDup].
        -- apply Forall_forall. intros b Hb ->. destruct (FA annhs HA) as (_ & LA & _). apply (in_map (@length Z)) in Hb. rewrite LA in Hb.
           apply (Permutation_in _ (bins_capacities p)) in Hb. apply in_map_iff in Hb as (x & Ex & Hx). apply Pp in Hx. simpl in Ex. lia.
      * intros creas creas' r s HC HC' Hr Hs P. destruct (I annhs creas HA HC) as (rs & E & _ & J). destruct (I annhs creas' HA HC') as (rs' & E' & _ & J').
        rewrite E in Hr. rewrite E' in Hs. apply J in Hr as (_ & E1 & _). apply J' in Hs as (_ & E2 & _). rewrite <- E1, <- E2. now apply Permutation_map.
    + intros annhs annhs' r s HA HA' Hr Hs P. apply in_flat_map in Hr as (creas & HC & Hr), Hs as (creas' & HC' & Hs).
      destruct (I annhs creas HA HC) as (rs & E & _ & J). destruct (I annhs' creas' HA' HC') as (rs' & E' & _ & J').
      rewrite E in Hr. rewrite E' in Hs. apply J in Hr as (<- & _ & _). apply J' in Hs as (<- & _ & _). now apply Permutation_map.
  - intros p q r s Hp Hq Hr Hs P. apply in_rev in Hp, Hq. apply (part_row_sound p r L Hp) in Hr as [_ Hr]. apply (part_row_sound q s L Hq) in Hs as [_ Hs].
    apply of_to_nat_perm; [apply (part_pos p Hp)|apply (part_pos q Hq)|]. rewrite <- Hr, <- Hs. now apply Permutation_map.
Qed.
End All.
