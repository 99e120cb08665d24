From Coq Require Import List ZArith Bool Lia Arith Permutation Sorted.
From Verif Require Import Py Slater Graphs MatchSpec MatchLemmas GraphSpec.
Import ListNotations.

Lemma Zsum_perm : forall a b, Permutation a b -> Zsum a = Zsum b.
Proof. induction 1; simpl; lia. Qed.
Lemma Zsum_nonneg : forall l, (forall x, In x l -> (0 < x)%Z) -> (0 <= Zsum l)%Z.
Proof.
  induction l as [|x l IH]; intros H; simpl; [lia|]. pose proof (H x ltac:(now left)).
  assert (0 <= Zsum l)%Z by (apply IH; intros; apply H; now right). lia.
Qed.
Lemma Zsum_zero : forall l, (forall x, In x l -> (0 < x)%Z) -> Zsum l = 0%Z -> l = [].
Proof.
  intros [|x l] H E; auto. simpl in E. pose proof (H x ltac:(now left)).
  pose proof (Zsum_nonneg l ltac:(intros; apply H; now right)). lia.
Qed.

Lemma firstn_S_nth : forall {A} (l : list A) k c, nth_error l k = Some c -> firstn (S k) l = firstn k l ++ [c].
Proof.
  induction l as [|x l IH]; intros [|k] c H; simpl in *; try discriminate; [congruence|].
  f_equal. now apply IH.
Qed.

Lemma int_partition_spec : forall fuel coins k total,
  k <= length coins -> (forall c, In c (firstn k coins) -> (0 < c)%Z) -> NoDup (firstn k coins) ->
  Z.to_nat total + k < fuel ->
  exists out, int_partition fuel coins k total = Ok out /\
    (forall p, In p out -> payment (firstn k coins) total p) /\
    (forall q, payment (firstn k coins) total q -> exists p, In p out /\ Permutation q p) /\
    pairwise_distinct (@Permutation Z) out /\
    (StronglySorted Z.lt (firstn k coins) -> forall p, In p out -> StronglySorted Z.ge p).
Proof.
  induction fuel as [|f IH]; intros coins k total Hk Pos N Hf; [lia|]. cbn [int_partition].
  destruct (Z.leb_spec total 0) as [Ht|Ht].
  - destruct (Z.eqb_spec total 0) as [->|Hn].
    + exists [[]]. split; [reflexivity|]. split; [|split; [|split]].
      * intros p [<-|[]]. split; [intros x []|reflexivity].
      * intros q [I S]. exists []. split; [now left|]. rewrite (Zsum_zero q); auto.
      * repeat constructor.
      * intros _ p [<-|[]]. constructor.
    + exists []. split; [reflexivity|]. split; [intros p []|]. split; [|split; [constructor|intros _ p []]].
      intros q [I S]. pose proof (Zsum_nonneg q ltac:(auto)). lia.
  - destruct (Z.eqb_spec total 0) as [->|Hn]; [lia|]. destruct k as [|k].
    + exists []. split; [reflexivity|]. split; [intros p []|]. split; [|split; [constructor|intros _ p []]].
      intros q [I S]. destruct q as [|x q]; [simpl in S; lia|]. destruct (I x ltac:(now left)).
    + destruct (nth_error coins k) as [c|] eqn:Ec; [|apply nth_error_None in Ec; lia].
      assert (E := firstn_S_nth _ _ _ Ec).
      assert (Pc : (0 < c)%Z) by (apply Pos; rewrite E; apply in_or_app; right; now left).
      destruct (IH coins (S k) (total - c)%Z) as (o1 & E1 & A1 & A2 & A3 & A4); auto; [lia|].
      assert (Ninc : NoDup (firstn k coins) /\ ~ In c (firstn k coins)).
      { rewrite E in N. split.
        - apply NoDup_remove_1 in N. now rewrite app_nil_r in N.
        - apply NoDup_remove_2 in N. now rewrite app_nil_r in N. }
      destruct Ninc as [N' Nc].
      destruct (IH coins k total) as (o2 & E2 & B1 & B2 & B3 & B4); auto; try lia.
      { intros x Hx. apply Pos. rewrite E. apply in_or_app. now left. }
      rewrite E1, E2. cbn [bind app]. exists (map (cons c) o1 ++ o2). split; [reflexivity|]. split; [|split; [|split]].
      * intros p Hp. apply in_app_or in Hp as [Hp|Hp].
        -- apply in_map_iff in Hp as (q & <- & Hq). destruct (A1 q Hq) as [I S]. split.
           ++ intros x [<-|Hx]; [rewrite E; apply in_or_app; right; now left|auto].
           ++ simpl. lia.
        -- destruct (B1 p Hp) as [I S]. split; auto. intros x Hx. rewrite E. apply in_or_app. left. auto.
      * intros q [I S]. destruct (in_dec Z.eq_dec c q) as [Hc|Hc].
        -- apply in_split in Hc as (q1 & q2 & ->).
           destruct (A2 (q1 ++ q2)) as (p & Hp & P).
           { split.
             - intros x Hx. apply I. apply in_or_app. apply in_app_or in Hx as [Hx|Hx]; [now left|right; now right].
             - assert (X := Zsum_perm _ _ (Permutation_middle q1 q2 c)). simpl in X. lia. }
           exists (c :: p). split; [apply in_or_app; left; now apply in_map|].
           rewrite <- Permutation_middle. now constructor.
        -- destruct (B2 q) as (p & Hp & P).
           { split; auto. intros x Hx. specialize (I x Hx). rewrite E in I.
             apply in_app_or in I as [I|[<-|[]]]; auto. contradiction. }
           exists p. split; auto. apply in_or_app. now right.
      * apply distinct_app; auto.
        -- clear - A3. induction A3 as [|x l F H IH]; simpl; constructor; auto.
           rewrite Forall_forall in *. intros y Hy P. apply in_map_iff in Hy as (z & <- & Hz).
           apply (F z Hz). eapply Permutation_cons_inv; eauto.
        -- intros x y Hx Hy P. apply in_map_iff in Hx as (q & <- & _). destruct (B1 y Hy) as [I _].
           apply Nc, I. eapply Permutation_in; [exact P|]. now left.
      * intros So p Hp. apply in_app_or in Hp as [Hp|Hp].
        -- apply in_map_iff in Hp as (q & <- & Hq). constructor; [now apply A4|].
           rewrite Forall_forall. intros x Hx. destruct (A1 q Hq) as [I _]. specialize (I x Hx).
           rewrite E in I, So. apply in_app_or in I as [I|[<-|[]]]; [|lia].
           clear - So I. induction (firstn k coins) as [|y l IH]; [destruct I|]. simpl in So.
           inversion So as [|? ? S1 S2]; subst. destruct I as [->|I]; auto. rewrite Forall_forall in S2.
           specialize (S2 c ltac:(apply in_or_app; right; now left)). lia.
        -- apply B4; auto. rewrite E in So. clear - So. induction (firstn k coins) as [|y l IH]; [constructor|].
           simpl in So. inversion So as [|? ? S1 S2]; subst. constructor; auto.
           rewrite Forall_forall in *. intros x Hx. apply S2. apply in_or_app. now left.
Qed.

(** more fuel does not change the result *)
Lemma int_partition_mono : forall f f' coins k total out, int_partition f coins k total = Ok out -> f <= f' ->
  int_partition f' coins k total = Ok out.
Proof.
  induction f as [|f IH]; intros f' coins k total out H L; [discriminate|].
  destruct f' as [|f']; [lia|]. cbn [int_partition] in *.
  destruct (total <=? 0)%Z; auto. destruct k as [|k]; auto. destruct (nth_error coins k) as [c|]; auto.
  destruct (int_partition f coins (S k) (total - c)) as [o1|] eqn:E1; [|discriminate].
  rewrite (IH f' _ _ _ _ E1) by lia. cbn [bind] in *.
  destruct (int_partition f coins k total) as [o2|] eqn:E2; [|discriminate].
  rewrite (IH f' _ _ _ _ E2) by lia. exact H.
Qed.
