From Coq Require Import List ZArith Bool Lia Arith Permutation.
From Verif Require Import Py Slater SignSpec SignLemmas Combos Graphs MatchSpec.
Import ListNotations.

(** ** parity *)
Lemma pow_m1_add : forall a b, pow_m1 (a + b) = (pow_m1 a * pow_m1 b)%Z.
Proof. intros. unfold pow_m1. rewrite Nat.odd_add. destruct (Nat.odd a), (Nat.odd b); reflexivity. Qed.
Lemma pow_m1_even : forall a, pow_m1 (a + a) = 1%Z.
Proof. intros. rewrite pow_m1_add. unfold pow_m1. destruct (Nat.odd a); reflexivity. Qed.
Lemma pow_m1_sgn : forall k, pow_m1 k = sgn (Nat.odd k).
Proof. reflexivity. Qed.

Lemma swaps_parity : forall k k' (l l' : list Z), NoDup l -> swaps k l l' -> swaps k' l l' -> pow_m1 k = pow_m1 k'.
Proof.
  intros k k' l l' N H H'. pose proof (swaps_inversions _ _ _ H N) as E. 
  pose proof (swaps_inversions _ _ _ H' N) as E'. unfold pow_m1.
  destruct (Nat.odd k), (Nat.odd k'); auto; rewrite E in E'; destruct (Nat.odd (inversions l')); discriminate.
Qed.

Lemma swaps_one : forall {A} l1 (a b : A) l2, swaps 1 (l1 ++ a :: b :: l2) (l1 ++ b :: a :: l2).
Proof. intros. constructor. constructor. Qed.

Lemma swaps_sym : forall {A} k (l l' : list A), swaps k l l' -> swaps k l' l.
Proof.
  induction 1 as [|k l1 a b l2 l' H IH]; [constructor|].
  replace (S k) with (k + 1) by lia. eapply swaps_trans; [exact IH|apply swaps_one].
Qed.

Lemma swaps_move : forall {A} (x : A) l, swaps (length l) (x :: l) (l ++ [x]).
Proof.
  induction l as [|y l IH]; [constructor|]. cbn [length app].
  apply (swaps_S (length l) [] x y l). simpl. now apply swaps_cons.
Qed.

(** ** flat *)
Lemma flat_app : forall a b, flat (a ++ b) = flat a ++ flat b.
Proof. induction a as [|[x y] a IH]; intros b; simpl; auto. now rewrite IH. Qed.
Lemma flat_perm : forall a b, Permutation a b -> Permutation (flat a) (flat b).
Proof.
  induction 1 as [|[x y] a b H IH|[x y] [z w] a|]; simpl; auto.
  - apply (Permutation_app_tail (flat a) (Permutation_app_comm [z; w] [x; y])).
  - etransitivity; eauto.
Qed.
Lemma flat_length : forall a, length (flat a) = 2 * length a.
Proof. induction a as [|[x y] a IH]; simpl; auto. rewrite IH. lia. Qed.
Lemma flat_In : forall ps x y, In (x, y) ps -> In x (flat ps) /\ In y (flat ps).
Proof.
  induction ps as [|[u v] ps IH]; intros x y; simpl; [tauto|].
  intros [[= -> ->]|H]; [tauto|]. apply IH in H. tauto.
Qed.
Lemma flat_In_inv : forall ps x, In x (flat ps) -> exists y, edge ps x y.
Proof.
  induction ps as [|[u v] ps IH]; intros x; simpl; [tauto|].
  intros [->|[->|H]].
  - exists v. left. now left.
  - exists u. right. now left.
  - apply IH in H as [y [H|H]]; exists y; [left|right]; now right.
Qed.

(** ** edge *)
Lemma edge_sym : forall ps x y, edge ps x y -> edge ps y x.
Proof. unfold edge. tauto. Qed.
Lemma edge_app : forall a b x y, edge (a ++ b) x y <-> edge a x y \/ edge b x y.
Proof. intros. unfold edge. rewrite !in_app_iff. tauto. Qed.
Lemma edge_cons : forall u v a x y,
  edge ((u, v) :: a) x y <-> (x = u /\ y = v) \/ (x = v /\ y = u) \/ edge a x y.
Proof.
  intros. unfold edge. simpl. split.
  - intros [[[= -> ->]|H]|[[= -> ->]|H]]; tauto.
  - intros [[-> ->]|[[-> ->]|[H|H]]]; tauto.
Qed.
Lemma edge_nil : forall x y, edge [] x y <-> False.
Proof. intros. unfold edge. simpl. tauto. Qed.
Lemma edge_perm : forall a b x y, Permutation a b -> edge a x y <-> edge b x y.
Proof. intros a b x y P. unfold edge. now rewrite !(Permutation_in' eq_refl P). Qed.
Lemma edge_in : forall ps x y, edge ps x y -> In x (flat ps) /\ In y (flat ps).
Proof. intros ps x y [H|H]; apply flat_In in H; tauto. Qed.
Lemma same_refl : forall a, same_matching a a.
Proof. intros a x y. tauto. Qed.
Lemma same_sym : forall a b, same_matching a b -> same_matching b a.
Proof. intros a b H x y. symmetry. apply H. Qed.
Lemma same_trans : forall a b c, same_matching a b -> same_matching b c -> same_matching a c.
Proof. intros a b c H1 H2 x y. rewrite (H1 x y). apply H2. Qed.
Lemma same_perm : forall a b, Permutation a b -> same_matching a b.
Proof. intros a b P x y. now apply edge_perm. Qed.

Lemma edge_split : forall ps x y, edge ps x y -> exists u v pre post,
  ps = pre ++ (u, v) :: post /\ ((u = x /\ v = y) \/ (u = y /\ v = x)).
Proof.
  intros ps x y [H|H]; apply in_split in H as (l1 & l2 & ->).
  - exists x, y, l1, l2. auto.
  - exists y, x, l1, l2. auto.
Qed.

(** partners are unique *)
Lemma partner_unique : forall ps x y z, NoDup (flat ps) -> edge ps x y -> edge ps x z -> y = z.
Proof.
  induction ps as [|[u v] ps IH]; intros x y z N H1 H2; [now apply edge_nil in H1|].
  simpl in N. inversion N as [|? ? N1 N2]; subst. inversion N2 as [|? ? N3 N4]; subst.
  apply edge_cons in H1, H2. simpl in N1.
  assert (A : forall w, edge ps u w -> False) by (intros w W; apply edge_in in W; tauto).
  assert (B : forall w, edge ps v w -> False) by (intros w W; apply edge_in in W; tauto).
  assert (u <> v) by (intros ->; apply N1; now left).
  destruct H1 as [[-> ->]|[[-> ->]|H1]], H2 as [[? ?]|[[? ?]|H2]]; subst; auto; try congruence;
    try (exfalso; eauto; fail). eapply IH; eauto.
Qed.

(** removing a pair *)
Lemma edge_remove : forall u v ps x y, NoDup (flat ((u, v) :: ps)) ->
  (edge ps x y <-> edge ((u, v) :: ps) x y /\ x <> u /\ x <> v).
Proof.
  intros u v ps x y N. rewrite edge_cons. simpl in N.
  inversion N as [|? ? N1 N2]; subst. inversion N2 as [|? ? N3 N4]; subst. simpl in N1. split.
  - intros H. pose proof (edge_in _ _ _ H) as [Hx Hy]. repeat split; auto; intros ->; tauto.
  - intros [[[-> _]|[[-> _]|H]] [A B]]; auto; congruence.
Qed.

(** ** extend *)
Lemma extend_In : forall a b sch s q, In q (cpm_extend a b (length sch) (sch, s)) <->
  q = (sch ++ [(a, b)], s) \/
  exists pre f g post, sch = pre ++ (f, g) :: post /\
    (q = (pre ++ [(f, a); (g, b)] ++ post, (- s)%Z) \/ q = (pre ++ [(f, b); (g, a)] ++ post, s)).
Proof.
  intros a b sch s q. unfold cpm_extend. cbn [In]. rewrite in_flat_map. 
  assert (Sp : forall pre f g post, sch = pre ++ (f, g) :: post ->
     nth (length pre) sch (0%Z, 0%Z) = (f, g) /\ firstn (length pre) sch = pre /\ skipn (length pre + 1) sch = post).
  { intros pre f g post ->. rewrite app_nth2, Nat.sub_diag by lia. split; auto.
    rewrite firstn_app, Nat.sub_diag, firstn_all, firstn_O, app_nil_r. split; auto.
    rewrite skipn_app, (skipn_all2 pre) by lia. replace (length pre + 1 - length pre) with 1 by lia. reflexivity. }
  split.
  - intros [<-|(i & Hi & H)]; [now left|]. right. apply in_rev, in_seq in Hi.
    destruct (nth_split sch (0%Z, 0%Z) (proj2 Hi)) as (l1 & l2 & E & L).
    destruct (nth i sch (0%Z, 0%Z)) as [f g] eqn:X. exists l1, f, g, l2. split; auto.
    destruct (Sp _ _ _ _ E) as (_ & S1 & S2). rewrite L in *. rewrite S1, S2 in H. cbn [fst snd] in H.
    destruct H as [<-|[<-|[]]]; auto.
  - intros [->|(pre & f & g & post & E & H)]; [now left|]. right.
    destruct (Sp _ _ _ _ E) as (S0 & S1 & S2). exists (length pre). split.
    + rewrite <- in_rev. apply in_seq. rewrite E, app_length. simpl. lia.
    + rewrite S0, S1, S2. cbn [fst snd]. destruct H as [->| ->]; [now left|right; now left].
Qed.

Lemma extend_flat : forall a b sch s q, In q (cpm_extend a b (length sch) (sch, s)) ->
  exists k, swaps k (flat (fst q)) (flat sch ++ [a; b]) /\ snd q = (s * pow_m1 k)%Z.
Proof.
  intros a b sch s q H. apply extend_In in H as [->|(pre & f & g & post & E & H)].
  - exists 0. cbn [fst snd]. rewrite flat_app. simpl. split; [constructor|]. unfold pow_m1. simpl. lia.
  - assert (Mv : forall (x y : Z) l, swaps (length l + length l) (x :: y :: l) (l ++ [x; y])).
    { intros x y l. eapply swaps_trans.
      - apply swaps_cons, swaps_move.
      - change (x :: l ++ [y]) with ((x :: l) ++ [y]). replace (l ++ [x; y]) with ((l ++ [x]) ++ [y]) by now rewrite <- app_assoc.
        apply swaps_app_r, swaps_move. }
    assert (Tail : swaps (length (flat post) + length (flat post)) (flat pre ++ f :: g :: a :: b :: flat post)
                   (flat sch ++ [a; b])).
    { rewrite E, flat_app. cbn [flat]. rewrite <- app_assoc. simpl. apply swaps_app_l.
      do 2 apply swaps_cons. apply Mv. }
    destruct H as [->| ->]; cbn [fst snd]; rewrite !flat_app; cbn [flat app].
    + exists (1 + (length (flat post) + length (flat post))). split.
      * eapply swaps_trans; [|exact Tail].
        replace (flat pre ++ f :: a :: g :: b :: flat post) with ((flat pre ++ [f]) ++ a :: g :: b :: flat post)
          by now rewrite <- app_assoc.
        replace (flat pre ++ f :: g :: a :: b :: flat post) with ((flat pre ++ [f]) ++ g :: a :: b :: flat post)
          by now rewrite <- app_assoc.
        apply swaps_one.
      * rewrite pow_m1_add, pow_m1_even. unfold pow_m1. simpl. lia.
    + exists (2 + (length (flat post) + length (flat post))). split.
      * eapply swaps_trans; [|exact Tail]. change 2 with (1 + 1).
        replace (flat pre ++ f :: b :: g :: a :: flat post) with ((flat pre ++ [f]) ++ b :: g :: a :: flat post)
          by now rewrite <- app_assoc.
        eapply swaps_trans; [apply swaps_one|].
        replace (((flat pre ++ [f]) ++ g :: b :: a :: flat post)) with ((flat pre ++ [f; g]) ++ b :: a :: flat post)
          by now rewrite <- !app_assoc.
        replace (flat pre ++ f :: g :: a :: b :: flat post) with ((flat pre ++ [f; g]) ++ a :: b :: flat post)
          by now rewrite <- app_assoc.
        apply swaps_one.
      * rewrite pow_m1_add, pow_m1_even. unfold pow_m1. simpl. lia.
Qed.

(** edges of the two kinds of extension *)
Definition fresh (a b : Z) (sch : list (Z * Z)) : Prop := NoDup (flat sch ++ [a; b]).

Lemma fresh_inv : forall a b sch, fresh a b sch ->
  NoDup (flat sch) /\ ~ In a (flat sch) /\ ~ In b (flat sch) /\ a <> b.
Proof.
  intros a b sch N. unfold fresh in N.
  assert (P : NoDup (a :: b :: flat sch)) by (eapply Permutation_NoDup; [apply (Permutation_app_comm (flat sch) [a; b])|]; exact N).
  inversion P as [|? ? P1 P2]; subst. inversion P2; subst. simpl in P1. repeat split; auto; intros X; apply P1; auto.
Qed.

(** the edges of the inner scheme can be read off the extended scheme *)
Lemma extend_reduce : forall a b sch s q, fresh a b sch ->
  In q (cpm_extend a b (length sch) (sch, s)) ->
  forall x y, edge sch x y <->
    (x <> a /\ x <> b /\ y <> a /\ y <> b) /\
    (edge (fst q) x y \/ (edge (fst q) x a /\ edge (fst q) y b) \/ (edge (fst q) x b /\ edge (fst q) y a)).
Proof.
  intros a b sch s q Fr H x y. apply fresh_inv in Fr as (N & Na & Nb & Nab).
  assert (Out : forall x y, edge sch x y -> x <> a /\ x <> b /\ y <> a /\ y <> b).
  { intros u v W. apply edge_in in W as [W1 W2]. repeat split; intros ->; contradiction. }
  apply extend_In in H as [->|(pre & f & g & post & E & H)]; cbn [fst].
  - rewrite !edge_app, !edge_cons, !edge_nil. split.
    + intros W. split; [now apply Out|]. tauto.
    + intros [(A & B & C & D) [[W|[[-> _]|[[-> _]|[]]]]|[[[W|[[-> _]|[[-> _]|[]]]] _]|[[W|[[-> _]|[[-> _]|[]]]] _]]]];
        auto; try congruence; apply Out in W; tauto.
  - assert (Nfg : NoDup (flat ((f, g) :: pre ++ post))).
    { eapply Permutation_NoDup; [|exact N]. apply flat_perm. rewrite E. symmetry. apply Permutation_middle. }
    assert (Ea : forall u, edge (pre ++ post) u a -> False).
    { intros u W. assert (edge sch u a). { rewrite E. rewrite edge_app, edge_cons. apply edge_app in W. tauto. }
      apply Out in H0. tauto. }
    assert (Eb : forall u, edge (pre ++ post) u b -> False).
    { intros u W. assert (edge sch u b). { rewrite E. rewrite edge_app, edge_cons. apply edge_app in W. tauto. }
      apply Out in H0. tauto. }
    assert (Efg : edge sch f g). { rewrite E, edge_app, edge_cons. tauto. }
    destruct (Out _ _ Efg) as (fa & fb & ga & gb).
    assert (Sx : edge sch x y <-> edge (pre ++ post) x y \/ (x = f /\ y = g) \/ (x = g /\ y = f)).
    { rewrite E, !edge_app, edge_cons. tauto. }
    rewrite Sx.
    assert (Q : exists u v, (fst q = pre ++ [(f, u); (g, v)] ++ post) /\ ((u = a /\ v = b) \/ (u = b /\ v = a))).
    { destruct H as [->| ->]; cbn [fst]; eauto 6. }
    destruct Q as (u & v & Eq & UV).
    assert (Ed : forall x y, edge (fst q) x y <-> edge (pre ++ post) x y \/
       (x = f /\ y = u) \/ (x = u /\ y = f) \/ (x = g /\ y = v) \/ (x = v /\ y = g)).
    { intros x0 y0. rewrite Eq, !edge_app, !edge_cons, edge_nil. tauto. }
    rewrite !Ed. split.
    + intros [W|[[-> ->]|[-> ->]]].
      * split; [|tauto]. apply Out. rewrite E, edge_app, edge_cons. apply edge_app in W. tauto.
      * split; [auto|]. destruct UV as [[-> ->]|[-> ->]]; tauto.
      * split; [auto|]. destruct UV as [[-> ->]|[-> ->]]; tauto.
    + intros [(A & B & C & D) W].
      destruct UV as [[-> ->]|[-> ->]]; destruct W as [[W|[[-> ->]|[[-> ->]|[[-> ->]|[-> ->]]]]]|[[W1 W2]|[W1 W2]]];
        try congruence; auto;
        (destruct W1 as [W1|[[? ?]|[[? ?]|[[? ?]|[? ?]]]]];
         [exfalso; now eauto|..]; subst; try congruence;
         destruct W2 as [W2|[[? ?]|[[? ?]|[[? ?]|[? ?]]]]];
         [exfalso; now eauto|..]; subst; try congruence; tauto).
Qed.

(** distinct entries from distinct keys *)
Lemma distinct_by_key : forall {A K} (R : A -> A -> Prop) (P : A -> K -> Prop) l ks,
  Forall2 P l ks -> NoDup ks ->
  (forall x y k k', P x k -> P y k' -> R x y -> k = k') -> pairwise_distinct R l.
Proof.
  intros A K R P l ks F. induction F as [|x k l ks H F IH]; intros N U; [constructor|].
  inversion N; subst. constructor; [|now apply IH].
  rewrite Forall_forall. intros y Hy Rxy.
  assert (G : exists k', In k' ks /\ P y k').
  { clear - F Hy. induction F as [|u v l ks H F IH]; [destruct Hy|]. destruct Hy as [->|Hy]; [exists v; split; [now left|auto]|].
    apply IH in Hy as (k' & ? & ?). exists k'. split; auto. now right. }
  destruct G as (k' & Hk & Py). rewrite (U _ _ _ _ H Py Rxy) in *. contradiction.
Qed.

Lemma distinct_app : forall {A} (R : A -> A -> Prop) l1 l2, pairwise_distinct R l1 -> pairwise_distinct R l2 ->
  (forall x y, In x l1 -> In y l2 -> ~ R x y) -> pairwise_distinct R (l1 ++ l2).
Proof.
  intros A R l1 l2 H1 H2 D. induction H1 as [|x l1 F H IH]; auto. simpl. constructor.
  - rewrite Forall_forall in *. intros y Hy. apply in_app_or in Hy as [Hy|Hy]; auto. apply D; auto. now left.
  - apply IH. intros; apply D; auto. now right.
Qed.

Lemma distinct_flat_map : forall {A B} (R : B -> B -> Prop) (S : A -> A -> Prop) (f : A -> list B) l,
  pairwise_distinct S l -> (forall x, In x l -> pairwise_distinct R (f x)) ->
  (forall x y u v, In x l -> In y l -> In u (f x) -> In v (f y) -> R u v -> S x y) ->
  pairwise_distinct R (flat_map f l).
Proof.
  intros A B R S f l H. induction H as [|x l F H IH]; intros Hf D; simpl; [constructor|].
  apply distinct_app.
  - apply Hf. now left.
  - apply IH.
    + intros; apply Hf; now right.
    + intros; eapply D; eauto; now right.
  - intros u v Hu Hv Ruv. apply in_flat_map in Hv as (y & Hy & Hv). rewrite Forall_forall in F.
    apply (F y Hy). eapply D; eauto; [now left|now right].
Qed.

Definition same_p (p q : scheme * Z) : Prop := same_matching (fst p) (fst q).

Lemma extend_distinct : forall a b sch s, fresh a b sch ->
  pairwise_distinct same_p (cpm_extend a b (length sch) (sch, s)).
Proof.
  intros a b sch s Fr.
  set (keys := b :: flat_map (fun i => [fst (nth i sch (0, 0)%Z); snd (nth i sch (0, 0)%Z)]) (rev (seq 0 (length sch)))).
  apply (distinct_by_key same_p (fun q k => NoDup (flat (fst q)) /\ edge (fst q) a k) _ keys).
  - assert (ND : forall q, In q (cpm_extend a b (length sch) (sch, s)) -> NoDup (flat (fst q))).
    { intros q Hq. apply extend_flat in Hq as (k & Hk & _). apply swaps_perm in Hk.
      eapply Permutation_NoDup; [symmetry; exact Hk|exact Fr]. }
    unfold cpm_extend, keys in *. constructor.
    + split; [apply ND; now left|]. cbn [fst]. rewrite edge_app, edge_cons. tauto.
    + assert (I : forall i, In i (rev (seq 0 (length sch))) -> i < length sch).
      { intros i Hi. apply in_rev, in_seq in Hi. lia. }
      assert (ND' : forall q, In q (flat_map (fun i => [
         (firstn i sch ++ [(fst (nth i sch (0%Z, 0%Z)), a); (snd (nth i sch (0%Z, 0%Z)), b)] ++ skipn (i + 1) sch, (- s)%Z);
         (firstn i sch ++ [(fst (nth i sch (0%Z, 0%Z)), b); (snd (nth i sch (0%Z, 0%Z)), a)] ++ skipn (i + 1) sch, s)])
          (rev (seq 0 (length sch)))) -> NoDup (flat (fst q))).
      { intros q Hq. apply ND. now right. }
      clear ND. induction (rev (seq 0 (length sch))) as [|i l IH]; [constructor|].
      cbn [flat_map] in *. simpl app. constructor; [|constructor].
      * split; [apply ND'; now left|]. cbn [fst]. rewrite edge_app. right. simpl app. rewrite edge_cons. tauto.
      * split; [apply ND'; right; now left|]. cbn [fst]. rewrite edge_app. right. simpl app. rewrite !edge_cons. tauto.
      * apply IH; [intros; apply I; now right|]. intros q Hq. apply ND'. right. now right.
  - unfold keys.
    assert (P : Permutation (flat_map (fun i => [fst (nth i sch (0, 0)%Z); snd (nth i sch (0, 0)%Z)]) (rev (seq 0 (length sch)))) (flat sch)).
    { transitivity (flat_map (fun i => [fst (nth i sch (0, 0)%Z); snd (nth i sch (0, 0)%Z)]) (seq 0 (length sch))).
      - apply Permutation_flat_map. symmetry. apply Permutation_rev.
      - clear. assert (E : forall n l, n + length l <= n + length l -> 
           flat_map (fun i => [fst (nth (i - n) l (0, 0)%Z); snd (nth (i - n) l (0, 0)%Z)]) (seq n (length l)) = flat l).
        { intros n l _. revert n. induction l as [|[x y] l IH]; intros n; auto. cbn [length seq flat_map flat].
          rewrite Nat.sub_diag. cbn [nth fst snd]. simpl app. do 2 f_equal. rewrite <- (IH (S n)).
          rewrite !flat_map_concat_map. f_equal. apply map_ext_in. intros i Hi. apply in_seq in Hi.
          replace (i - n) with (S (i - S n)) by lia. reflexivity. }
        rewrite <- (E 0 sch) at 1 by lia. rewrite !flat_map_concat_map.
        replace (map (fun i => [fst (nth i sch (0, 0)%Z); snd (nth i sch (0, 0)%Z)]) (seq 0 (length sch)))
          with (map (fun i => [fst (nth (i - 0) sch (0, 0)%Z); snd (nth (i - 0) sch (0, 0)%Z)]) (seq 0 (length sch))); [reflexivity|].
        apply map_ext. intros i. now rewrite Nat.sub_0_r. }
    apply fresh_inv in Fr as (N & Na & Nb & Nab). constructor.
    + intros X. apply Nb. eapply Permutation_in; eauto.
    + eapply Permutation_NoDup; [symmetry; exact P|auto].
  - intros p q k k' [N1 E1] [N2 E2] S. apply S in E1. eapply partner_unique; eauto.
Qed.

Lemma extend_complete : forall a b L ps, NoDup (L ++ [a; b]) -> perfect (L ++ [a; b]) ps ->
  exists ps', perfect L ps' /\ forall sch s, perfect L sch -> same_matching ps' sch ->
    exists q, In q (cpm_extend a b (length sch) (sch, s)) /\ same_matching ps (fst q).
Proof.
  intros a b L ps N P. unfold perfect in P.
  assert (Nps : NoDup (flat ps)) by (eapply Permutation_NoDup; [symmetry; exact P|auto]).
  assert (Nab : ~ In a L /\ ~ In b L /\ a <> b /\ NoDup L).
  { assert (Q : NoDup (a :: b :: L)) by (eapply Permutation_NoDup; [apply (Permutation_app_comm L [a; b])|]; exact N).
    inversion Q as [|? ? P1 P2]; subst. inversion P2; subst. simpl in P1.
    repeat split; auto; intros X; apply P1; auto. }
  destruct Nab as (Na & Nb & Nab & NL).
  assert (Ina : In a (flat ps)) by (eapply Permutation_in; [symmetry; exact P|apply in_or_app; right; now left]).
  assert (Inb : In b (flat ps)) by (eapply Permutation_in; [symmetry; exact P|apply in_or_app; right; right; now left]).
  apply flat_In_inv in Ina as [y Ey]. apply flat_In_inv in Inb as [z Ez].
  destruct (Z.eq_dec y b) as [->|Hyb].
  - (* a - b is an edge *)
    destruct (edge_split _ _ _ Ey) as (u & v & pre & post & E & UV).
    exists (pre ++ post).
    assert (Pp : Permutation ps ((u, v) :: pre ++ post)) by (rewrite E; symmetry; apply Permutation_middle).
    split.
    + unfold perfect. apply (Permutation_app_inv_l [a; b]).
      rewrite (Permutation_app_comm [a; b] L), <- P. rewrite (flat_perm _ _ Pp). cbn [flat].
      destruct UV as [[-> ->]|[-> ->]]; [apply Permutation_refl|apply perm_swap].
    + intros sch s Hs S. exists (sch ++ [(a, b)], s). split; [apply extend_In; now left|].
      intros x w. cbn [fst]. rewrite (edge_perm _ _ _ _ Pp), edge_app, !edge_cons, edge_nil, (S x w).
      destruct UV as [[-> ->]|[-> ->]]; tauto.
  - (* a - y and b - z *)
    assert (Hza : z <> a).
    { intros ->. apply edge_sym in Ez. pose proof (partner_unique _ _ _ _ Nps Ey Ez). congruence. }
    destruct (edge_split _ _ _ Ey) as (u & v & pre & post & E & UV).
    assert (Pp : Permutation ps ((u, v) :: pre ++ post)) by (rewrite E; symmetry; apply Permutation_middle).
    assert (N1 : NoDup (flat ((u, v) :: pre ++ post))) by (eapply Permutation_NoDup; [apply flat_perm; exact Pp|auto]).
    assert (Hyz : y <> z).
    { intros ->. apply edge_sym in Ez, Ey. pose proof (partner_unique _ _ _ _ Nps Ez Ey). congruence. }
    assert (Ez' : edge (pre ++ post) b z).
    { apply (edge_remove u v); auto. split; [now apply (edge_perm _ _ _ _ Pp)|].
      destruct UV as [[-> ->]|[-> ->]]; split; congruence. }
    destruct (edge_split _ _ _ Ez') as (u' & v' & pre' & post' & E' & UV').
    set (rest := pre' ++ post') in *.
    assert (Pp' : Permutation (pre ++ post) ((u', v') :: rest)) by (rewrite E'; symmetry; apply Permutation_middle).
    assert (Pq : Permutation ps ((u, v) :: (u', v') :: rest)) by (rewrite Pp; now constructor).
    assert (Pf : Permutation (flat ps) (a :: y :: b :: z :: flat rest)).
    { rewrite (flat_perm _ _ Pq). cbn [flat].
      assert (X1 : Permutation (u :: v :: u' :: v' :: flat rest) (a :: y :: u' :: v' :: flat rest)).
      { destruct UV as [[-> ->]|[-> ->]]; [apply Permutation_refl|apply perm_swap]. }
      rewrite X1. do 2 constructor.
      destruct UV' as [[-> ->]|[-> ->]]; [apply Permutation_refl|apply perm_swap]. }
    exists ((y, z) :: rest). split.
    + unfold perfect. apply (Permutation_app_inv_l [a; b]).
      rewrite (Permutation_app_comm [a; b] L), <- P, Pf. cbn [flat app]. constructor. apply perm_swap.
    + intros sch s Hs S.
      assert (Ns : NoDup (flat sch)) by (eapply Permutation_NoDup; [symmetry; exact Hs|auto]).
      assert (Nyz : NoDup (flat ((y, z) :: rest))).
      { assert (Q : NoDup (a :: y :: b :: z :: flat rest)) by (eapply Permutation_NoDup; eauto).
        inversion Q as [|? ? Q1 Q2]; subst. cbn [flat]. inversion Q2 as [|? ? Q3 Q4]; subst.
        inversion Q4 as [|? ? Q5 Q6]; subst. constructor; auto. intros X. apply Q3. now right. }
      assert (Esch : edge sch y z) by (apply S; rewrite edge_cons; tauto).
      destruct (edge_split _ _ _ Esch) as (f & g & pr & po & Es & FG).
      assert (Pps : Permutation sch ((f, g) :: pr ++ po)) by (rewrite Es; symmetry; apply Permutation_middle).
      assert (Nfg : NoDup (flat ((f, g) :: pr ++ po))) by (eapply Permutation_NoDup; [apply flat_perm; exact Pps|auto]).
      assert (Rest : forall x w, edge (pr ++ po) x w <-> edge rest x w).
      { intros x w. rewrite (edge_remove f g (pr ++ po) x w Nfg), (edge_remove y z rest x w Nyz).
        rewrite <- (edge_perm _ _ x w Pps). rewrite (S x w).
        destruct FG as [[-> ->]|[-> ->]]; tauto. }
      assert (Ips : forall x w, edge ps x w <-> (x = a /\ w = y) \/ (x = y /\ w = a) \/
                (x = b /\ w = z) \/ (x = z /\ w = b) \/ edge rest x w).
      { intros x w. rewrite (edge_perm _ _ x w Pq), !edge_cons.
        destruct UV as [[-> ->]|[-> ->]], UV' as [[-> ->]|[-> ->]]; tauto. }
      destruct FG as [[-> ->]|[-> ->]].
      * exists (pr ++ [(y, a); (z, b)] ++ po, (- s)%Z). split.
        -- apply extend_In. right. exists pr, y, z, po. auto.
        -- intros x w. rewrite Ips. cbn [fst]. rewrite !edge_app, !edge_cons, edge_nil.
           rewrite <- Rest, edge_app. tauto.
      * exists (pr ++ [(z, b); (y, a)] ++ po, s). split.
        -- apply extend_In. right. exists pr, z, y, po. auto.
        -- intros x w. rewrite Ips. cbn [fst]. rewrite !edge_app, !edge_cons, edge_nil.
           rewrite <- Rest, edge_app. tauto.
Qed.

(** ** the recursion *)
Lemma cpm_rev_step : forall a b t sign,
  cpm_rev (b :: a :: t) sign = flat_map (cpm_extend a b (Nat.div (S (S (length t))) 2 - 1)) (cpm_rev t sign).
Proof. intros a b [|c t] sign; reflexivity. Qed.

Lemma cpm_rev_spec : forall h t sign, length t = 2 * h -> NoDup t ->
  let out := cpm_rev t sign in let L := rev t in
  (forall p, In p out -> length (fst p) = h /\
     exists k, swaps k (flat (fst p)) L /\ snd p = (sign * pow_m1 k)%Z) /\
  (forall ps, perfect L ps -> exists p, In p out /\ same_matching ps (fst p)) /\
  pairwise_distinct same_p out /\ length out = double_fact h.
Proof.
  induction h as [|h IH]; intros t sign Lt N out L.
  - destruct t; [|discriminate]. subst out L. cbn. repeat split; auto.
    + destruct H as [<-|[]]. reflexivity.
    + destruct H as [<-|[]]. exists 0. simpl. split; [constructor|]. unfold pow_m1. simpl. lia.
    + intros ps P. apply Permutation_sym, Permutation_nil in P. exists ([], sign). split; auto.
      destruct ps as [|[x y] ps]; [apply same_refl|discriminate].
    + repeat constructor.
  - destruct t as [|b [|a t]]; cbn [length] in Lt; try lia.
    inversion N as [|? ? N1 N2]; subst. inversion N2 as [|? ? N3 N4]; subst.
    assert (Lt' : length t = 2 * h) by lia.
    destruct (IH t sign Lt' N4) as (I1 & I2 & I3 & I4).
    assert (Hh : Nat.div (S (S (length t))) 2 - 1 = h).
    { rewrite Lt'. replace (S (S (2 * h))) with (2 * (S h)) by lia. rewrite Nat.mul_comm, Nat.div_mul by lia. lia. }
    subst out L. rewrite cpm_rev_step, Hh. cbn [rev]. rewrite <- app_assoc. simpl app.
    assert (NL : NoDup (rev t ++ [a; b])).
    { eapply Permutation_NoDup; [|exact N]. rewrite (Permutation_app_comm (rev t)). simpl.
      rewrite perm_swap. do 2 constructor. apply Permutation_rev. }
    assert (Fr : forall p, In p (cpm_rev t sign) -> fresh a b (fst p)).
    { intros p Hp. destruct (I1 p Hp) as (_ & k & Hk & _). unfold fresh. apply swaps_perm in Hk.
      eapply Permutation_NoDup; [|exact NL]. apply Permutation_app_tail. now symmetry. }
    split; [|split; [|split]].
    + intros q Hq. apply in_flat_map in Hq as ([sch s] & Hp & Hq). destruct (I1 _ Hp) as (Ls & k & Hk & Es).
      cbn [fst snd] in *. rewrite <- Ls in Hq. split.
      * apply extend_In in Hq as [->|(pre & f & g & post & E & [->| ->])]; cbn [fst].
        -- rewrite app_length. simpl. lia.
        -- rewrite E, !app_length in Ls. rewrite !app_length. simpl in *. lia.
        -- rewrite E, !app_length in Ls. rewrite !app_length. simpl in *. lia.
      * apply extend_flat in Hq as (k' & Hk' & Eq). exists (k' + k). split.
        -- eapply swaps_trans; [exact Hk'|]. now apply swaps_app_r.
        -- rewrite Eq, Es, pow_m1_add. lia.
    + intros ps P. destruct (extend_complete a b (rev t) ps NL P) as (ps' & P' & K).
      destruct (I2 ps' P') as ([sch s] & Hp & S). destruct (I1 _ Hp) as (Ls & k & Hk & _). cbn [fst snd] in *.
      destruct (K sch s (swaps_perm _ _ _ Hk) S) as (q & Hq & Sq). exists q. split; auto.
      apply in_flat_map. exists (sch, s). split; auto. now rewrite <- Ls.
    + eapply distinct_flat_map; [exact I3| |].
      * intros [sch s] Hp. destruct (I1 _ Hp) as (Ls & _). cbn [fst] in Ls. rewrite <- Ls.
        apply extend_distinct. exact (Fr _ Hp).
      * intros [sch s] [sch' s'] u v Hp Hp' Hu Hv R.
        destruct (I1 _ Hp) as (Ls & _). destruct (I1 _ Hp') as (Ls' & _). cbn [fst] in *.
        rewrite <- Ls in Hu. rewrite <- Ls' in Hv.
        intros x y. cbn [fst].
        rewrite (extend_reduce a b sch s u (Fr _ Hp) Hu x y), (extend_reduce a b sch' s' v (Fr _ Hp') Hv x y).
        rewrite (R x y), (R x a), (R y b), (R x b), (R y a). tauto.
    + assert (Lf : forall l, (forall p, In p l -> length (fst p) = h) ->
          length (flat_map (cpm_extend a b h) l) = length l * (2 * h + 1)).
      { clear. induction l as [|[sch s] l IH]; intros H; auto. cbn [flat_map length].
        rewrite app_length, IH by (intros; apply H; now right).
        assert (X : forall l', length (flat_map (fun i => [
         (firstn i sch ++ [(fst (nth i sch (0%Z, 0%Z)), a); (snd (nth i sch (0%Z, 0%Z)), b)] ++ skipn (i + 1) sch, (- s)%Z);
         (firstn i sch ++ [(fst (nth i sch (0%Z, 0%Z)), b); (snd (nth i sch (0%Z, 0%Z)), a)] ++ skipn (i + 1) sch, s)]) l') = 2 * length l').
        { induction l' as [|i l' IH']; auto. cbn [flat_map]. rewrite app_length, IH'. simpl. lia. }
        unfold cpm_extend at 1. cbn [length]. rewrite X, rev_length, seq_length. lia. }
      rewrite (Lf (cpm_rev t sign)) by (intros p Hp; now apply I1). change (length (cpm_rev t sign)) with (length (cpm_rev t sign)) in *. rewrite I4. cbn [double_fact]. lia.
Qed.
