From Coq Require Import List ZArith Bool Lia Arith Permutation Sorted.
From Verif Require Import Py Slater SignSpec SignLemmas Graphs MatchSpec MatchLemmas GraphSpec BicliqueLemmas BicliqueMain.
Import ListNotations.

(** adjacency on a list of labelled vertices *)
Definition vadj (vs : list (nat * Z)) (conn : nat -> nat -> bool) (x y : Z) : Prop :=
  exists i j, In (i, x) vs /\ In (j, y) vs /\ conn i j = true.

(** all pairs but the last are edges *)
Definition edges_but_last (E : Z -> Z -> Prop) (ps : list (Z * Z)) : Prop :=
  forall x y, In (x, y) (removelast ps) -> E x y.

Lemma listed_perfect : forall L ps, listed L ps -> perfect L ps.
Proof.
  induction 1 as [|v l1 w l2 ps H IH]; unfold perfect in *; simpl; auto.
  constructor. rewrite IH. apply Permutation_middle.
Qed.

Lemma listed_length : forall L ps, listed L ps -> length L = 2 * length ps.
Proof. intros L ps H. apply listed_perfect, Permutation_length in H. rewrite flat_length in H. auto. Qed.

(** every perfect matching can be listed in this way *)
Lemma listed_exists : forall m L ps, length L <= m -> NoDup L -> perfect L ps -> exists qs, listed L qs /\ same_matching ps qs.
Proof.
  induction m as [|m IH]; intros L ps Lm N P.
  - destruct L; [|simpl in Lm; lia]. apply Permutation_sym, Permutation_nil in P.
    destruct ps as [|[? ?] ?]; [|discriminate]. exists []. split; [constructor|apply same_refl].
  - destruct L as [|v rest].
    { apply Permutation_sym, Permutation_nil in P.
      destruct ps as [|[? ?] ?]; [|discriminate]. exists []. split; [constructor|apply same_refl]. }
    assert (Nf : NoDup (flat ps)) by (eapply Permutation_NoDup; [symmetry; exact P|auto]).
    assert (Hv : In v (flat ps)) by (eapply Permutation_in; [symmetry; exact P|now left]).
    apply flat_In_inv in Hv as [w Ew]. destruct (edge_split _ _ _ Ew) as (a & b & pre & post & E & AB).
    assert (Pp : Permutation ps ((a, b) :: pre ++ post)) by (rewrite E; symmetry; apply Permutation_middle).
    assert (P' : Permutation (v :: w :: flat (pre ++ post)) (v :: rest)).
    { rewrite <- P, (flat_perm _ _ Pp). cbn [flat]. destruct AB as [[-> ->]|[-> ->]]; [reflexivity|apply perm_swap]. }
    apply Permutation_cons_inv in P'.
    assert (Hw : In w rest) by (eapply Permutation_in; [exact P'|now left]).
    apply in_split in Hw as (l1 & l2 & ->). apply Permutation_cons_app_inv in P'.
    inversion N as [|? ? N1 N2]; subst. apply NoDup_remove_1 in N2.
    destruct (IH (l1 ++ l2) (pre ++ post)) as (qs & Hq & Sq); auto.
    { simpl in Lm. rewrite app_length in *. simpl in Lm. lia. }
    exists ((v, w) :: qs). split; [now constructor|].
    intros x y. rewrite (edge_perm _ _ _ _ Pp), !edge_cons, (Sq x y).
    destruct AB as [[-> ->]|[-> ->]]; tauto.
Qed.

Lemma NoDup_split_unique : forall {A} (x : A) l1 l2 m1 m2, NoDup (l1 ++ x :: l2) ->
  l1 ++ x :: l2 = m1 ++ x :: m2 -> l1 = m1 /\ l2 = m2.
Proof.
  induction l1 as [|a l1 IH]; intros l2 [|b m1] m2 N E; simpl in *.
  - injection E as ->. auto.
  - injection E as -> ->. inversion N; subst. exfalso. apply H1. apply in_or_app. right. now left.
  - injection E as -> E. inversion N; subst. exfalso. apply H1. apply in_or_app. right. now left.
  - injection E as -> E. inversion N; subst. destruct (IH _ _ _ H2 E) as [-> ->]. auto.
Qed.

Lemma listed_unique : forall L ps qs, NoDup L -> listed L ps -> listed L qs -> same_matching ps qs -> ps = qs.
Proof.
  intros L ps qs N H. revert N qs. induction H as [|v l1 w l2 ps H IH]; intros N qs Hq Sm.
  - inversion Hq; auto.
  - inversion Hq as [|v' m1 w' m2 qs' Hq' E]; subst.
    assert (Nq : NoDup (flat ((v, w) :: ps))).
    { eapply Permutation_NoDup; [symmetry; apply listed_perfect; constructor; exact H|exact N]. }
    assert (Nq' : NoDup (flat ((v, w') :: qs'))).
    { eapply Permutation_NoDup; [symmetry; apply listed_perfect; exact Hq|exact N]. }
    assert (w' = w).
    { assert (E1 : edge ((v, w') :: qs') v w) by (apply Sm; rewrite edge_cons; tauto).
      eapply (partner_unique ((v, w') :: qs')); eauto. rewrite edge_cons. tauto. }
    subst w'. inversion N as [|? ? N1 N2]; subst. symmetry in H0.
    destruct (NoDup_split_unique w _ _ _ _ N2 H0) as [<- <-]. f_equal.
    apply IH; auto.
    + now apply NoDup_remove_1 in N2.
    + intros x y. rewrite (edge_remove v w ps x y Nq), (edge_remove v w qs' x y Nq'), (Sm x y). tauto.
Qed.

Lemma filter_remove_split : forall (l1 l2 : list (nat * Z)) (v w : nat * Z), NoDup (snd v :: map snd (l1 ++ w :: l2)) ->
  filter (fun u => negb (Z.eqb (snd u) (snd v) || Z.eqb (snd u) (snd w))) (l1 ++ w :: l2) = l1 ++ l2.
Proof.
  intros l1 l2 v w N. inversion N as [|? ? N1 N2]; subst. rewrite map_app in N1, N2. simpl in N1, N2.
  rewrite filter_app. cbn [filter]. rewrite Z.eqb_refl, orb_true_r. cbn [negb].
  assert (F : forall l, (forall u, In u l -> In u (l1 ++ l2)) ->
    filter (fun u => negb (Z.eqb (snd u) (snd v) || Z.eqb (snd u) (snd w))) l = l).
  { intros l Hl. apply filter_all_true. intros u Hu. apply negb_true_iff, orb_false_iff.
    assert (Iu : In (snd u) (map snd l1 ++ map snd l2)) by (rewrite <- map_app; now apply in_map, Hl).
    split; apply Z.eqb_neq; intros X.
    - apply N1. rewrite <- X. apply in_app_or in Iu as [I|I]; apply in_or_app; [now left|right; now right].
    - apply NoDup_remove_2 in N2. apply N2. now rewrite <- X. }
  rewrite !F; auto; intros; apply in_or_app; auto.
Qed.

Lemma vadj_sub : forall vs vs' conn x y, NoDup (map snd vs) -> (forall u, In u vs' -> In u vs) ->
  In x (map snd vs') -> In y (map snd vs') -> (vadj vs conn x y <-> vadj vs' conn x y).
Proof.
  intros vs vs' conn x y N Sub Hx Hy.
  assert (U : forall i z, In (i, z) vs -> In z (map snd vs') -> In (i, z) vs').
  { intros i z H1 H2. apply in_map_iff in H2 as ([i' z'] & <- & H3). cbn [snd] in *.
    assert (H4 := Sub _ H3). replace i with i'; auto.
    clear - N H1 H4. induction vs as [|u vs IH]; [destruct H1|]. simpl in N. inversion N; subst.
    destruct H1 as [->|H1], H4 as [E|H4]; auto.
    - now injection E.
    - exfalso. apply H2. apply in_map_iff. exists (i', z'). auto.
    - subst u. exfalso. apply H2. apply in_map_iff. exists (i, z'). auto. }
  split; intros (i & j & A & B & C); exists i, j; auto.
Qed.

Lemma sorted_perm_eq : forall la lb, StronglySorted Z.lt la -> StronglySorted Z.lt lb -> Permutation la lb -> la = lb.
Proof.
  intros la lb Soa. revert lb. induction Soa as [|x la Soa IH F]; intros lb Sob P.
  - apply Permutation_nil in P. auto.
  - destruct lb as [|y lb]; [symmetry in P; apply Permutation_nil in P; discriminate|].
    inversion Sob; subst.
    assert (x = y).
    { assert (In x (y :: lb)) by (eapply Permutation_in; [exact P|now left]).
      assert (In y (x :: la)) by (eapply Permutation_in; [symmetry; exact P|now left]).
      rewrite Forall_forall in *. destruct H as [|H]; auto. destruct H0 as [|H0]; auto.
      specialize (F _ H0). specialize (H2 _ H). lia. }
    subst. f_equal. apply IH; auto. eapply Permutation_cons_inv; eauto.
Qed.

Lemma swaps_exist : forall (l l' : list Z), NoDup l -> Permutation l l' -> exists k, swaps k l l'.
Proof.
  intros l l' N P. destruct (signature_exists l N) as (a & la & Sa & Soa & _).
  destruct (signature_exists l') as (b & lb & Sb & Sob & _); [eapply Permutation_NoDup; eauto|].
  assert (la = lb); [|subst; exists (a + b); eapply swaps_trans; [exact Sa|now apply swaps_sym]].
  apply sorted_perm_eq; auto. apply swaps_perm in Sa, Sb. now rewrite <- Sa, <- Sb.
Qed.

Lemma general_spec : forall fuel vs conn, length vs <= fuel -> NoDup (map snd vs) ->
  (forall ps s, In (ps, s) (general_pmatch fuel vs conn) <->
     ps <> [] /\ listed (map snd vs) ps /\ edges_but_last (vadj vs conn) ps /\
     exists k, swaps k (flat ps) (map snd vs) /\ s = pow_m1 k).
Proof.
  induction fuel as [|f IH]; intros vs conn Lf N ps s.
  { destruct vs; [|simpl in Lf; lia]. simpl. split; [tauto|]. intros (Ne & H & _). inversion H; subst; congruence. }
  destruct vs as [|v [|w0 [|w1 rest]]].
  - simpl. split; [tauto|]. intros (Ne & H & _). inversion H; subst; congruence.
  - simpl. split; [tauto|]. intros (Ne & H & _). apply listed_length in H. simpl in H. lia.
  - cbn [general_pmatch In map snd]. split.
    + intros [[= <- <-]|[]]. split; [discriminate|]. split; [|split].
      * apply (listed_cons (snd v) [] (snd w0) []). constructor.
      * intros x y [].
      * exists 0. split; [constructor|reflexivity].
    + intros (Ne & H & _ & k & Sw & ->). left.
      inversion H as [|v' l1 w l2 ps' H' E]; subst.
      apply elt_eq_unit in H0 as (-> & -> & ->).
      inversion H'; subst. f_equal.
      simpl in Sw. rewrite <- (swaps_parity 0 k _ _ N (swaps_0 _) Sw). reflexivity.
  - set (rs := w0 :: w1 :: rest) in *. set (vs := v :: rs) in *.
    change (general_pmatch (S f) vs conn) with (flat_map (fun j =>
            let w := nth j rs (0, 0%Z) in
            if conn (fst v) (fst w) then
              let rem := filter (fun u => negb (Z.eqb (snd u) (snd v) || Z.eqb (snd u) (snd w))) rs in
              map (fun p => ((snd v, snd w) :: fst p, (sgn (Nat.odd j) * snd p)%Z))
                  (general_pmatch f rem conn)
            else []) (seq 0 (length rs))).
    rewrite in_flat_map.
    assert (Step : forall l1 w l2, rs = l1 ++ w :: l2 ->
       filter (fun u => negb (Z.eqb (snd u) (snd v) || Z.eqb (snd u) (snd w))) rs = l1 ++ l2 /\
       NoDup (map snd (l1 ++ l2)) /\ length (l1 ++ l2) <= f /\ l1 ++ l2 <> [] /\
       (forall u, In u (l1 ++ l2) -> In u vs) /\
       map snd vs = snd v :: map snd l1 ++ snd w :: map snd l2).
    { intros l1 w l2 E. unfold vs in *. rewrite E in *. cbn [map] in N.
      assert (Lr : 2 <= length (l1 ++ w :: l2)) by (rewrite <- E; unfold rs; simpl; lia).
      split; [now apply filter_remove_split|]. split.
      { inversion N; subst. rewrite map_app in *. simpl in *. now apply NoDup_remove_1 in H2. }
      split; [simpl in Lf; rewrite app_length in *; simpl in *; lia|]. split.
      { intros X. apply app_eq_nil in X as [-> ->]. simpl in Lr. lia. }
      split; [intros u Hu; right; apply in_or_app; apply in_app_or in Hu as [Hu|Hu]; [now left|right; now right]|].
      simpl. now rewrite map_app. }
    split.
    + intros (j & Hj & H). apply in_seq in Hj.
      destruct (nth_split rs (0, 0%Z) (proj2 Hj)) as (l1 & l2 & E & Ll). cbv zeta in H.
      set (w := nth j rs (0, 0%Z)) in *. destruct (Step _ _ _ E) as (F & N' & L' & Ne' & Sub & Em).
      destruct (conn (fst v) (fst w)) eqn:Ec; [|destruct H]. rewrite F in H.
      apply in_map_iff in H as ([ps' s'] & Ep & H). cbn [fst snd] in Ep. injection Ep as <- <-.
      apply IH in H as (Ne & Li & Ed & k & Sw & ->); auto.
      split; [discriminate|]. split; [|split].
      * rewrite Em. constructor. now rewrite <- map_app.
      * intros x y Hxy. destruct ps' as [|q ps']; [congruence|]. change (removelast ((snd v, snd w) :: q :: ps')) with ((snd v, snd w) :: removelast (q :: ps')) in Hxy.
        destruct Hxy as [[= <- <-]|Hxy].
        -- exists (fst v), (fst w). split; [left; now destruct v|]. split; auto. right. rewrite E. apply in_or_app. right. left. now destruct w.
        -- specialize (Ed x y Hxy). assert (Hi : In (x, y) (q :: ps')).
           { rewrite (app_removelast_last (0%Z, 0%Z)) by congruence. apply in_or_app. now left. }
           apply flat_In in Hi. apply listed_perfect in Li.
           eapply (vadj_sub vs (l1 ++ l2)); auto; eapply Permutation_in; try exact Li; tauto.
      * exists (k + j). rewrite Em. cbn [flat]. split.
        -- apply swaps_cons. eapply swaps_trans; [apply swaps_cons; exact Sw|].
           rewrite map_app. rewrite <- Ll, <- (map_length snd l1).
           replace (map snd l1 ++ snd w :: map snd l2) with ((map snd l1 ++ [snd w]) ++ map snd l2) by now rewrite <- app_assoc.
           change (snd w :: map snd l1 ++ map snd l2) with ((snd w :: map snd l1) ++ map snd l2).
           apply swaps_app_r, swaps_move.
        -- rewrite pow_m1_add, <- pow_m1_sgn. lia.
    + intros (Ne & Li & Ed & k & Sw & ->).
      inversion Li as [|v' m1 w' m2 ps' Li' E1 E2]; subst. rename H into E1.
      change (m1 ++ w' :: m2 = map snd rs) in E1.
      assert (Sp : exists l1 w l2, rs = l1 ++ w :: l2 /\ map snd l1 = m1 /\ snd w = w' /\ map snd l2 = m2).
      { symmetry in E1. apply map_eq_app in E1 as (l1 & l2 & E & E3 & E4).
        destruct l2 as [|w l2]; [discriminate|]. cbn [map] in E4. injection E4 as E5 E6. eauto 8. }
      destruct Sp as (l1 & w & l2 & E & <- & <- & <-).
      destruct (Step _ _ _ E) as (F & N' & L' & Ne' & Sub & Em).
      exists (length l1). split; [apply in_seq; rewrite E, app_length; simpl; lia|]. cbv zeta.
      assert (En : nth (length l1) rs (0, 0%Z) = w) by (rewrite E; apply nth_app_mid). rewrite En.
      rewrite <- map_app in Li'.
      assert (Nps : ps' <> []).
      { intros ->. apply listed_length in Li'. rewrite map_length in Li'. simpl in Li'.
        destruct (l1 ++ l2); [congruence|discriminate]. }
      assert (Hd : vadj vs conn (snd v) (snd w)).
      { apply Ed. destruct ps'; [congruence|]. now left. }
      assert (Ec : conn (fst v) (fst w) = true).
      { destruct Hd as (i & j & A & B & C). cbn [map] in N.
        assert (U : forall i z z', In (i, z) vs -> In (z', z) vs -> i = z').
        { clear - N. change (snd v :: map snd rs) with (map snd vs) in N. intros i z i' H1 H4.
          induction vs as [|u us IH]; [destruct H1|]. simpl in N. inversion N; subst.
          destruct H1 as [->|H1], H4 as [E|H4]; auto.
          - now injection E.
          - exfalso. apply H2. apply in_map_iff. exists (i', z). auto.
          - subst u. exfalso. apply H2. apply in_map_iff. exists (i, z). auto. }
        rewrite (U i (snd v) (fst v)) in C; auto; [|left; now destruct v].
        rewrite (U j (snd w) (fst w)) in C; auto. right. rewrite E. apply in_or_app. right. left. now destruct w. }
      rewrite Ec, F.
      assert (Nfl : NoDup (map snd vs)) by auto.
      assert (Sw0 : exists k', swaps k' (flat ps') (map snd (l1 ++ l2))).
      { apply swaps_exist; [|now apply listed_perfect].
        eapply Permutation_NoDup; [symmetry; apply listed_perfect; exact Li'|exact N']. }
      destruct Sw0 as (k' & Sw').
      apply in_map_iff. exists (ps', pow_m1 k'). cbn [fst snd]. split.
      * f_equal.
        assert (X : swaps (k' + length l1) (flat ((snd v, snd w) :: ps')) (map snd vs)).
        { rewrite Em. cbn [flat]. apply swaps_cons. eapply swaps_trans; [apply swaps_cons; exact Sw'|].
           rewrite map_app. rewrite <- (map_length snd l1).
           replace (map snd l1 ++ snd w :: map snd l2) with ((map snd l1 ++ [snd w]) ++ map snd l2) by now rewrite <- app_assoc.
           change (snd w :: map snd l1 ++ map snd l2) with ((snd w :: map snd l1) ++ map snd l2).
           apply swaps_app_r, swaps_move. }
        assert (Nfp : NoDup (flat ((snd v, snd w) :: ps'))).
        { eapply Permutation_NoDup; [|exact Nfl]. symmetry. eapply swaps_perm. exact X. }
        rewrite (swaps_parity k (k' + length l1) _ _ Nfp Sw X), pow_m1_add, <- pow_m1_sgn. lia.
      * apply IH; auto. split; auto. split; auto. split; [|eauto].
        intros x y Hxy. assert (Hi : In (x, y) ps').
        { rewrite (app_removelast_last (0%Z, 0%Z)) by auto. apply in_or_app. now left. }
        apply flat_In in Hi. pose proof (listed_perfect _ _ Li') as Lp.
        eapply (vadj_sub vs (l1 ++ l2)); auto; try (eapply Permutation_in; try exact Lp; tauto).
        apply Ed. destruct ps' as [|q ps']; [congruence|]. now right.
Qed.
