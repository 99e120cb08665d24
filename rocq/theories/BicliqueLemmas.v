From Coq Require Import List ZArith Bool Lia Arith Permutation.
From Verif Require Import Py Slater SignSpec SignLemmas Combos Graphs MatchSpec MatchLemmas.
Import ListNotations.

(** ** list updates *)
Lemma upd_app : forall {A} (l1 : list A) x l2 v, upd (l1 ++ x :: l2) (length l1) v = l1 ++ v :: l2.
Proof. induction l1 as [|y l1 IH]; intros; simpl; auto. now rewrite IH. Qed.
Lemma upd_length : forall {A} (l : list A) i v, length (upd l i v) = length l.
Proof. induction l as [|y l IH]; intros [|i] v; simpl; auto. Qed.
Lemma upd_upd : forall {A} (l : list A) i v w, upd (upd l i v) i w = upd l i w.
Proof. induction l as [|y l IH]; intros [|i] v w; simpl; auto. now rewrite IH. Qed.
Lemma upd_same : forall {A} (l : list A) i d, i < length l -> upd l i (nth i l d) = l.
Proof. induction l as [|y l IH]; intros [|i] d H; simpl in *; try lia; auto. rewrite IH; auto. lia. Qed.
Lemma nth_upd_eq : forall {A} (l : list A) i v d, i < length l -> nth i (upd l i v) d = v.
Proof. induction l as [|y l IH]; intros [|i] v d H; simpl in *; try lia; auto. apply IH. lia. Qed.
Lemma nth_upd_neq : forall {A} (l : list A) i j v d, i <> j -> nth j (upd l i v) d = nth j l d.
Proof. induction l as [|y l IH]; intros [|i] [|j] v d H; simpl; auto; try lia. Qed.
Lemma nth_app_mid : forall {A} (l1 : list A) x l2 d, nth (length l1) (l1 ++ x :: l2) d = x.
Proof. intros. rewrite app_nth2, Nat.sub_diag by lia. reflexivity. Qed.

Lemma swap_at_spec : forall {A} (d : A) p x l y q,
  swap_at d (p ++ x :: l ++ y :: q) (length p) (length p + 1 + length l) = p ++ y :: l ++ x :: q.
Proof.
  intros. unfold swap_at. rewrite nth_app_mid.
  replace (p ++ x :: l ++ y :: q) with ((p ++ x :: l) ++ y :: q) at 2 by now rewrite <- app_assoc.
  assert (E : length p + 1 + length l = length (p ++ x :: l)) by (rewrite app_length; simpl; lia).
  rewrite E, nth_app_mid, upd_app.
  replace (p ++ y :: l ++ y :: q) with ((p ++ y :: l) ++ y :: q) by now rewrite <- app_assoc.
  assert (E' : length (p ++ x :: l) = length (p ++ y :: l)) by (rewrite !app_length; reflexivity).
  rewrite E', upd_app, <- app_assoc. reflexivity.
Qed.

(** ** the machine *)
Definition idx (st : bp_state) : list nat := fst (fst st).
Definition sg_of (st : bp_state) : Z := snd st.

Lemma bp_for_app : forall n l1 l2 st, bp_for n (l1 ++ l2) st =
  let (y, st') := bp_for n l1 st in if y then (true, st') else bp_for n l2 st'.
Proof.
  induction l1 as [|i l1 IH]; intros l2 st; [reflexivity|]. simpl.
  destruct (bp_level n i st) as [[|] st']; auto.
Qed.

(** iterations of the levels [i .. n-1] until they all wrap around *)
Inductive run (n i : nat) : bp_state -> list bp_state -> bp_state -> Prop :=
| run_end : forall st st', bp_for n (rev (seq i (n - i))) st = (false, st') -> run n i st [] st'
| run_step : forall st st1 outs st', bp_for n (rev (seq i (n - i))) st = (true, st1) ->
    run n i st1 outs st' -> run n i st (st1 :: outs) st'.

Lemma levels_step : forall n i, i < n -> rev (seq i (n - i)) = rev (seq (S i) (n - S i)) ++ [i].
Proof. intros n i H. replace (n - i) with (S (n - S i)) by lia. reflexivity. Qed.

Lemma run_lower_yield : forall n i st outs st1 st2 outs2 st', i < n ->
  run n (S i) st outs st1 -> bp_level n i st1 = (true, st2) -> run n i st2 outs2 st' ->
  run n i st (outs ++ st2 :: outs2) st'.
Proof.
  intros n i st outs st1 st2 outs2 st' Hi R. revert st2 outs2 st'.
  induction R as [st st1 H|st stm outs st1 H R IH]; intros st2 outs2 st' B R2.
  - simpl. apply run_step; auto. rewrite levels_step, bp_for_app, H by auto. simpl. now rewrite B.
  - simpl. apply run_step; eauto. rewrite levels_step, bp_for_app, H by auto. reflexivity.
Qed.

Lemma run_lower_wrap : forall n i st outs st1 st2, i < n ->
  run n (S i) st outs st1 -> bp_level n i st1 = (false, st2) -> run n i st outs st2.
Proof.
  intros n i st outs st1 st2 Hi R. revert st2.
  induction R as [st st1 H|st stm outs st1 H R IH]; intros st2 B.
  - apply run_end. rewrite levels_step, bp_for_app, H by auto. simpl. now rewrite B.
  - apply run_step; eauto. rewrite levels_step, bp_for_app, H by auto. reflexivity.
Qed.

Lemma run_while : forall n st outs st', run n 0 st outs st' ->
  bp_while n (length outs + 1) st = Some outs.
Proof.
  intros n st outs st' R. induction R as [st st' H|st stm outs st' H R IH]; rewrite Nat.sub_0_r in H.
  - simpl. now rewrite H.
  - simpl. now rewrite H, IH.
Qed.

(** what a block of the enumeration delivers: permutations of [S] (after a fixed prefix) that start
    with one of [heads] *)
Record block (pre S heads : list nat) (sg : Z) (l : list bp_state) : Prop := {
  b_sound : forall st, In st l -> exists T k, idx st = pre ++ T /\ swaps k T S /\
              sg_of st = (sg * pow_m1 k)%Z /\ (forall x T', T = x :: T' -> In x heads);
  b_complete : forall T, Permutation T S -> (forall x T', T = x :: T' -> In x heads) ->
              In (pre ++ T) (map idx l);
  b_nodup : NoDup (map idx l)
}.

Definition full (n i : nat) (cyc : list nat) : Prop :=
  length cyc = n /\ forall j, i <= j -> j < n -> nth j cyc 0 = n - j.

Lemma NoDup_app_iff : forall {A} (a b : list A), NoDup (a ++ b) <->
  NoDup a /\ NoDup b /\ forall x, In x a -> ~ In x b.
Proof.
  intros A a b. induction a as [|x a IH]; simpl.
  - split; [intros H; repeat split; auto; constructor|tauto].
  - rewrite !NoDup_cons_iff, IH, in_app_iff. firstorder (subst; auto).
Qed.

Lemma machine_level : forall n i pre, length pre = i -> i < n ->
  (forall pre' S' cyc sg, length pre' = S i -> length S' = n - S i -> NoDup S' -> full n (S i) cyc ->
     exists outs, run n (S i) (pre' ++ S', cyc, sg) outs (pre' ++ S', cyc, sg) /\
       length outs + 1 = factorial (n - S i) /\
       block pre' S' S' sg ((pre' ++ S', cyc, sg) :: outs)) ->
  forall B A x cyc sg, length (A ++ x :: B) = n - i -> NoDup (A ++ x :: B) -> full n (S i) cyc ->
  let st := (pre ++ x :: A ++ B, upd cyc i (length B + 1), (sg * pow_m1 (length A))%Z) in
  exists outs, run n i st outs (pre ++ A ++ x :: B, upd cyc i (n - i), sg) /\
    length outs + 1 = (length B + 1) * factorial (n - S i) /\
    block pre (A ++ x :: B) (x :: B) sg (st :: outs).
Proof.
  intros n i pre Lp Hi IH B. induction B as [|y B IHB]; intros A x cyc sg LS N F st.
  - (* last head *)
    assert (LA : length (A ++ []) = n - S i) by (rewrite app_nil_r; rewrite app_length in LS; simpl in LS; lia).
    assert (NA : NoDup (A ++ [])) by (apply NoDup_remove_1 in N; exact N).
    assert (F' : full n (S i) (upd cyc i 1)).
    { destruct F as [F1 F2]. split; [now rewrite upd_length|]. intros j H1 H2. rewrite nth_upd_neq by lia. auto. }
    destruct (IH (pre ++ [x]) (A ++ []) (upd cyc i 1) (sg * pow_m1 (length A))%Z) as (outs & R & Lo & Bl); auto.
    { rewrite app_length. simpl. lia. }
    rewrite <- app_assoc in R, Bl. simpl app in R, Bl.
    exists outs. split; [|split].
    + eapply run_lower_wrap; [auto|exact R|].
      unfold bp_level. destruct F as [F1 F2]. rewrite (nth_upd_eq cyc) by lia. rewrite upd_upd.
      rewrite (nth_upd_eq cyc) by lia. cbn [Nat.sub Nat.eqb]. f_equal. f_equal; [f_equal|].
      * rewrite <- Lp. rewrite firstn_app, Nat.sub_diag, firstn_all, firstn_O, app_nil_r.
        rewrite skipn_app, (skipn_all2 pre) by lia. replace (length pre + 1 - length pre) with 1 by lia.
        cbn [skipn app]. unfold slice. rewrite skipn_app, skipn_all, Nat.sub_diag.
        replace (length pre + 1 - length pre) with 1 by lia. cbn [skipn app firstn]. now rewrite app_nil_r.
      * now rewrite upd_upd.
      * replace (n - i - 1) with (length A) by (rewrite app_length in LS; simpl in LS; lia).
        unfold pow_m1, sgn. destruct (Nat.odd (length A)); lia.
    + simpl. lia.
    + destruct Bl as [B1 B2 B3]. split; auto.
      * intros s Hs. destruct (B1 s Hs) as (T & k & E1 & E2 & E3 & _).
        exists (x :: T), (k + length A). split; [now rewrite E1, <- app_assoc|]. split.
        -- eapply swaps_trans; [apply swaps_cons; exact E2|]. rewrite app_nil_r.
           replace (A ++ [x]) with (A ++ [x]) by reflexivity. apply swaps_move.
        -- split; [rewrite E3, pow_m1_add; lia|]. intros z T' [= -> _]. now left.
      * intros T P Hd. destruct T as [|z T].
        { apply Permutation_nil in P. destruct A; discriminate. }
        assert (z = x) by (destruct (Hd z T eq_refl) as [<-|[]]; auto). subst z.
        replace (pre ++ x :: T) with ((pre ++ [x]) ++ T) by now rewrite <- app_assoc.
        apply Permutation_cons_app_inv in P. apply B2; auto.
        intros z T' ->. eapply Permutation_in; [exact P|]. now left.
  - assert (LA : length (A ++ y :: B) = n - S i).
    { rewrite app_length in *. simpl in *. lia. }
    assert (NA : NoDup (A ++ y :: B)) by (apply NoDup_remove_1 in N; exact N).
    assert (F' : full n (S i) (upd cyc i (length (y :: B) + 1))).
    { destruct F as [F1 F2]. split; [now rewrite upd_length|]. intros j H1 H2. rewrite nth_upd_neq by lia. auto. }
    destruct (IH (pre ++ [x]) (A ++ y :: B) (upd cyc i (length (y :: B) + 1)) (sg * pow_m1 (length A))%Z)
      as (outs & R & Lo & Bl); auto.
    { rewrite app_length. simpl. lia. }
    rewrite <- app_assoc in R, Bl. simpl app in R, Bl.
    assert (ES : A ++ x :: y :: B = (A ++ [x]) ++ y :: B) by now rewrite <- app_assoc.
    destruct (IHB (A ++ [x]) y cyc sg) as (outs2 & R2 & Lo2 & Bl2); auto.
    { now rewrite <- ES. } { now rewrite <- ES. }
    rewrite <- ES in R2, Bl2.
    set (st2 := (pre ++ y :: (A ++ [x]) ++ B, upd cyc i (length B + 1), (sg * pow_m1 (length (A ++ [x])))%Z)) in *.
    assert (Lev : bp_level n i (pre ++ x :: A ++ y :: B, upd cyc i (length (y :: B) + 1), (sg * pow_m1 (length A))%Z) = (true, st2)).
    { unfold bp_level. destruct F as [F1 F2]. rewrite (nth_upd_eq cyc) by lia. rewrite upd_upd.
      rewrite (nth_upd_eq cyc) by lia. cbn [length].
      replace (S (length B) + 1 - 1) with (length B + 1) by lia.
      destruct (Nat.eqb_spec (length B + 1) 0); [lia|]. unfold st2. f_equal. f_equal; [f_equal|].
      - replace (n - (length B + 1)) with (length pre + 1 + length A).
        2: { rewrite app_length in LS. simpl in LS. lia. }
        rewrite <- Lp, swap_at_spec. rewrite <- app_assoc. reflexivity.
      - rewrite app_length, pow_m1_add. change (pow_m1 (length [x])) with (-1)%Z. lia. }
    exists (outs ++ st2 :: outs2). split; [|split].
    + eapply run_lower_yield; [auto|exact R|exact Lev|exact R2].
    + rewrite app_length. cbn [length]. cbn [length] in *. lia.
    + destruct Bl as [B1 B2 B3], Bl2 as [C1 C2 C3].
      set (l1 := (pre ++ x :: A ++ y :: B, upd cyc i (length (y :: B) + 1), (sg * pow_m1 (length A))%Z) :: outs) in *.
      change (st :: outs ++ st2 :: outs2) with (l1 ++ st2 :: outs2).
      split.
      * intros s Hs. apply in_app_or in Hs as [Hs|Hs].
        -- destruct (B1 s Hs) as (T & k & E1 & E2 & E3 & _).
           exists (x :: T), (k + length A). split; [now rewrite E1, <- app_assoc|]. split.
           ++ eapply swaps_trans; [apply swaps_cons; exact E2|].
              rewrite ES. change (x :: A ++ y :: B) with ((x :: A) ++ y :: B). apply swaps_app_r, swaps_move.
           ++ split; [rewrite E3, pow_m1_add; lia|]. intros z T' [= -> _]. now left.
        -- destruct (C1 s Hs) as (T & k & E1 & E2 & E3 & E4). exists T, k. repeat split; auto.
           intros z T' E. right. eapply E4; eauto.
      * intros T P Hd. rewrite map_app, in_app_iff. destruct T as [|z T].
        { apply Permutation_nil in P. destruct A; discriminate. }
        destruct (Hd z T eq_refl) as [<-|Hz].
        -- left. replace (pre ++ x :: T) with ((pre ++ [x]) ++ T) by now rewrite <- app_assoc.
           apply Permutation_cons_app_inv in P. apply B2; auto.
           intros z T' ->. eapply Permutation_in; [exact P|]. now left.
        -- right. apply C2; auto. intros z' T' [= <- _]. auto.
      * rewrite map_app. apply NoDup_app_iff. split; [auto|split; [auto|]].
        intros l Hl Hl'. apply in_map_iff in Hl as (s & <- & Hs). apply in_map_iff in Hl' as (s' & Es & Hs').
        destruct (B1 s Hs) as (T & k & E1 & _). destruct (C1 s' Hs') as (T' & k' & E1' & W & _ & Hd).
        rewrite E1, E1', <- app_assoc in Es. apply app_inv_head in Es. subst T'. simpl in Hd.
        specialize (Hd x T eq_refl). apply (NoDup_remove_2 _ _ _ N). apply in_or_app. now right.
Qed.

Lemma machine_run : forall m n i pre S cyc sg, n - i = m -> i <= n -> length pre = i -> length S = n - i ->
  NoDup S -> full n i cyc ->
  exists outs, run n i (pre ++ S, cyc, sg) outs (pre ++ S, cyc, sg) /\
    length outs + 1 = factorial (n - i) /\ block pre S S sg ((pre ++ S, cyc, sg) :: outs).
Proof.
  induction m as [|m IH]; intros n i pre S cyc sg Hm Hi Lp LS N F.
  - exists []. rewrite Hm in *. destruct S; [|discriminate]. split; [|split; [reflexivity|]].
    + apply run_end. rewrite Hm. reflexivity.
    + split.
      * intros st [<-|[]]. exists [], 0. split; [reflexivity|]. split; [constructor|].
        split; [unfold pow_m1, sg_of; simpl; lia|discriminate].
      * intros T P _. apply Permutation_sym, Permutation_nil in P. subst. now left.
      * simpl. repeat constructor; auto.
  - destruct S as [|x S]; [simpl in LS; lia|].
    destruct (machine_level n i pre Lp ltac:(lia)) with (B := S) (A := @nil nat) (x := x) (cyc := cyc) (sg := sg)
      as (outs & R & Lo & Bl); auto.
    + intros pre' S' cyc' sg' H1 H2 H3 H4. apply IH; auto; lia.
    + destruct F as [F1 F2]. split; auto. intros; apply F2; lia.
    + destruct F as [F1 F2].
      assert (Ec : upd cyc i (n - i) = cyc).
      { rewrite <- (F2 i) by lia. apply upd_same. lia. }
      assert (Ec' : upd cyc i (length S + 1) = cyc).
      { simpl in LS. replace (length S + 1) with (n - i) by lia. auto. }
      assert (Es : (sg * pow_m1 (length (@nil nat)))%Z = sg) by (unfold pow_m1; simpl; lia).
      rewrite Ec' in *. rewrite Ec in *. rewrite Es in *. cbn [app] in *.
      exists outs. split; auto. split; auto. rewrite Lo.
      simpl in LS. replace (length S + 1) with (n - i) by lia.
      replace (n - i) with (Datatypes.S (n - Datatypes.S i)) by lia. reflexivity.
Qed.

Lemma full_init : forall n, full n 0 (rev (seq 1 n)).
Proof.
  intros n. split; [now rewrite rev_length, seq_length|]. intros j _ Hj.
  rewrite rev_nth by now rewrite seq_length. rewrite seq_length, seq_nth by lia. lia.
Qed.

Theorem machine_main : forall n, exists outs,
  bp_while n (factorial n) (seq 0 n, rev (seq 1 n), 1%Z) = Some outs /\
  length outs + 1 = factorial n /\
  block [] (seq 0 n) (seq 0 n) 1 ((seq 0 n, rev (seq 1 n), 1%Z) :: outs).
Proof.
  intros n. destruct (machine_run n n 0 [] (seq 0 n) (rev (seq 1 n)) 1%Z) as (outs & R & L & B); auto; try lia.
  - now rewrite seq_length, Nat.sub_0_r.
  - apply seq_NoDup.
  - apply full_init.
  - rewrite Nat.sub_0_r in L. exists outs. split; [|split; auto]. rewrite <- L. eapply run_while. exact R.
Qed.
