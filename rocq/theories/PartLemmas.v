From Coq Require Import List ZArith Bool Lia Arith Permutation Sorted.
From Verif Require Import Py Slater SignLemmas Graphs MatchSpec MatchLemmas GraphSpec BicliqueLemmas GeneralLemmas.
Import ListNotations.

(** ** the while loop as a structural insertion *)
Fixpoint ins_group (size : nat) (bins : list (list Z)) (x : Z) : list (list (list Z)) :=
  match bins with
  | [] => []
  | [] :: t => [[x] :: t]
  | b :: t => (if Nat.ltb (length b) size then [(b ++ [x]) :: t] else []) ++ map (cons b) (ins_group size t x)
  end.
Fixpoint ins_all (bsn : list (nat * nat)) (P : list (list Z)) (x : Z) : list (list (list Z)) :=
  match bsn with
  | [] => []
  | (s, n) :: rest =>
      map (fun g => g ++ skipn n P) (ins_group s (firstn n P) x)
      ++ map (app (firstn n P)) (ins_all rest (skipn n P) x)
  end.

Definition nbins (bsn : list (nat * nat)) : nat := list_sum (map snd bsn).

Lemma ins_all_app : forall s n bsn g r x, length g = n ->
  ins_all ((s, n) :: bsn) (g ++ r) x = map (fun h => h ++ r) (ins_group s g x) ++ map (app g) (ins_all bsn r x).
Proof.
  intros s n bsn g r x <-. cbn [ins_all].
  rewrite firstn_app, Nat.sub_diag, firstn_all, firstn_O, app_nil_r.
  rewrite skipn_app, Nat.sub_diag, skipn_all. reflexivity.
Qed.

(** the step to the next size *)
Lemma up_while_next : forall f b1 s m b2 prev last ib,
  (forall p, In p b2 -> 0 < snd p) ->
  up_while (S f) (b1 ++ (s, m) :: b2) prev last ib (Z.of_nat m - 1)%Z (length b1) =
  up_while (S f) (b1 ++ (s, m) :: b2) prev last ib (-1)%Z (S (length b1)).
Proof.
  intros f b1 s m b2 prev last ib Pos. cbn [up_while].
  assert (L : length (b1 ++ (s, m) :: b2) = length b1 + S (length b2)) by now rewrite app_length.
  replace (Nat.ltb (length b1) (length (b1 ++ (s, m) :: b2))) with true
    by (symmetry; apply Nat.ltb_lt; lia).
  rewrite nth_app_mid. cbn [negb snd].
  replace (Z.of_nat m - 1 + 1)%Z with (Z.of_nat m) by lia. rewrite Z.eqb_refl. cbn [andb].
  destruct b2 as [|[s' m'] b2].
  - replace (Nat.ltb (S (length b1)) (length (b1 ++ [(s, m)]))) with false
      by (symmetry; apply Nat.ltb_ge; rewrite L; simpl; lia). 
    replace (Nat.eqb (S (length b1)) (length (b1 ++ [(s, m)]))) with true
      by (symmetry; apply Nat.eqb_eq; rewrite L; simpl; lia). reflexivity.
  - replace (Nat.ltb (S (length b1)) (length (b1 ++ (s, m) :: (s', m') :: b2))) with true
      by (symmetry; apply Nat.ltb_lt; rewrite L; simpl; lia). 
    replace (Nat.eqb (S (length b1)) (length (b1 ++ (s, m) :: (s', m') :: b2))) with false
      by (symmetry; apply Nat.eqb_neq; rewrite L; simpl; lia).
    assert (Hn : nth (S (length b1)) (b1 ++ (s, m) :: (s', m') :: b2) (0, 0) = (s', m')).
    { replace (b1 ++ (s, m) :: (s', m') :: b2) with ((b1 ++ [(s, m)]) ++ (s', m') :: b2) by now rewrite <- app_assoc.
      replace (S (length b1)) with (length (b1 ++ [(s, m)])) by (rewrite app_length; simpl; lia).
      apply nth_app_mid. }
    rewrite !Hn. cbn [negb snd fst]. pose proof (Pos (s', m') ltac:(now left)) as Pm. cbn [snd] in Pm.
    replace (-1 + 1 =? Z.of_nat m')%Z with false by (symmetry; apply Z.eqb_neq; lia). cbn [andb].
    rewrite Hn. reflexivity.
Qed.

Definition bin_lt (x : Z) (b : list Z) : Prop := forall y, In y b -> (y < x)%Z.

Lemma up_while_ins : forall b2 b1 s m prev last,
  (forall p, In p b2 -> 0 < snd p) -> 0 < m -> Forall (bin_lt last) prev ->
  forall g fuel pre r t, prev = pre ++ g ++ r -> t + length g = m -> length r = nbins b2 ->
  length (g ++ r) < fuel ->
  up_while fuel (b1 ++ (s, m) :: b2) prev last (Z.of_nat (length pre) - 1)%Z (Z.of_nat t - 1)%Z (length b1)
  = Ok (map (fun h => pre ++ h ++ r) (ins_group s g last)
        ++ map (fun y => pre ++ g ++ y) (ins_all b2 r last)).
Proof.
  induction b2 as [|[s' m'] b2 IHb]; intros b1 s m prev last Pos Pm Lt.
  - (* last group *)
    assert (Nx : forall f (pre : list (list Z)), up_while (S f) (b1 ++ [(s, m)]) prev last (Z.of_nat (length pre) - 1)%Z
              (Z.of_nat m - 1)%Z (length b1) = Ok []).
    { intros f pre. rewrite up_while_next by (intros p []). cbn [up_while].
      rewrite app_length. simpl. replace (Nat.ltb (S (length b1)) (length b1 + 1)) with false
        by (symmetry; apply Nat.ltb_ge; lia). reflexivity. }
    induction g as [|x g IHg]; intros fuel pre r t E Hg Hr Hf.
    { destruct fuel; [lia|]. simpl in Hg. rewrite Nat.add_0_r in Hg. subst t. rewrite Nx. reflexivity. }
    destruct fuel as [|f]; [lia|]. cbn [up_while].
    assert (L : length (b1 ++ [(s, m)]) = S (length b1)) by (rewrite app_length; simpl; lia).
    rewrite L. replace (Nat.ltb (length b1) (S (length b1))) with true by (symmetry; apply Nat.ltb_lt; lia).
    rewrite nth_app_mid. cbn [negb snd fst].
    replace (Z.of_nat t - 1 + 1)%Z with (Z.of_nat t) by lia. simpl in Hg.
    replace (Z.of_nat t =? Z.of_nat m)%Z with false by (symmetry; apply Z.eqb_neq; lia). cbn [andb].
    replace (Z.of_nat (length pre) - 1 + 1)%Z with (Z.of_nat (length pre)) by lia. rewrite Nat2Z.id, nth_app_mid.
    rewrite E at 1. cbn [fst snd].
    assert (Ne : nth_error (pre ++ (x :: g) ++ r) (length pre) = Some x).
    { rewrite nth_error_app2, Nat.sub_diag by lia. reflexivity. }
    rewrite Ne.
    assert (Ef : firstn (length pre) prev = pre).
    { rewrite E, firstn_app, Nat.sub_diag, firstn_all, firstn_O. apply app_nil_r. }
    assert (Es : skipn (length pre + 1) prev = g ++ r).
    { rewrite E, skipn_app, skipn_all2 by lia. replace (length pre + 1 - length pre) with 1 by lia. reflexivity. }
    rewrite Ef, Es.
    assert (IH' : up_while f (b1 ++ [(s, m)]) prev last (Z.of_nat (length pre)) (Z.of_nat t) (length b1) =
       Ok (map (fun h => pre ++ (x :: h) ++ r) (ins_group s g last))).
    { specialize (IHg f (pre ++ [x]) r (S t)). 
      replace (Z.of_nat (length (pre ++ [x])) - 1)%Z with (Z.of_nat (length pre)) in IHg by (rewrite app_length; simpl; lia).
      replace (Z.of_nat (S t) - 1)%Z with (Z.of_nat t) in IHg by lia. rewrite IHg; auto.
      - f_equal. cbn [ins_all map]. rewrite app_nil_r. apply map_ext. intros h. now rewrite <- app_assoc.
      - now rewrite <- app_assoc.
      - lia.
      - simpl in Hf. lia. }
    destruct x as [|x0 x].
    + cbn [rev ins_group ins_all map app].
      destruct (Z.ltb_spec 1 (Z.of_nat m)) as [Hm|Hm].
      * destruct f as [|f]; [simpl in Hf; lia|]. cbn [up_while]. rewrite L.
        replace (Nat.ltb (S (length b1)) (S (length b1))) with false by (symmetry; apply Nat.ltb_ge; lia).
        reflexivity.
      * rewrite IH'. assert (g = []) by (destruct g; auto; simpl in Hg; lia). subst g. reflexivity.
    + assert (Hx : bin_lt last (x0 :: x)).
      { rewrite Forall_forall in Lt. apply Lt. rewrite E. apply in_or_app. right. now left. }
      destruct (rev (x0 :: x)) as [|z zs] eqn:Er.
      { apply (f_equal (@length _)) in Er. rewrite rev_length in Er. discriminate. }
      assert (Hz : (z < last)%Z) by (apply Hx; rewrite in_rev, Er; now left).
      replace (z <? last)%Z with true by (symmetry; now apply Z.ltb_lt). cbn [negb].
      rewrite IH'. cbn [ins_group]. cbn [ins_all map]. rewrite app_nil_r, map_app, map_map.
      destruct (Nat.ltb (length (x0 :: x)) s); cbn [negb bind map app]; reflexivity.
  - assert (Pos' : forall p, In p b2 -> 0 < snd p) by (intros p Hp; apply Pos; now right).
    assert (Pm' : 0 < m') by (apply (Pos (s', m')); now left).
    assert (Nx : forall f pre g r, prev = pre ++ g ++ r -> length r = nbins ((s', m') :: b2) -> length r < f ->
        up_while f (b1 ++ (s, m) :: (s', m') :: b2) prev last (Z.of_nat (length (pre ++ g)) - 1)%Z
              (-1)%Z (S (length b1)) = Ok (map (fun y => pre ++ g ++ y) (ins_all ((s', m') :: b2) r last))).
    { intros f pre g r E Hr Hf.
      specialize (IHb (b1 ++ [(s, m)]) s' m' prev last Pos' Pm' Lt (firstn m' r) f (pre ++ g) (skipn m' r) 0).
      unfold nbins in Hr. simpl in Hr.
      rewrite <- (app_assoc b1) in IHb. simpl app in IHb.  change (Z.of_nat 0 - 1)%Z with (-1)%Z in IHb.
      assert (Lb : length (b1 ++ [(s, m)]) = S (length b1)) by (rewrite app_length; simpl; lia).
      rewrite Lb in IHb.
      rewrite IHb.
      - cbn [ins_all]. rewrite map_app, !map_map. f_equal. f_equal; apply map_ext; intros h; now rewrite <- !app_assoc.
      - now rewrite firstn_skipn, <- app_assoc.
      - rewrite firstn_length. lia.
      - rewrite skipn_length. unfold nbins. lia.
      - now rewrite firstn_skipn. }
    induction g as [|x g IHg]; intros fuel pre r t E Hg Hr Hf.
    { destruct fuel; [lia|]. simpl in Hg. rewrite Nat.add_0_r in Hg. subst t. rewrite up_while_next by auto.
      specialize (Nx (S fuel) pre [] r). rewrite app_nil_r in Nx. rewrite Nx; auto. }
    destruct fuel as [|f]; [lia|].
    assert (Nx' : up_while f (b1 ++ (s, m) :: (s', m') :: b2) prev last (Z.of_nat (length (pre ++ x :: g)) - 1)%Z
              (-1)%Z (S (length b1)) = Ok (map (fun y => pre ++ (x :: g) ++ y) (ins_all ((s', m') :: b2) r last))).
    { apply Nx; auto. rewrite app_length in Hf. simpl in Hf. lia. }
    cbn [up_while].
    assert (L : length (b1 ++ (s, m) :: (s', m') :: b2) = length b1 + S (S (length b2))) by now rewrite app_length.
    replace (Nat.ltb (length b1) (length (b1 ++ (s, m) :: (s', m') :: b2))) with true by (symmetry; apply Nat.ltb_lt; lia).
    rewrite nth_app_mid. cbn [negb snd fst].
    replace (Z.of_nat t - 1 + 1)%Z with (Z.of_nat t) by lia. simpl in Hg.
    replace (Z.of_nat t =? Z.of_nat m)%Z with false by (symmetry; apply Z.eqb_neq; lia). cbn [andb].
    replace (Z.of_nat (length pre) - 1 + 1)%Z with (Z.of_nat (length pre)) by lia. rewrite Nat2Z.id, nth_app_mid.
    rewrite E at 1. cbn [fst snd].
    assert (Ne : nth_error (pre ++ (x :: g) ++ r) (length pre) = Some x).
    { rewrite nth_error_app2, Nat.sub_diag by lia. reflexivity. }
    rewrite Ne.
    assert (Ef : firstn (length pre) prev = pre).
    { rewrite E, firstn_app, Nat.sub_diag, firstn_all, firstn_O. apply app_nil_r. }
    assert (Es : skipn (length pre + 1) prev = g ++ r).
    { rewrite E, skipn_app, skipn_all2 by lia. replace (length pre + 1 - length pre) with 1 by lia. reflexivity. }
    rewrite Ef, Es.
    assert (IH' : up_while f (b1 ++ (s, m) :: (s', m') :: b2) prev last (Z.of_nat (length pre)) (Z.of_nat t) (length b1) =
       Ok (map (fun h => pre ++ (x :: h) ++ r) (ins_group s g last) ++
           map (fun y => pre ++ (x :: g) ++ y) (ins_all ((s', m') :: b2) r last))).
    { specialize (IHg f (pre ++ [x]) r (S t)). 
      replace (Z.of_nat (length (pre ++ [x])) - 1)%Z with (Z.of_nat (length pre)) in IHg by (rewrite app_length; simpl; lia).
      replace (Z.of_nat (S t) - 1)%Z with (Z.of_nat t) in IHg by lia. rewrite IHg; auto.
      - f_equal. f_equal; apply map_ext; intros h; now rewrite <- app_assoc.
      - now rewrite <- app_assoc.
      - lia.
      - simpl in Hf. lia. }
    destruct x as [|x0 x].
    + cbn [rev ins_group map app].
      destruct (Z.ltb_spec 1 (Z.of_nat m)) as [Hm|Hm].
      * replace (Z.of_nat (length pre) + (Z.of_nat m - Z.of_nat t - 1))%Z with (Z.of_nat (length (pre ++ [] :: g)) - 1)%Z
          by (rewrite app_length; simpl; lia).
        rewrite Nx'. cbn [bind app]. reflexivity.
      * rewrite IH'. assert (g = []) by (destruct g; auto; simpl in Hg; lia). subst g. reflexivity.
    + assert (Hx : bin_lt last (x0 :: x)).
      { rewrite Forall_forall in Lt. apply Lt. rewrite E. apply in_or_app. right. now left. }
      destruct (rev (x0 :: x)) as [|z zs] eqn:Er.
      { apply (f_equal (@length _)) in Er. rewrite rev_length in Er. discriminate. }
      assert (Hz : (z < last)%Z) by (apply Hx; rewrite in_rev, Er; now left).
      replace (z <? last)%Z with true by (symmetry; now apply Z.ltb_lt). cbn [negb].
      rewrite IH'. cbn [ins_group]. rewrite map_app, map_map.
      destruct (Nat.ltb (length (x0 :: x)) s); cbn [negb bind map app]; reflexivity.
Qed.

Lemma up_while_all : forall bsn prev last, (forall p, In p bsn -> 0 < snd p) ->
  length prev = nbins bsn -> Forall (bin_lt last) prev ->
  up_while (up_fuel bsn) bsn prev last (-1)%Z (-1)%Z 0 = Ok (ins_all bsn prev last).
Proof.
  intros [|[s m] bsn] prev last Pos L Lt.
  - reflexivity.
  - assert (Pm : 0 < m) by (apply (Pos (s, m)); now left).
    unfold nbins in L. simpl in L.
    pose proof (up_while_ins bsn [] s m prev last ltac:(intros; apply Pos; now right) Pm Lt
       (firstn m prev) (up_fuel ((s, m) :: bsn)) [] (skipn m prev) 0) as H.
    cbn [app length] in H. change (Z.of_nat 0 - 1)%Z with (-1)%Z in H. rewrite H.
    + cbn [ins_all]. reflexivity.
    + now rewrite firstn_skipn.
    + rewrite firstn_length. lia.
    + rewrite skipn_length. unfold nbins. lia.
    + rewrite firstn_skipn. unfold up_fuel. simpl. lia.
Qed.
