(** Embedded wavefunctions: what the constructor guarantees and what the splitting of a determinant preserves. *)
From Coq Require Import List ZArith NArith Arith Bool Lia Permutation Sorted.
From Verif Require Import Py Slater BitSpec BitLemmas SlaterBits SlaterBits2 SignLemmas GeneralLemmas Alg WfnCI Composite CompSpec BicliqueLemmas CompLemmas.
Import ListNotations.

Lemma zin_In : forall x l, zin x l = true <-> In x l.
Proof. intros x l. unfold zin. rewrite existsb_exists. split; [intros (y & H & E); apply Z.eqb_eq in E; subst; auto|intros H; exists x; rewrite Z.eqb_refl; auto]. Qed.
Lemma zrepeated_NoDup : forall l, zrepeated l = false <-> NoDup l.
Proof.
  induction l as [|x l IH]; cbn [zrepeated]; [split; [constructor|reflexivity]|]. rewrite orb_false_iff, IH, NoDup_cons_iff. split; intros [A B]; split; auto.
  - intros H. apply zin_In in H. unfold zin in H. congruence.
  - destruct (existsb (Z.eqb x) l) eqn:E; [|reflexivity]. apply zin_In in E. contradiction.
Qed.
(** the list without repetitions that [distinct] counts *)
Fixpoint dedup (l : list Z) : list Z := match l with [] => [] | x :: t => if zin x t then dedup t else x :: dedup t end.
Lemma dedup_length : forall l, length (dedup l) = distinct l.
Proof. induction l as [|x l IH]; cbn; [reflexivity|]. destruct (zin x l); cbn; congruence. Qed.
Lemma dedup_In : forall l x, In x (dedup l) <-> In x l.
Proof.
  induction l as [|y l IH]; intros x; cbn; [tauto|]. destruct (zin y l) eqn:E; cbn; rewrite IH; [|tauto].
  apply zin_In in E. split; [auto|]. intros [<-|]; auto.
Qed.
Lemma dedup_NoDup : forall l, NoDup (dedup l).
Proof.
  induction l as [|y l IH]; cbn; [constructor|]. destruct (zin y l) eqn:E; [exact IH|]. constructor; [|exact IH].
  rewrite dedup_In. intros H. apply zin_In in H. congruence.
Qed.
Lemma disjoint_lists_spec : forall L, disjoint_lists L = true -> forall s s' a b x, nth_error L s = Some a -> nth_error L s' = Some b -> In x a -> In x b -> s = s'.
Proof.
  induction L as [|l L IH]; intros H s s' a b x Hs Hs' Ha Hb; [destruct s; discriminate|]. cbn [disjoint_lists] in H. apply andb_true_iff in H. destruct H as [H1 H2].
  assert (G : forall b x, In b L -> In x b -> In x l -> False).
  { intros b' y Hb' Hy Hl. rewrite forallb_forall in H1. specialize (H1 _ Hb'). apply negb_true_iff in H1.
    assert (X : existsb (fun x => zin x l) b' = true) by (apply existsb_exists; exists y; split; [auto|apply zin_In; auto]). congruence. }
  destruct s as [|s], s' as [|s']; cbn [nth_error] in Hs, Hs'; try reflexivity.
  - injection Hs as <-. apply nth_error_In in Hs'. exfalso. eauto.
  - injection Hs' as <-. apply nth_error_In in Hs. exfalso. eauto.
  - f_equal. eauto.
Qed.
(** the sorted indices as natural numbers *)
Lemma sorted_nat : forall l, NoDup l -> (forall i, In i l -> (0 <= i)%Z) ->
  exists m, sorted_Z l = map Z.of_nat m /\ enumerates m l /\ length m = length l.
Proof.
  intros l N P. exists (map Z.to_nat (sorted_Z l)).
  assert (PP := sorted_Z_perm l).
  assert (E : sorted_Z l = map Z.of_nat (map Z.to_nat (sorted_Z l))).
  { rewrite map_map. rewrite <- (map_id (sorted_Z l)) at 1. apply map_ext_in. intros x Hx. rewrite Z2Nat.id; [reflexivity|]. apply P. apply (Permutation_in _ PP). exact Hx. }
  split; [exact E|]. split; [split|].
  - assert (S : StronglySorted Z.lt (sorted_Z l)) by (apply sorted_strict; [apply (Permutation_NoDup (Permutation_sym PP)); auto|apply sorted_Z_sorted]).
    assert (Q : forall x, In x (sorted_Z l) -> (0 <= x)%Z) by (intros x Hx; apply P; apply (Permutation_in _ PP); exact Hx). clear E.
    clear PP. induction S as [|x k S IH F]; cbn [map]; [constructor|]. constructor; [apply IH; intros; apply Q; right; auto|].
    rewrite Forall_forall in *. intros y Hy. apply in_map_iff in Hy. destruct Hy as (z & <- & Hz). specialize (F z Hz).
    assert (0 <= x)%Z by (apply Q; left; reflexivity). lia.
  - intros i. split.
    + intros H. apply in_map_iff in H. destruct H as (z & <- & Hz). apply (Permutation_in _ PP) in Hz. rewrite Z2Nat.id by (apply P; exact Hz). exact Hz.
    + intros H. apply in_map_iff. exists (Z.of_nat i). rewrite Nat2Z.id. split; [reflexivity|]. apply (Permutation_in _ (Permutation_sym PP)). exact H.
  - rewrite map_length. apply Permutation_length. exact PP.
Qed.

Section Embedded.
Context {K : CRing}.
Variables (nelec nspin : Z) (L : list (list Z)) (wfns : list (comp K)) (dj : bool) (w : embedded K).
Hypothesis HW : new_embedded nelec nspin L wfns dj = Ok w.
Lemma embedded_inv :
  (0 < nelec)%Z /\ (0 < nspin)%Z /\ (nspin mod 2 = 0)%Z /\ em_nelec w = nelec /\ em_nspin w = nspin /\ em_dict w = dict_build L /\ em_wfns w = wfns /\
  length wfns = length L /\
  (forall l, In l L -> NoDup l /\ distinct (map (fun i => if (i <? nspin / 2)%Z then i else (i - nspin / 2)%Z) l) = Nat.div (length l) 2 /\ forall i, In i l -> (0 <= i < nspin)%Z) /\
  (forall i, (0 <= i < nspin)%Z -> exists s l, nth_error L s = Some l /\ In i l) /\
  Forall2 (fun c l => c_nspin c = Z.of_nat (length l)) wfns L /\
  (dj = true -> nelec = fold_right Z.add 0%Z (map c_nelec wfns) /\ disjoint_lists L = true).
Proof.
  revert HW. unfold new_embedded, assign_nelec, assign_nspin. intros H.
  destruct (Z.leb_spec nelec 0); [discriminate|]. cbn [bind] in H.
  destruct (Z.leb_spec nspin 0); [discriminate|]. destruct (Z.eqb_spec (nspin mod 2) 1); [discriminate|]. cbn [bind] in H.
  match type of H with (if ?b then _ else _) = _ => destruct b eqn:B1; [discriminate|] end.
  match type of H with (if negb ?b then _ else _) = _ => destruct b eqn:B2; [|discriminate] end. cbn [negb] in H.
  match type of H with (if negb ?b then _ else _) = _ => destruct b eqn:B3; [|discriminate] end. cbn [negb] in H.
  match type of H with (if negb ?b then _ else _) = _ => destruct b eqn:B4; [|discriminate] end. cbn [negb] in H.
  match type of H with (if ?b then _ else _) = _ => destruct b eqn:B5; [discriminate|] end. apply Ok_inj in H. subst w. cbn [em_nelec em_nspin em_dict em_wfns].
  apply Nat.eqb_eq in B3. apply andb_true_iff in B2. destruct B2 as [B2 B2']. rewrite forallb_forall in B2, B2'.
  assert (M : (nspin mod 2 = 0)%Z) by (pose proof (Z.mod_pos_bound nspin 2 ltac:(lia)); lia).
  repeat (split; [now auto|]). split; [|split; [|split]].
  - intros l Hl. assert (Q : ((zrepeated l || negb (distinct (map (fun i => if (i <? nspin / 2)%Z then i else (i - nspin / 2)%Z) l) =? length l / 2)) = false)%bool).
    { destruct (zrepeated l || _)%bool eqn:Q; [|reflexivity].
      rewrite <- B1. symmetry. apply existsb_exists. exists l. split; auto. }
    apply orb_false_iff in Q. destruct Q as [Q1 Q2]. apply zrepeated_NoDup in Q1. apply negb_false_iff, Nat.eqb_eq in Q2. split; [auto|]. split; [auto|].
    intros i Hi. specialize (B2 i). rewrite in_concat in B2. specialize (B2 (ex_intro _ l (conj Hl Hi))). apply andb_true_iff in B2. destruct B2 as [X Y].
    apply Z.leb_le in X. apply Z.ltb_lt in Y. lia.
  - intros i Hi. specialize (B2' (Z.to_nat i)). rewrite in_seq, zin_In, Z2Nat.id, in_concat in B2' by lia.
    destruct B2' as (l & Hl & Hx); [lia|]. apply In_nth_error in Hl. destruct Hl as (s & Hs). exists s, l. auto.
  - clear - B3 B4. revert L B3 B4. induction wfns as [|c t IH]; intros [|l L] E F; try discriminate; constructor.
    + cbn in F. apply andb_true_iff in F. destruct F as [F _]. apply Z.eqb_eq in F. exact F.
    + apply IH; [injection E as E; exact E|]. cbn in F. apply andb_true_iff in F. destruct F as [_ F]. exact F.
  - intros ->. cbn [andb] in B5. apply orb_false_iff in B5. destruct B5 as [B5 B6]. apply orb_false_iff in B5. destruct B5 as [B5 _].
    apply negb_false_iff in B5, B6. apply Z.eqb_eq in B5. auto.
Qed.
Lemma places_some : forall i, i < Z.to_nat nspin <-> places L (Z.of_nat i) <> [].
Proof.
  intros i. destruct embedded_inv as (_ & Hn & _ & _ & _ & _ & _ & _ & Hl & Hc & _). split.
  - intros H E. destruct (Hc (Z.of_nat i)) as (s & l & Hs & Hi); [lia|]. apply (Permutation_in _ (Permutation_sym (sorted_Z_perm l))) in Hi.
    apply In_nth_error in Hi. destruct Hi as (j & Hj). assert (X : In (s, j) (places L (Z.of_nat i))) by (apply in_places; eauto). rewrite E in X. exact X.
  - intros H. destruct (places L (Z.of_nat i)) as [|[s j] t] eqn:E; [congruence|]. assert (X : In (s, j) (places L (Z.of_nat i))) by (rewrite E; left; auto).
    apply in_places in X. destruct X as (l & Hs & Hj). apply nth_error_In in Hj. apply (Permutation_in _ (sorted_Z_perm l)) in Hj.
    apply nth_error_In in Hs. destruct (Hl l Hs) as (_ & _ & Hr). specialize (Hr _ Hj). lia.
Qed.
Lemma split_parts : forall sd, fits sd (Z.to_nat nspin) ->
  exists ns, split_sd w sd = Ok (map Some ns) /\ Forall2 (part_of sd) L ns /\ length ns = length L /\
    (forall s l, nth_error L s = Some l -> forall j, bit (nth s ns 0%N) j = true <-> exists i, nth_error (sorted_Z l) j = Some (Z.of_nat i) /\ bit sd i = true).
Proof.
  intros sd Hf. destruct embedded_inv as (_ & Hn & _ & _ & _ & HD & HE & HL & Hl & _).
  destruct (split_ok L w HD ltac:(congruence) sd) as (ns & E & Ln & B).
  { intros i Hb. apply places_some. destruct (Nat.lt_ge_cases i (Z.to_nat nspin)) as [|G]; [auto|]. apply Hf in G. congruence. }
  exists ns. split; [exact E|]. split; [|split; [exact Ln|exact B]].
  assert (G : forall s l, nth_error L s = Some l -> part_of sd l (nth s ns 0%N)).
  { intros s l Hs. specialize (B s l Hs). destruct (Hl l (nth_error_In _ _ Hs)) as (N & _ & R).
    destruct (sorted_nat l N) as (m & Em & Ee & _); [intros i Hi; apply R in Hi; lia|]. exists m. split; [exact Ee|]. intros j.
    specialize (B j). rewrite Em in B. rewrite nth_error_map in B. destruct (nth_error m j) as [i|]; cbn [option_map] in B.
    - destruct (bit sd i) eqn:Bi.
      + apply B. exists i. auto.
      + destruct (bit (nth s ns 0%N) j); [|reflexivity]. destruct (proj1 B eq_refl) as (i' & Q & Bi'). injection Q as Q. apply Nat2Z.inj in Q. congruence.
    - destruct (bit (nth s ns 0%N) j); [|reflexivity]. destruct (proj1 B eq_refl) as (i' & Q & _). discriminate. }
  clear - Ln G. revert ns Ln G. induction L as [|l L' IH]; intros [|n ns] E G; try discriminate; constructor.
  - apply (G 0 l eq_refl).
  - apply IH; [injection E as E; exact E|]. intros s l' Hs. apply (G (S s) l' Hs).
Qed.
Lemma creates_total : forall ops l, (forall s j, In (s, j) ops -> s < length l) -> exists l', creates ops l = Ok l' /\ length l' = length l.
Proof.
  induction ops as [|[s j] ops IH]; intros l H; unfold creates; cbn [fold_left]; [eauto|]. cbn [bind fst snd]. unfold create_at.
  specialize (H s j (or_introl eq_refl)) as Hs. destruct (nth_error l s) as [x|] eqn:E; [|apply nth_error_None in E; lia].
  destruct (IH (upd l s (create x [j]))) as (l' & E1 & E2); [intros s' j' Hi; rewrite upd_length; apply (H s' j'); right; exact Hi|].
  exists l'. rewrite upd_length in E2. auto.
Qed.
Lemma split_outside : forall sd i, bit sd i = true -> (nspin <= Z.of_nat i)%Z -> split_sd w sd = Err KeyError.
Proof.
  intros sd i Hb Hi. destruct embedded_inv as (_ & Hn & _ & _ & _ & HD & HE & HL & Hl & _). unfold split_sd.
  assert (Hi' : In i (occ_indices (Some sd))) by (apply occ_indices_In; exact Hb).
  assert (Hp : places L (Z.of_nat i) = []).
  { destruct (places L (Z.of_nat i)) eqn:E; [reflexivity|]. assert (X : places L (Z.of_nat i) <> []) by (rewrite E; discriminate). apply places_some in X. lia. }
  assert (L0 : length (map (fun _ : comp K => Some 0%N) (em_wfns w)) = length L) by (rewrite map_length, HE; exact HL).
  revert Hi' L0. generalize (map (fun _ : comp K => Some 0%N) (em_wfns w)). generalize (occ_indices (Some sd)).
  induction l as [|x occs IH]; intros l Hi' L0; [destruct Hi'|]. cbn [fold_left bind].
  rewrite HD, look_get by apply build_nonempty. rewrite look_build. destruct (places L (Z.of_nat x)) as [|p ps] eqn:E.
  - cbn [bind]. clear. induction occs as [|y occs IH]; [reflexivity|]. exact IH.
  - cbn [bind]. destruct (creates_total (p :: ps) l) as (l' & E1 & E2).
    { intros s j H. rewrite <- E in H. apply in_places in H. destruct H as (l1 & H & _). rewrite L0. apply nth_error_Some. congruence. }
    unfold creates in E1. rewrite E1. rewrite <- HD. apply IH; [|congruence]. destruct Hi' as [<-|]; [congruence|auto].
Qed.
(** the electrons of a part *)
Definition on (s : nat) (ops : list (nat * nat)) : list nat := map snd (filter (fun sj => Nat.eqb (fst sj) s) ops).
Lemma on_part : forall sd ns s l, (forall s l, nth_error L s = Some l -> forall j, bit (nth s ns 0%N) j = true <-> exists i, nth_error (sorted_Z l) j = Some (Z.of_nat i) /\ bit sd i = true) ->
  nth_error L s = Some l -> has_electrons (nth s ns 0%N) (length (on s (all_places L sd))).
Proof.
  intros sd ns s l B Hs. exists (on s (all_places L sd)). split; [|split; [|reflexivity]].
  - unfold on. apply Combos.NoDup_map_inj; [|apply NoDup_filter, all_places_NoDup].
    intros (a, b) (a', b') H H' E. apply filter_In in H, H'. destruct H as [_ H], H' as [_ H']. cbn [fst snd] in *. apply Nat.eqb_eq in H, H'. congruence.
  - intros j. rewrite (B s l Hs). unfold on. rewrite in_map_iff. split.
    + intros ((a, b) & <- & H). apply filter_In in H. destruct H as [H E]. cbn [fst snd] in *. apply Nat.eqb_eq in E. subst a.
      apply in_all_places in H. destruct H as (l' & i & Hl' & Hj & Hb). rewrite Hs in Hl'. injection Hl' as <-. eauto.
    + intros (i & Hj & Hb). exists (s, j). split; [reflexivity|]. apply filter_In. cbn [fst]. rewrite Nat.eqb_refl. split; [|reflexivity]. apply in_all_places. eauto.
Qed.
End Embedded.
Lemma on_sum : forall n ops, (forall s j, In (s, j) ops -> s < n) -> list_sum (map (fun s => length (on s ops)) (seq 0 n)) = length ops.
Proof.
  intros n. induction ops as [|[s j] ops IH]; intros H.
  - cbn [length]. induction (seq 0 n) as [|x l IHl]; [reflexivity|]. cbn. exact IHl.
  - cbn [length]. rewrite <- IH by (intros; eapply H; right; eassumption). specialize (H s j (or_introl eq_refl)).
    assert (G : forall a m, a <= s < a + m -> list_sum (map (fun x => length (on x ((s, j) :: ops))) (seq a m)) = S (list_sum (map (fun x => length (on x ops)) (seq a m)))).
    { intros a m. revert a. induction m as [|m IHm]; intros a Ha; [lia|]. cbn [seq map list_sum fold_right].
      unfold on at 1. cbn [filter fst]. destruct (Nat.eqb_spec s a) as [->|Ne].
      - cbn [map length]. fold (on a ops). assert (Q : map (fun x => length (on x ((a, j) :: ops))) (seq (S a) m) = map (fun x => length (on x ops)) (seq (S a) m)).
        { apply map_ext_in. intros x Hx. apply in_seq in Hx. unfold on. cbn [filter fst]. destruct (Nat.eqb_spec a x); [lia|reflexivity]. }
        unfold list_sum in *. rewrite Q. reflexivity.
      - fold (on a ops). unfold list_sum in *. rewrite IHm by lia. lia. }
    apply G. lia.
Qed.
