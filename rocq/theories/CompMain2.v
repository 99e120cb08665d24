(** Embedded wavefunctions: numbers of electrons, pairs of alpha and beta orbitals, fixed numbers of electrons. *)
From Coq Require Import List ZArith NArith Arith Bool Lia Permutation Sorted.
From Verif Require Import Py Slater BitSpec BitLemmas SlaterBits SlaterBits2 SignLemmas GeneralLemmas Alg WfnCI Composite CompSpec BicliqueLemmas CompLemmas CompMain.
Import ListNotations.

Lemma sorted_app : forall la lb, StronglySorted Z.lt la -> StronglySorted Z.lt lb -> (forall x y, In x la -> In y lb -> (x < y)%Z) -> StronglySorted Z.lt (la ++ lb).
Proof.
  induction la as [|x la IH]; intros lb SA SB H; [exact SB|]. cbn. inversion SA as [|? ? SA' F]; subst. constructor.
  - apply IH; auto. intros; apply H; auto. right; auto.
  - rewrite Forall_forall in *. intros y Hy. apply in_app_or in Hy. destruct Hy; [auto|]. apply H; [left; reflexivity|auto].
Qed.
Lemma sorted_shift : forall k l, StronglySorted Z.lt l -> StronglySorted Z.lt (map (fun i => (i + k)%Z) l).
Proof.
  intros k l S. induction S as [|x l S IH F]; cbn; constructor; [auto|]. rewrite Forall_forall in *. intros y Hy. apply in_map_iff in Hy. destruct Hy as (z & <- & Hz). specialize (F z Hz). lia.
Qed.
(** a subsystem whose indices pair up holds both spin orbitals of each of its spatial orbitals *)
Lemma paired : forall (m : Z) l, NoDup l -> (forall i, In i l -> (0 <= i < m + m)%Z) ->
  distinct (map (fun i => if (i <? m)%Z then i else (i - m)%Z) l) = Nat.div (length l) 2 ->
  exists a : list nat, increasing a /\ (forall i, In i a -> (Z.of_nat i < m)%Z) /\ sorted_Z l = map Z.of_nat a ++ map (fun i => (Z.of_nat i + m)%Z) a.
Proof.
  intros m l N R D. set (f := fun i => if (i <? m)%Z then i else (i - m)%Z) in *. set (d := dedup (map f l)).
  assert (ND : NoDup d) by apply dedup_NoDup.
  assert (Rd : forall x, In x d -> (0 <= x < m)%Z).
  { intros x Hx. unfold d in Hx. rewrite dedup_In in Hx. apply in_map_iff in Hx. destruct Hx as (i & <- & Hi). apply R in Hi. unfold f. destruct (Z.ltb_spec i m); lia. }
  destruct (sorted_nat d ND) as (a & Ea & (Ia & _) & La); [intros i Hi; apply Rd in Hi; lia|].
  assert (Pd := sorted_Z_perm d). rewrite Ea in Pd.
  set (b := map Z.of_nat a ++ map (fun i => (i + m)%Z) (map Z.of_nat a)).
  assert (Sa : StronglySorted Z.lt (map Z.of_nat a)).
  { clear - Ia. induction Ia as [|x k S IH F]; cbn; constructor; [auto|]. rewrite Forall_forall in *. intros y Hy. apply in_map_iff in Hy. destruct Hy as (z & <- & Hz). specialize (F z Hz). lia. }
  assert (Ra : forall x, In x (map Z.of_nat a) -> (0 <= x < m)%Z) by (intros x Hx; apply Rd; apply (Permutation_in _ Pd); exact Hx).
  assert (Sb : StronglySorted Z.lt b).
  { apply sorted_app; [exact Sa|apply sorted_shift; exact Sa|]. intros x y Hx Hy. apply in_map_iff in Hy. destruct Hy as (z & <- & Hz). apply Ra in Hx, Hz. lia. }
  assert (I : incl l b).
  { intros i Hi. assert (X : In (f i) (map Z.of_nat a)).
    { apply (Permutation_in _ (Permutation_sym Pd)). unfold d. rewrite dedup_In. apply in_map. exact Hi. }
    unfold b. apply in_or_app. unfold f in X. destruct (Z.ltb_spec i m); [left; exact X|right]. apply in_map_iff. exists (i - m)%Z. split; [lia|exact X]. }
  assert (LL : length b <= length l).
  { unfold b. rewrite app_length, !map_length, La. unfold d. rewrite dedup_length, D. pose proof (Nat.div_mod (length l) 2 ltac:(lia)). lia. }
  exists a. split; [exact Ia|]. split; [intros i Hi; apply (in_map Z.of_nat) in Hi; apply Ra in Hi; lia|].
  transitivity b; [|unfold b; rewrite map_map; reflexivity].
  apply sorted_perm_eq; [apply sorted_strict; [apply (Permutation_NoDup (Permutation_sym (sorted_Z_perm l))); auto|apply sorted_Z_sorted]|exact Sb|].
  apply (Permutation_trans (sorted_Z_perm l)). apply NoDup_Permutation_bis; auto.
Qed.

Lemma mapM_okmap : forall {A B} (q : A -> res B) (r : A -> B) l, (forall x, In x l -> q x = Ok (r x)) -> mapM q l = Ok (map r l).
Proof. intros A B q r. induction l as [|x l IH]; intros H; [reflexivity|]. cbn. rewrite H by (left; auto). cbn. rewrite IH by (intros; apply H; right; auto). reflexivity. Qed.
Section Embedded.
Context {K : CRing}.
Variables (nelec nspin : Z) (L : list (list Z)) (wfns : list (comp K)) (dj : bool) (w : embedded K).
Hypothesis HW : new_embedded nelec nspin L wfns dj = Ok w.
Lemma embedded_pairs : forall l, In l L -> exists a : list nat, increasing a /\ (forall i, In i a -> (Z.of_nat i < nspin / 2)%Z) /\
  sorted_Z l = map Z.of_nat a ++ map (fun i => (Z.of_nat i + nspin / 2)%Z) a /\ length l = length a + length a.
Proof.
  intros l Hl. destruct (embedded_inv _ _ _ _ _ _ HW) as (_ & Hn & He & _ & _ & _ & _ & _ & H & _). destruct (H l Hl) as (N & D & R).
  destruct (paired (nspin / 2) l N) as (a & A1 & A2 & A3).
  - intros i Hi. apply R in Hi. pose proof (Z.div_mod nspin 2 ltac:(lia)). lia.
  - exact D.
  - exists a. split; [auto|]. split; [auto|]. split; [auto|]. rewrite <- (Permutation_length (sorted_Z_perm l)), A3, app_length, !map_length. reflexivity.
Qed.
Lemma place_unique : dj = true -> forall i, i < Z.to_nat nspin -> length (places L (Z.of_nat i)) = 1.
Proof.
  intros Hd i Hi. pose proof (proj1 (places_some _ _ _ _ _ _ HW i) Hi) as P.
  destruct (embedded_inv _ _ _ _ _ _ HW) as (_ & _ & _ & _ & _ & _ & _ & _ & H & _ & _ & HJ). destruct (HJ Hd) as (_ & DJ).
  pose proof (places_NoDup L (Z.of_nat i)) as N. destruct (places L (Z.of_nat i)) as [|[s j] [|[s' j'] t]] eqn:E; [congruence|reflexivity|exfalso].
  assert (X : In (s, j) (places L (Z.of_nat i))) by (rewrite E; left; reflexivity).
  assert (Y : In (s', j') (places L (Z.of_nat i))) by (rewrite E; right; left; reflexivity).
  apply in_places in X, Y. destruct X as (l & X1 & X2), Y as (l' & Y1 & Y2).
  assert (s = s').
  { eapply disjoint_lists_spec; [exact DJ|exact X1|exact Y1| |]; apply (Permutation_in _ (sorted_Z_perm _)); eapply nth_error_In; eassumption. }
  subst s'. rewrite X1 in Y1. injection Y1 as <-.
  assert (j = j').
  { assert (NS : NoDup (sorted_Z l)) by (apply (Permutation_NoDup (Permutation_sym (sorted_Z_perm l))); apply H; eapply nth_error_In; exact X1).
    rewrite NoDup_nth_error in NS. apply NS; [apply nth_error_Some; congruence|congruence]. }
  subst j'. inversion N as [|? ? N1 _]; subst. apply N1. left. reflexivity.
Qed.
Lemma all_places_length : dj = true -> forall sd, fits sd (Z.to_nat nspin) -> length (all_places L sd) = total_occ (Some sd).
Proof.
  intros Hd sd Hf. rewrite total_occ_length. unfold all_places.
  assert (G : forall i, In i (occ_indices (Some sd)) -> i < Z.to_nat nspin).
  { intros i Hi. apply occ_indices_In in Hi. destruct (Nat.lt_ge_cases i (Z.to_nat nspin)) as [|Q]; [auto|]. apply Hf in Q. congruence. }
  induction (occ_indices (Some sd)) as [|i l IH]; [reflexivity|]. cbn [flat_map length]. rewrite app_length, place_unique, IH; auto.
  - intros; apply G; right; auto.
  - apply G. left. reflexivity.
Qed.
Lemma split_electrons : dj = true -> forall sd ns, fits sd (Z.to_nat nspin) -> split_sd w sd = Ok (map Some ns) ->
  list_sum (map (fun n => total_occ (Some n)) ns) = total_occ (Some sd).
Proof.
  intros Hd sd ns Hf E. destruct (split_parts _ _ _ _ _ _ HW sd Hf) as (ns' & E' & _ & Ln & B). rewrite E in E'. apply Ok_inj in E'.
  assert (ns = ns').
  { clear - E'. revert ns' E'. induction ns as [|x ns IH]; intros [|y ns'] H; try discriminate; [reflexivity|]. injection H as -> H. f_equal. auto. }
  subst ns'. rewrite <- all_places_length by auto. rewrite <- (on_sum (length L)).
  - f_equal. rewrite <- Ln. apply (nth_ext _ _ 0 0); rewrite !map_length, ?seq_length; [reflexivity|]. intros s Hs.
    rewrite (nth_indep _ 0 (total_occ (Some 0%N))) by (rewrite map_length; auto). rewrite (map_nth (fun n => total_occ (Some n))).
    rewrite (nth_indep _ 0 (length (on 0 (all_places L sd)))) by (rewrite map_length, seq_length; auto).
    rewrite (map_nth (fun s => length (on s (all_places L sd)))), seq_nth by auto. cbn [Nat.add].
    destruct (nth_error L s) as [l|] eqn:El; [|apply nth_error_None in El; lia].
    eapply has_electrons_unique; [apply total_occ_has|]. eapply on_part; eauto.
  - intros s j H. apply in_all_places in H. destruct H as (l & _ & H & _). apply nth_error_Some. congruence.
Qed.
(** * fixed numbers of electrons *)
Lemma creates_counts : forall ops (l : list (option N)) c, length l = length c -> (forall s j, In (s, j) ops -> s < length l) ->
  exists l' c', creates ops l = Ok l' /\
  fold_left (fun acc (sj : nat * nat) => do lc <- acc; do l <- create_at (fst lc) (fst sj) (snd sj); do c <- count_at (snd lc) (fst sj); Ok (l, c)) ops (Ok (l, c)) = Ok (l', c') /\
  length l' = length l /\ length c' = length c /\ forall s, s < length c -> nth s c' 0 = nth s c 0 + length (on s ops).
Proof.
  induction ops as [|[s0 j0] ops IH]; intros l c LC H; unfold creates; cbn [fold_left].
  - exists l, c. repeat split; auto.
  - cbn [bind fst snd]. unfold create_at, count_at. specialize (H s0 j0 (or_introl eq_refl)) as Hs.
    destruct (nth_error l s0) as [x|] eqn:E; [|apply nth_error_None in E; lia].
    destruct (nth_error c s0) as [n|] eqn:E'; [|apply nth_error_None in E'; lia]. cbn [bind].
    destruct (IH (upd l s0 (create x [j0])) (upd c s0 (S n))) as (l' & c' & E1 & E2 & E3 & E4 & E5).
    + rewrite !upd_length. exact LC.
    + intros s j Hi. rewrite upd_length. apply (H s j). right. exact Hi.
    + rewrite upd_length in E3. rewrite upd_length in E4. exists l', c'. split; [exact E1|]. split; [exact E2|]. split; [exact E3|]. split; [exact E4|]. intros s Hs'.
      rewrite E5 by (rewrite upd_length; exact Hs'). unfold on. cbn [filter fst]. destruct (Nat.eqb_spec s0 s) as [<-|Ne].
      * rewrite nth_upd_eq by lia. apply nth_error_nth with (d := 0) in E'. rewrite E'. cbn [map length]. lia.
      * rewrite nth_upd_neq by auto. reflexivity.
Qed.
Lemma fixed_fold : forall occs (l : list (option N)) c, length l = length L -> length c = length L -> (forall i, In i occs -> places L (Z.of_nat i) <> []) -> 
  exists l' c', creates (flat_map (fun i => places L (Z.of_nat i)) occs) l = Ok l' /\
  fold_left (fun acc i => do lc <- acc; do sjs <- dict_get (em_dict w) (Z.of_nat i);
               fold_left (fun acc sj => do lc <- acc; do l <- create_at (fst lc) (fst sj) (snd sj); do c <- count_at (snd lc) (fst sj); Ok (l, c)) sjs (Ok lc))
            occs (Ok (l, c)) = Ok (l', c') /\ length c' = length c /\ forall s, s < length c -> nth s c' 0 = nth s c 0 + length (on s (flat_map (fun i => places L (Z.of_nat i)) occs)).
Proof.
  destruct (embedded_inv _ _ _ _ _ _ HW) as (_ & _ & _ & _ & _ & HD & _ & _).
  induction occs as [|i occs IH]; intros l c Ll Lc H; cbn [fold_left flat_map].
  - exists l, c. unfold creates. cbn. repeat split; auto.
  - cbn [bind]. rewrite HD, look_get by apply build_nonempty. rewrite look_build. specialize (H i (or_introl eq_refl)) as Hi.
    destruct (creates_counts (places L (Z.of_nat i)) l c) as (l1 & c1 & E1 & E2 & E3 & E4 & E5); [congruence| |].
    { intros s j Hx. apply in_places in Hx. destruct Hx as (l1 & Hx & _). rewrite Ll. apply nth_error_Some. congruence. }
    destruct (IH l1 c1) as (l2 & c2 & F1 & F2 & F3 & F4); [congruence|congruence|intros; apply H; right; auto|].
    exists l2, c2. rewrite creates_app, E1. cbn [bind]. split; [exact F1|]. split; [|split].
    + destruct (places L (Z.of_nat i)) as [|p ps]; [congruence|]. cbn [bind]. rewrite <- HD. rewrite E2. exact F2.
    + congruence.
    + intros s Hs. rewrite F4 by congruence. rewrite E5 by auto. unfold on. rewrite filter_app, map_app, app_length. lia.
Qed.
Lemma fixed_split_parts : forall nelecs sd, fits sd (Z.to_nat nspin) -> length L <= length nelecs ->
  exists ns, split_sd w sd = Ok (map Some ns) /\ length ns = length L /\
  fixed_split w nelecs sd = Ok (map (fun s => Some (if Z.eqb (nth s nelecs 0%Z) (Z.of_nat (total_occ (Some (nth s ns 0%N)))) then nth s ns 0%N else 0%N)) (seq 0 (length L))).
Proof.
  intros nelecs sd Hf Hn. destruct (split_parts _ _ _ _ _ _ HW sd Hf) as (ns & E & _ & Ln & B).
  destruct (embedded_inv _ _ _ _ _ _ HW) as (_ & _ & _ & _ & _ & HD & HE & HL & _).
  exists ns. split; [exact E|]. split; [exact Ln|].
  assert (P : forall i, In i (occ_indices (Some sd)) -> places L (Z.of_nat i) <> []).
  { intros i Hi. apply (places_some _ _ _ _ _ _ HW). apply occ_indices_In in Hi. destruct (Nat.lt_ge_cases i (Z.to_nat nspin)) as [|Q]; [auto|]. apply Hf in Q. congruence. }
  destruct (fixed_fold (occ_indices (Some sd)) (map (fun _ => Some 0%N) (em_wfns w)) (map (fun _ => 0) (em_wfns w))) as (l' & c' & E1 & E2 & E3 & E4).
  - rewrite map_length. congruence.
  - rewrite map_length. congruence.
  - exact P.
  - unfold fixed_split. rewrite E2. cbn [bind fst snd].
    assert (l' = map Some ns).
    { unfold split_sd in E. pose proof (split_creates L w HD _ (map (fun _ => Some 0%N) (em_wfns w)) P) as Q. unfold creates at 1 in Q. rewrite Q in E. rewrite E1 in E. apply Ok_inj in E. exact E. }
    subst l'. rewrite HE, HL. apply mapM_okmap. intros s Hs. apply in_seq in Hs. cbn [Nat.add] in Hs.
    rewrite (nth_error_nth' nelecs 0%Z) by lia. f_equal.
    assert (C : nth s c' 0 = total_occ (Some (nth s ns 0%N))).
    { rewrite E4 by (rewrite map_length; rewrite HE; lia). 
      replace (nth s (map (fun _ : comp K => 0) (em_wfns w)) 0) with 0.
      - cbn [Nat.add]. fold (all_places L sd). destruct (nth_error L s) as [l|] eqn:El; [|apply nth_error_None in El; lia].
        eapply has_electrons_unique; [|apply total_occ_has]. eapply on_part; eauto.
      - symmetry. destruct (nth_in_or_default s (map (fun _ : comp K => 0) (em_wfns w)) 0) as [Q|Q]; [apply in_map_iff in Q; destruct Q as (x & Q & _); auto|exact Q]. }
    rewrite C. destruct (Z.eqb _ _); [|reflexivity].
    rewrite (nth_indep _ None (Some 0%N)) by (rewrite map_length; lia). apply map_nth.
Qed.
End Embedded.
