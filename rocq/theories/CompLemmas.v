(** Lemmas on the splitting of determinants in embedded wavefunctions. *)
From Coq Require Import List ZArith NArith Arith Bool Lia Permutation Sorted.
From Verif Require Import Py Slater BitSpec BitLemmas SlaterBits SlaterBits2 SignLemmas Alg WfnCI Composite CompSpec BicliqueLemmas.
Import ListNotations.

(** the dictionary *)
Definition look (d : list (Z * list (nat * nat))) (i : Z) : list (nat * nat) :=
  match find (fun e => Z.eqb (fst e) i) d with Some e => snd e | None => [] end.
Lemma find_map_key : forall (d : list (Z * list (nat * nat))) i k sj,
  find (fun e => Z.eqb (fst e) k) (map (fun e => if Z.eqb (fst e) i then (fst e, snd e ++ [sj]) else e) d) =
  option_map (fun e => if Z.eqb (fst e) i then (fst e, snd e ++ [sj]) else e) (find (fun e => Z.eqb (fst e) k) d).
Proof.
  intros d i k sj. induction d as [|e d IH]; [reflexivity|]. cbn [map find]. destruct (Z.eqb_spec (fst e) i) as [E|E]; cbn [fst].
  - destruct (Z.eqb (fst e) k) eqn:Q; [cbn; rewrite <- E, Z.eqb_refl; reflexivity|exact IH].
  - destruct (Z.eqb (fst e) k) eqn:Q; [cbn; destruct (Z.eqb_spec (fst e) i); [congruence|reflexivity]|exact IH].
Qed.
Lemma find_app_key : forall (d : list (Z * list (nat * nat))) k x,
  find (fun e => Z.eqb (fst e) k) (d ++ [x]) = match find (fun e => Z.eqb (fst e) k) d with Some e => Some e | None => if Z.eqb (fst x) k then Some x else None end.
Proof. intros d k x. induction d as [|e d IH]; [reflexivity|]. cbn [app find]. destruct (Z.eqb (fst e) k); auto. Qed.
Lemma look_add : forall d i sj k, look (dict_add d i sj) k = if Z.eqb i k then look d k ++ [sj] else look d k.
Proof.
  intros d i sj k. unfold look, dict_add. destruct (existsb (fun e => Z.eqb (fst e) i) d) eqn:E.
  - rewrite find_map_key. destruct (find (fun e => Z.eqb (fst e) k) d) as [e|] eqn:F; cbn [option_map].
    + apply find_some in F. destruct F as [_ F]. apply Z.eqb_eq in F. rewrite F. destruct (Z.eqb_spec k i), (Z.eqb_spec i k); try congruence; reflexivity.
    + destruct (Z.eqb_spec i k) as [<-|]; [|reflexivity]. apply existsb_exists in E. destruct E as (e & He & Q). apply (find_none _ _ F) in He. congruence.
  - rewrite find_app_key. cbn [fst]. destruct (find (fun e => Z.eqb (fst e) k) d) as [e|] eqn:F.
    + destruct (Z.eqb_spec i k) as [<-|]; [|reflexivity]. apply find_some in F. exfalso. destruct F as [F1 F2].
      assert (X : existsb (fun e => Z.eqb (fst e) i) d = true) by (apply existsb_exists; exists e; auto). congruence.
    + destruct (Z.eqb i k); reflexivity.
Qed.
Lemma look_get : forall d i, (forall e, In e d -> snd e <> []) -> dict_get d i = match look d i with [] => Err KeyError | l => Ok l end.
Proof.
  intros d i H. unfold dict_get, look. destruct (find (fun e => Z.eqb (fst e) i) d) as [e|] eqn:F; [|reflexivity].
  apply find_some in F. destruct F as [F _]. specialize (H e F). destruct (snd e); congruence.
Qed.
Lemma add_nonempty : forall d i sj, (forall e, In e d -> snd e <> []) -> forall e, In e (dict_add d i sj) -> snd e <> [].
Proof.
  intros d i sj H e. unfold dict_add. destruct (existsb _ d).
  - rewrite in_map_iff. intros (x & <- & Hx). destruct (Z.eqb (fst x) i); [cbn; destruct (snd x); discriminate|auto].
  - intros He. apply in_app_or in He. destruct He as [He|[<-|[]]]; [auto|discriminate].
Qed.
(** the positions that an orbital has in the subsystems *)
Definition places (L : list (list Z)) (i : Z) : list (nat * nat) :=
  flat_map (fun sl => map (fun ji => (fst sl, fst ji)) (filter (fun ji => Z.eqb (snd ji) i) (enumerate (sorted_Z (snd sl))))) (enumerate L).
Lemma look_inner : forall s (l : list (nat * Z)) d i,
  look (fold_left (fun d ji => dict_add d (snd ji) (s, fst ji)) l d) i = look d i ++ map (fun ji => (s, fst ji)) (filter (fun ji => Z.eqb (snd ji) i) l).
Proof.
  intros s. induction l as [|x l IH]; intros d i; cbn [fold_left filter map]; [rewrite app_nil_r; reflexivity|].
  rewrite IH, look_add. destruct (Z.eqb (snd x) i); [|reflexivity]. cbn [map]. rewrite <- app_assoc. reflexivity.
Qed.
Lemma look_build : forall L i, look (dict_build L) i = places L i.
Proof.
  intros L i. unfold dict_build, places. generalize (enumerate L). intros l.
  assert (G : forall d, look (fold_left (fun d sl => fold_left (fun d ji => dict_add d (snd ji) (fst sl, fst ji)) (enumerate (sorted_Z (snd sl))) d) l d) i =
    look d i ++ flat_map (fun sl => map (fun ji => (fst sl, fst ji)) (filter (fun ji => Z.eqb (snd ji) i) (enumerate (sorted_Z (snd sl))))) l).
  { induction l as [|x l IH]; intros d; cbn [fold_left flat_map]; [rewrite app_nil_r; reflexivity|]. rewrite IH, look_inner, app_assoc. reflexivity. }
  apply G.
Qed.
Lemma build_nonempty : forall L e, In e (dict_build L) -> snd e <> [].
Proof.
  intros L. unfold dict_build. generalize (enumerate L). intros l.
  assert (G : forall d, (forall e, In e d -> snd e <> []) -> forall e, In e (fold_left (fun d sl => fold_left (fun d ji => dict_add d (snd ji) (fst sl, fst ji)) (enumerate (sorted_Z (snd sl))) d) l d) -> snd e <> []).
  { induction l as [|x l IH]; intros d H; cbn [fold_left]; [exact H|]. apply IH.
    generalize (enumerate (sorted_Z (snd x))). intros m. revert d H. induction m as [|y m IHm]; intros d H; cbn [fold_left]; [exact H|]. apply IHm. apply add_nonempty. exact H. }
  apply G. intros e [].
Qed.
Lemma in_enumerate : forall {A} (l : list A) k x, In (k, x) (enumerate l) <-> nth_error l k = Some x.
Proof.
  intros A l k x. unfold enumerate.
  assert (G : forall (l : list A) a k, In (k, x) (combine (seq a (length l)) l) <-> exists j, k = a + j /\ nth_error l j = Some x).
  { clear. induction l as [|y l IH]; intros a k; cbn [length seq combine].
    - split; [intros []|]. intros (j & _ & H). destruct j; discriminate.
    - cbn [In]. rewrite IH. split.
      + intros [E|(j & -> & H)]; [injection E as <- <-; exists 0; split; [lia|reflexivity]|exists (S j); split; [lia|exact H]].
      + intros (j & -> & H). destruct j as [|j]; [left; cbn in H; injection H as ->; f_equal; lia|right; exists j; split; [lia|exact H]]. }
  rewrite G. split; [intros (j & -> & H); exact H|]. intros H. exists k. auto.
Qed.
Lemma enumerate_NoDup : forall {A} (l : list A), NoDup (enumerate l).
Proof.
  intros A l. unfold enumerate. apply (NoDup_map_inv fst).
  assert (E : map fst (combine (seq 0 (length l)) l) = seq 0 (length l)).
  { generalize 0. induction l as [|x l IH]; intros a; cbn; [reflexivity|]. f_equal. apply IH. }
  rewrite E. apply seq_NoDup.
Qed.
Lemma in_places : forall L i s j, In (s, j) (places L i) <-> exists l, nth_error L s = Some l /\ nth_error (sorted_Z l) j = Some i.
Proof.
  intros L i s j. unfold places. rewrite in_flat_map. split.
  - intros ((s', l) & Hs & H). apply in_enumerate in Hs. apply in_map_iff in H. destruct H as ((j', i') & E & H). cbn [fst snd] in *. injection E as -> ->.
    apply filter_In in H. destruct H as [H Q]. cbn [snd] in Q. apply Z.eqb_eq in Q. subst i'. apply in_enumerate in H. exists l. auto.
  - intros (l & Hl & Hj). exists (s, l). split; [apply in_enumerate; exact Hl|]. apply in_map_iff. exists (j, i). split; [reflexivity|].
    apply filter_In. split; [apply in_enumerate; exact Hj|apply Z.eqb_refl].
Qed.
Lemma places_NoDup : forall L i, NoDup (places L i).
Proof.
  intros L i. unfold places.
  assert (G : forall l : list (nat * list Z), NoDup (map fst l) -> NoDup (flat_map (fun sl => map (fun ji => (fst sl, fst ji)) (filter (fun ji => Z.eqb (snd ji) i) (enumerate (sorted_Z (snd sl))))) l)).
  { induction l as [|x l IH]; intros N; cbn [flat_map map]; [constructor|]. cbn [map] in N. apply NoDup_cons_iff in N. destruct N as [N1 N2].
    apply NoDup_app_intro; [|apply IH; auto|].
    - apply Combos.NoDup_map_inj.
      + intros (a, b) (a', b') Ha Ha' E. cbn [fst] in E. injection E as <-. apply filter_In in Ha, Ha'. destruct Ha as [_ Ha], Ha' as [_ Ha']. cbn [snd] in *.
        apply Z.eqb_eq in Ha, Ha'. congruence.
      + apply NoDup_filter, enumerate_NoDup.
    - intros y Hy Hy'. apply in_map_iff in Hy. destruct Hy as (q & <- & _). apply in_flat_map in Hy'. destruct Hy' as (z & Hz & H). apply in_map_iff in H.
      destruct H as (q' & E & _). injection E as E _. apply N1. apply in_map_iff. exists z. auto. }
  apply G. unfold enumerate.
  assert (E : map fst (combine (seq 0 (length L)) L) = seq 0 (length L)).
  { generalize 0. induction L as [|x l IH]; intros a; cbn; [reflexivity|]. f_equal. apply IH. }
  rewrite E. apply seq_NoDup.
Qed.

Lemma upd_map_Some : forall (ns : list N) s (n : N), upd (map Some ns) s (Some n) = map Some (upd ns s n).
Proof. induction ns as [|x ns IH]; intros s n; [destruct s; reflexivity|]. destruct s; cbn; [reflexivity|]. f_equal. apply IH. Qed.
(** a sequence of creations at different places *)
Definition creates (ops : list (nat * nat)) (l : list (option N)) : res (list (option N)) :=
  fold_left (fun acc sj => do l <- acc; create_at l (fst sj) (snd sj)) ops (Ok l).
Lemma creates_ok : forall ops l ns, NoDup ops -> (forall s j, In (s, j) ops -> s < length l) ->
  l = map Some ns -> (forall s j, In (s, j) ops -> bit (nth s ns 0%N) j = false) ->
  exists ns', creates ops l = Ok (map Some ns') /\ length ns' = length ns /\
    forall s j, s < length ns -> bit (nth s ns' 0%N) j = (bit (nth s ns 0%N) j || existsb (fun sj => Nat.eqb (fst sj) s && Nat.eqb (snd sj) j) ops)%bool.
Proof.
  induction ops as [|[s0 j0] ops IH]; intros l ns N B -> F; unfold creates; cbn [fold_left].
  - exists ns. repeat split; auto. intros. cbn. rewrite orb_false_r. reflexivity.
  - cbn [bind fst snd]. unfold create_at. rewrite nth_error_map. assert (Hs : s0 < length ns) by (specialize (B s0 j0 (or_introl eq_refl)); rewrite map_length in B; exact B).
    rewrite (nth_error_nth' ns 0%N Hs). cbn [option_map].
    assert (C : create (Some (nth s0 ns 0%N)) [j0] = Some (N.lor (nth s0 ns 0%N) (N.shiftl 1 (N.of_nat j0)))).
    { cbn [create]. rewrite occ_bit, (F s0 j0 (or_introl eq_refl)). reflexivity. }
    rewrite C. set (n' := N.lor _ _).
    assert (E : upd (map Some ns) s0 (Some n') = map Some (upd ns s0 n')).
    { apply upd_map_Some. }
    rewrite E. apply NoDup_cons_iff in N. destruct N as [N1 N2].
    assert (Bn : forall j, bit n' j = (bit (nth s0 ns 0%N) j || Nat.eqb j0 j)%bool).
    { intros j. unfold n', bit. rewrite N.lor_spec. f_equal. rewrite N.shiftl_1_l, N.pow2_bits_eqb.
      destruct (N.eqb_spec (N.of_nat j0) (N.of_nat j)), (Nat.eqb_spec j0 j); auto; lia. }
    assert (U : forall s j, bit (nth s (upd ns s0 n') 0%N) j = (bit (nth s ns 0%N) j || (Nat.eqb s0 s && Nat.eqb j0 j))%bool).
    { intros s j. destruct (Nat.eqb_spec s0 s) as [<-|Ne]; [rewrite nth_upd_eq by auto; apply Bn|rewrite nth_upd_neq by auto; rewrite orb_false_r; reflexivity]. }
    destruct (IH (map Some (upd ns s0 n')) (upd ns s0 n') N2) as (ns' & E1 & E2 & E3).
    + intros s j H. rewrite map_length, upd_length. specialize (B s j (or_intror H)). rewrite map_length in B. exact B.
    + reflexivity.
    + intros s j H. rewrite U, (F s j (or_intror H)). cbn [orb]. destruct (Nat.eqb_spec s0 s) as [<-|]; [|reflexivity].
      destruct (Nat.eqb_spec j0 j) as [<-|]; [|reflexivity]. contradiction.
    + exists ns'. split; [exact E1|]. rewrite upd_length in E2, E3. split; [exact E2|]. intros s j Hs'. rewrite E3 by auto. rewrite U. cbn [existsb fst snd]. rewrite orb_assoc. reflexivity.
Qed.
Lemma creates_app : forall a b l, creates (a ++ b) l = do l' <- creates a l; creates b l'.
Proof.
  intros a b l. unfold creates. rewrite fold_left_app. destruct (fold_left _ a (Ok l)) as [l'|e]; [reflexivity|]. cbn [bind].
  induction b as [|x b IH]; [reflexivity|]. cbn [fold_left bind]. exact IH.
Qed.
Lemma fold_err : forall {A B} (f : A -> B -> res A) (g : res A -> B -> res A), (forall e x, g (Err e) x = Err e) -> forall l e, fold_left g l (Err e) = Err e.
Proof. intros A B f g H. induction l as [|x l IH]; intros e; cbn [fold_left]; [reflexivity|]. rewrite H. apply IH. Qed.

Section Split.
Context {K : CRing}.
Variable L : list (list Z).
Variable w : embedded K.
Hypothesis HD : em_dict w = dict_build L.
Hypothesis HL : length (em_wfns w) = length L.
Lemma split_creates : forall occs l, (forall i, In i occs -> places L (Z.of_nat i) <> []) ->
  fold_left (fun acc i => do l <- acc; do sjs <- dict_get (em_dict w) (Z.of_nat i); creates sjs l) occs (Ok l) =
  creates (flat_map (fun i => places L (Z.of_nat i)) occs) l.
Proof.
  induction occs as [|i occs IH]; intros l H; cbn [fold_left flat_map]; [reflexivity|]. cbn [bind].
  rewrite HD, look_get by apply build_nonempty. rewrite look_build. rewrite creates_app.
  specialize (H i (or_introl eq_refl)) as Hi. destruct (places L (Z.of_nat i)) as [|p ps] eqn:E; [congruence|]. cbn [bind].
  destruct (creates (p :: ps) l) as [l'|e] eqn:C; cbn [bind].
  - rewrite <- IH by (intros; apply H; right; auto). rewrite HD. reflexivity.
  - clear. induction occs as [|x occs IH]; [reflexivity|]. cbn [fold_left bind]. exact IH.
Qed.
Definition all_places (sd : N) : list (nat * nat) := flat_map (fun i => places L (Z.of_nat i)) (occ_indices (Some sd)).
Lemma in_all_places : forall sd s j, In (s, j) (all_places sd) <-> exists l i, nth_error L s = Some l /\ nth_error (sorted_Z l) j = Some (Z.of_nat i) /\ bit sd i = true.
Proof.
  intros sd s j. unfold all_places. rewrite in_flat_map. split.
  - intros (i & Hi & H). apply in_places in H. destruct H as (l & Hl & Hj). apply occ_indices_In in Hi. eauto.
  - intros (l & i & Hl & Hj & B). exists i. split; [apply occ_indices_In; exact B|]. apply in_places. eauto.
Qed.
Lemma all_places_NoDup : forall sd, NoDup (all_places sd).
Proof.
  intros sd. unfold all_places. pose proof (increasing_NoDup _ (occ_indices_increasing (Some sd))) as N.
  induction N as [|i l Hi N IH]; cbn [flat_map]; [constructor|]. apply NoDup_app_intro; [apply places_NoDup|exact IH|].
  intros (s, j) H H'. apply in_flat_map in H'. destruct H' as (i' & Hi' & H'). apply in_places in H, H'. destruct H as (a & A1 & A2), H' as (b & B1 & B2).
  rewrite A1 in B1. injection B1 as <-. rewrite A2 in B2. injection B2 as E. apply Nat2Z.inj in E. subst. contradiction.
Qed.
Lemma split_ok : forall sd, (forall i, bit sd i = true -> places L (Z.of_nat i) <> []) ->
  exists ns, split_sd w sd = Ok (map Some ns) /\ length ns = length L /\
    forall s l, nth_error L s = Some l -> forall j, bit (nth s ns 0%N) j = true <-> exists i, nth_error (sorted_Z l) j = Some (Z.of_nat i) /\ bit sd i = true.
Proof.
  intros sd H. unfold split_sd. rewrite <- (map_map (fun _ => 0%N) Some). set (z := map (fun _ => 0%N) (em_wfns w)).
  assert (Z0 : forall s, nth s z 0%N = 0%N) by (intros s; unfold z; destruct (nth_in_or_default s (map (fun _ => 0%N) (em_wfns w)) 0%N) as [Q|Q]; [apply in_map_iff in Q; destruct Q as (x & Q & _); auto|exact Q]).
  assert (Lz : length z = length L) by (unfold z; rewrite map_length; exact HL).
  assert (B : forall s j, In (s, j) (all_places sd) -> s < length (map Some z)).
  { intros s j Hi. apply in_all_places in Hi. destruct Hi as (l & i & Hl & _). rewrite map_length, Lz. apply nth_error_Some. congruence. }
  destruct (creates_ok (all_places sd) (map Some z) z (all_places_NoDup sd) B eq_refl) as (ns & E & Ln & Bn).
  { intros s j _. rewrite Z0. apply bit_0. }
  exists ns. split; [|split].
  - transitivity (creates (all_places sd) (map Some z)); [|exact E]. apply split_creates. intros i Hi. apply H. apply occ_indices_In. exact Hi.
  - congruence.
  - intros s l Hl j. assert (Hs : s < length z) by (rewrite Lz; apply nth_error_Some; congruence). rewrite Bn by auto. rewrite Z0, bit_0. cbn [orb].
    rewrite existsb_exists. split.
    + intros ((s', j') & Hi & Q). cbn [fst snd] in Q. apply andb_true_iff in Q. destruct Q as [Q1 Q2]. apply Nat.eqb_eq in Q1, Q2. subst s' j'.
      apply in_all_places in Hi. destruct Hi as (l' & i & Hl' & Hj & Hb). rewrite Hl in Hl'. injection Hl' as <-. eauto.
    + intros (i & Hj & Hb). exists (s, j). split; [apply in_all_places; eauto|]. cbn. rewrite !Nat.eqb_refl. reflexivity.
Qed.
End Split.
