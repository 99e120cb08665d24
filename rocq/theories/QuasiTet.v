(** Lemmas for C68: partitions into quadruples and the default parameters *)
From Coq Require Import List ZArith NArith Arith Bool Lia Permutation Sorted.
From Verif Require Import Py BitSpec BitLemmas Fock Slater SlaterBits SlaterBits2 Combos Alg SignSpec SignLemmas MatchSpec MatchLemmas GeneralLemmas MathTools SdLemmas PermLemmas BicliqueLemmas
  JacobiSpec CreSpec CreLemmas CILemmas CompLemmas Graphs GraphSpec PartLemmas PartMain P_Graphs CCRows WfnCI Geminal GemWf Nonorth DetRatioLemmas Quasi QuasiSpec QuasiLemmas QuasiMain.
Import ListNotations.
Local Open Scope nat_scope.

Lemma chunks_exist : forall (l : list Z) s h, length l = s * h -> exists Q, concat Q = l /\ map (@length Z) Q = repeat s h.
Proof.
  intros l s h. revert l. induction h as [|h IH]; intros l L; [exists []; destruct l; [auto|cbn in L; lia]|].
  destruct (IH (skipn s l)) as (Q & E & F); [rewrite skipn_length; nia|]. exists (firstn s l :: Q). cbn [concat map repeat]. rewrite E, F, firstn_skipn, firstn_length, Nat.min_l by nia. auto.
Qed.
Lemma capacities_one : forall s n, capacities [(s, n)] = repeat s n.
Proof. intros. unfold capacities. cbn [flat_map fst snd]. apply app_nil_r. Qed.
Lemma repeat_all : forall {A} (x : A) n l, l = repeat x n -> forall y, In y l -> y = x.
Proof. intros A x n l -> y H. now apply repeat_spec in H. Qed.
Lemma zocc_lt : forall m sd, within m sd -> forall i, In i (zocc sd) -> (0 <= i < Z.of_nat m)%Z.
Proof. intros m sd W i Hi. apply occZ_In in Hi as [H1 H2]. apply W in H2. lia. Qed.
(** the partitions of the occupied orbitals into quadruples *)
Lemma partitions_ok : forall m sd h, 0 < h -> length (zocc sd) = 4 * h -> exists L, t_partitions (zocc sd) = Ok L /\ L <> [] /\
  (forall P, In P L -> Permutation (concat P) (zocc sd) /\ length P = h /\ forall b, In b P -> StronglySorted Z.lt b /\ length b = 4) /\
  (within m sd -> lists_partitions (quadruples m) (zocc sd) h L).
Proof.
  intros m sd h H0 Len. unfold t_partitions. rewrite Len, (Nat.mul_comm 4 h), Nat.mod_mul, Nat.div_mul by lia. cbn [Nat.eqb negb].
  assert (Pos : positive [(4, h)]) by (intros p [<-|[]]; cbn; lia). assert (Nd : NoDup (map fst [(4, h)])) by (repeat constructor; intros []).
  destruct (C21_partitions [(4, h)] (zocc sd) Pos Nd (occZ_sorted sd)) as (out & E & A & B & D); [cbn [map list_sum fst snd fold_right]; lia|].
  assert (F : forall P, In P out -> Permutation (concat P) (zocc sd) /\ length P = h /\ forall b, In b P -> StronglySorted Z.lt b /\ length b = 4).
  { intros P HP. destruct (A P HP) as [Pm Cp]. rewrite capacities_one in Cp. split; auto. split.
    - rewrite <- (map_length (@length Z)), Cp. apply repeat_length.
    - intros b Hb. split; [eapply C21_ordered; eauto; apply occZ_sorted|]. apply (repeat_all 4 h _ Cp). now apply in_map. }
  exists out. split; auto. split; [|split; auto].
  - intros ->. destruct (chunks_exist (zocc sd) 4 h Len) as (Q & Eq & Fq). destruct (B Q) as (P & [] & _).
    + rewrite Eq. reflexivity.
    + rewrite capacities_one, Fq. reflexivity.
  - intros W. split; [|split].
    + intros P HP. destruct (F P HP) as (Pm & Ln & Fb). split; auto. intros b Hb. destruct (Fb b Hb) as [S L4]. apply quadruples_In. split; auto. split; auto.
      intros i Hi. apply (zocc_lt m sd W). eapply Permutation_in; [exact Pm|]. apply in_concat. eauto.
    + intros Q I Pm Ln. destruct (B Q Pm) as (P & HP & Sb).
      { rewrite capacities_one. replace (map (@length Z) Q) with (repeat 4 h); [reflexivity|]. rewrite <- Ln. clear -I. induction Q as [|b Q IH]; [reflexivity|]. cbn [length repeat map].
        rewrite IH by (intros x Hx; apply I; now right). f_equal. assert (X : In b (quadruples m)) by (apply I; now left). apply quadruples_In in X as (_ & X & _). auto. }
      exists P. split; auto. symmetry. apply same_bins_sorted; auto; rewrite Forall_forall; intros b Hb; [now apply (F P HP)|]. apply I, quadruples_In in Hb as (S & _). auto.
    + clear -D. unfold pairwise_distinct in *. induction D as [|P l F D IH]; constructor; auto. rewrite Forall_forall in *. intros Q HQ X. apply (F Q HQ). now apply same_bins_perm.
Qed.
(** the first partition: consecutive blocks *)
Lemma ins_group_full : forall s A rest x, 0 < s -> (forall b, In b A -> length b = s) -> ins_group s (A ++ rest) x = map (app A) (ins_group s rest x).
Proof.
  intros s A rest x Hs. induction A as [|b A IH]; intros H; cbn [app]; [symmetry; apply map_id|].
  assert (Lb : length b = s) by (apply H; now left). cbn [ins_group]. destruct b as [|y b]; [cbn in Lb; lia|]. rewrite Lb, Nat.ltb_irrefl. cbn [app]. rewrite IH by (intros c Hc; apply H; now right). rewrite map_map. reflexivity.
Qed.
Definition filled (s n : nat) (l : list Z) (P : list (list Z)) : Prop :=
  concat P = l /\ length P = n /\ exists A b k, P = A ++ b :: repeat [] k /\ (forall c, In c A -> length c = s) /\ length b <= s.
Lemma filled_step : forall s n l x P, 0 < s -> length l < s * n -> filled s n l P -> exists P' t, ins_group s P x = P' :: t /\ filled s n (l ++ [x]) P'.
Proof.
  intros s n l x P Hs L (E & Ln & A & b & k & EP & HA & Hb). subst P. rewrite ins_group_full by auto.
  assert (Cr : forall k, concat (repeat (@nil Z) k) = []) by (induction k0; auto).
  assert (LA : length (concat A) = s * length A) by (clear -HA; induction A as [|c A IH]; cbn [concat length]; [lia|]; rewrite app_length, IH by (intros; apply HA; now right); rewrite (HA c) by (now left); nia).
  rewrite concat_app in E. cbn [concat] in E. rewrite Cr, app_nil_r in E. rewrite app_length in Ln. cbn [length] in Ln. rewrite repeat_length in Ln.
  destruct (Nat.eq_dec (length b) s) as [Eb|Db].
  - destruct k as [|k]; [exfalso; rewrite <- E, app_length in L; nia|]. destruct b as [|y b]; [cbn in Eb; lia|]. cbn [repeat ins_group]. rewrite Eb, Nat.ltb_irrefl. cbn [app map].
    eexists. eexists. split; [reflexivity|]. split; [rewrite concat_app; cbn [concat]; rewrite Cr; rewrite <- E; rewrite <- app_assoc; cbn [app]; reflexivity|]. split; [rewrite app_length; cbn [length]; rewrite repeat_length; lia|].
    exists (A ++ [y :: b]), [x], k. split; [rewrite <- app_assoc; reflexivity|]. split; [intros c Hc; apply in_app_or in Hc as [Hc|[<-|[]]]; auto|cbn [length]; lia].
  - assert (G : forall t, concat (A ++ (b ++ [x]) :: repeat [] k) = l ++ [x] /\ length (A ++ (b ++ [x]) :: repeat [] k) = n /\ t = tt).
    { intros []. split; [rewrite concat_app; cbn [concat]; rewrite Cr, app_nil_r, app_assoc, E; reflexivity|]. split; auto. rewrite app_length. cbn [length]. rewrite repeat_length. lia. }
    destruct (G tt) as (G1 & G2 & _). assert (G3 : filled s n (l ++ [x]) (A ++ (b ++ [x]) :: repeat [] k)).
    { split; auto. split; auto. exists A, (b ++ [x]), k. split; auto. split; auto. rewrite app_length. cbn [length]. lia. }
    destruct b as [|y b]; cbn [ins_group map].
    + eexists. eexists. split; [reflexivity|exact G3].
    + destruct (Nat.ltb_spec (length (y :: b)) s); [|lia]. cbn [app map]. eexists. eexists. split; [reflexivity|exact G3].
Qed.
Lemma first_filled : forall s n r, 0 < s -> 0 < n -> StronglySorted Z.lt (rev r) -> length r <= s * n -> exists P t, gup_rev r [(s, n)] = Ok (P :: t) /\ filled s n (rev r) P.
Proof.
  intros s n r Hs Hn. assert (Pos : forall p, In p [(s, n)] -> 0 < fst p /\ 0 < snd p) by (intros p [<-|[]]; cbn; lia).
  induction r as [|x r IH]; intros So L.
  - exists (repeat [] n), []. split; [cbn [gup_rev flat_map snd]; now rewrite app_nil_r|]. split; [induction n; [lia|]; cbn; clear; induction n; auto|]. split; [apply repeat_length|].
    destruct n; [lia|]. exists [], [], n. split; [reflexivity|]. split; [intros c []|cbn; lia].
  - destruct (gup_rev_spec [(s, n)] Pos (x :: r) So) as (out & E & _). cbn [rev] in So.
    assert (So' : StronglySorted Z.lt (rev r) /\ forall y, In y (rev r) -> (y < x)%Z).
    { clear - So. induction (rev r) as [|y l IH]; [split; [constructor|intros y []]|]. simpl in So. inversion So as [|? ? S1 S2]; subst. destruct (IH S1) as [A B]. rewrite Forall_forall in S2. split.
      - constructor; auto. rewrite Forall_forall. intros z Hz. apply S2. apply in_or_app. now left.
      - intros z [<-|Hz]; auto. apply S2. apply in_or_app. right. now left. }
    destruct So' as [So' Lt]. cbn [length] in L. destruct IH as (P & t & EP & FP); [auto|lia|].
    pose proof FP as (Ec & LP & _). destruct (filled_step s n (rev r) x P Hs) as (P' & t' & Ei & FP'); auto; [rewrite rev_length; lia|].
    cbn [gup_rev] in E |- *. rewrite EP in *. cbn [bind map concat_res] in *.
    assert (Up : up_while (up_fuel [(s, n)]) [(s, n)] P x (-1)%Z (-1)%Z 0 = Ok (ins_all [(s, n)] P x)).
    { apply up_while_all; [intros p [<-|[]]; cbn; lia|unfold nbins; cbn; lia|]. rewrite Forall_forall. intros b Hb y Hy. apply Lt. rewrite <- Ec. apply in_concat. eauto. }
    rewrite Up in *.
    cbn [bind] in E |- *. destruct (concat_res _) as [rest|]; [|discriminate]. cbn [bind].
    cbn [ins_all]. rewrite (firstn_all2 P (n := n)), Ei by lia. rewrite (skipn_all2 P (n := n)) by lia. cbn [map app]. rewrite app_nil_r. eexists. eexists. split; [reflexivity|]. cbn [rev]. exact FP'.
Qed.
