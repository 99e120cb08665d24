From Coq Require Import List ZArith Bool Lia Arith Permutation Sorted.
From Verif Require Import Py Slater SignLemmas Graphs MatchSpec MatchLemmas GraphSpec BicliqueLemmas BicliqueMain
  GeneralLemmas PartLemmas.
Import ListNotations.

Definition rm (x : Z) (b : list Z) : list Z := filter (fun y => negb (Z.eqb y x)) b.

Lemma rm_notin : forall x b, ~ In x b -> rm x b = b.
Proof.
  intros x b H. apply filter_all_true. intros y Hy. apply negb_true_iff, Z.eqb_neq. intros ->. auto.
Qed.
Lemma rm_app : forall x a b, rm x (a ++ b) = rm x a ++ rm x b.
Proof. intros. apply filter_app. Qed.
Lemma rm_self : forall x, rm x [x] = [].
Proof. intros. unfold rm. simpl. now rewrite Z.eqb_refl. Qed.
Lemma rm_perm : forall x a b, Permutation a b -> Permutation (rm x a) (rm x b).
Proof.
  intros x a b H. unfold rm. induction H as [|y a b H IH|y z a|]; simpl; auto.
  - destruct (negb (y =? x)%Z); auto.
  - destruct (negb (y =? x)%Z), (negb (z =? x)%Z); auto. apply perm_swap.
  - etransitivity; eauto.
Qed.
Lemma rm_concat : forall x P, concat (map (rm x) P) = rm x (concat P).
Proof. induction P as [|b P IH]; simpl; auto. now rewrite IH, rm_app. Qed.
Lemma bin_lt_notin : forall x b, bin_lt x b -> ~ In x b.
Proof. intros x b H I. apply H in I. lia. Qed.
Lemma map_rm_id : forall x g, Forall (bin_lt x) g -> map (rm x) g = g.
Proof.
  intros x g F. induction F as [|b g H F IH]; simpl; auto. rewrite IH, rm_notin; auto. now apply bin_lt_notin.
Qed.

Lemma Forall2_length : forall {A B} (R : A -> B -> Prop) l m, Forall2 R l m -> length l = length m.
Proof. induction 1; simpl; auto. Qed.

(** ** good groups *)
Fixpoint left_filled (g : list (list Z)) : Prop :=
  match g with
  | [] => True
  | [] :: t => Forall (fun b => b = []) t
  | _ :: t => left_filled t
  end.
Definition good_group (s : nat) (g : list (list Z)) : Prop :=
  Forall (fun b => length b <= s) g /\ Forall (StronglySorted Z.lt) g /\ left_filled g.
Inductive good : list (nat * nat) -> list (list Z) -> Prop :=
| good_nil : good [] []
| good_cons : forall s n bsn g r, length g = n -> good_group s g -> good bsn r -> good ((s, n) :: bsn) (g ++ r).

Lemma sorted_snoc : forall b x, StronglySorted Z.lt b -> bin_lt x b -> StronglySorted Z.lt (b ++ [x]).
Proof.
  induction b as [|y b IH]; intros x S L; simpl; [repeat constructor|]. inversion S; subst. constructor.
  - apply IH; auto. intros z Hz. apply L. now right.
  - rewrite Forall_forall in *. intros z Hz. apply in_app_or in Hz as [Hz|[<-|[]]]; auto. apply L. now left.
Qed.

Lemma all_empty_filled : forall g, Forall (fun b : list Z => b = []) g -> left_filled g.
Proof. intros [|b g] F; simpl; auto. inversion F; subst. auto. Qed.

Lemma ins_group_sound : forall s g x h, 0 < s -> good_group s g -> Forall (bin_lt x) g ->
  In h (ins_group s g x) ->
  good_group s h /\ length h = length g /\ Permutation (concat h) (concat g ++ [x]) /\ map (rm x) h = g.
Proof.
  intros s g x h Ps. revert h. induction g as [|b g IH]; intros h (G1 & G2 & G3) Lt H; [destruct H|].
  inversion G1 as [|? ? L1 L2]; inversion G2 as [|? ? S1 S2]; inversion Lt as [|? ? T1 T2]; subst. clear G1 G2 Lt.
  destruct b as [|y b].
  - destruct H as [<-|[]]. simpl in G3. split; [|split; [|split]].
    + split; [constructor; [simpl; lia|auto]|]. split; [constructor; [repeat constructor|auto]|].
      simpl. now apply all_empty_filled.
    + reflexivity.
    + simpl. apply Permutation_cons_append.
    + cbn [map]. rewrite rm_self, map_rm_id; auto.
  - cbn [ins_group] in H. apply in_app_or in H as [H|H].
    + destruct (Nat.ltb_spec (length (y :: b)) s) as [Hs|Hs]; [|destruct H]. destruct H as [<-|[]].
      split; [|split; [|split]].
      * split; [constructor; [rewrite app_length; simpl in *; lia|auto]|]. split; [|exact G3].
        constructor; auto. now apply sorted_snoc.
      * reflexivity.
      * cbn [concat]. rewrite <- !app_assoc. apply Permutation_app_head. apply Permutation_app_comm.
      * cbn [map]. rewrite rm_app, rm_self, app_nil_r, rm_notin, map_rm_id; auto. now apply bin_lt_notin.
    + apply in_map_iff in H as (h' & <- & H). simpl in G3.
      destruct (IH h') as ((A1 & A2 & A3) & A4 & A5 & A6); auto. { split; auto. }
      split; [|split; [|split]].
      * split; [constructor; auto|]. split; [constructor; auto|exact A3].
      * simpl. now rewrite A4.
      * cbn [concat]. rewrite <- app_assoc. now apply Permutation_app_head.
      * cbn [map]. rewrite A6, rm_notin; auto. now apply bin_lt_notin.
Qed.

Lemma ins_all_sound : forall bsn P x Q, (forall p, In p bsn -> 0 < fst p) -> good bsn P -> Forall (bin_lt x) P ->
  In Q (ins_all bsn P x) -> good bsn Q /\ Permutation (concat Q) (concat P ++ [x]) /\ map (rm x) Q = P.
Proof.
  intros bsn P x Q Pos G. revert Q Pos. induction G as [|s n bsn g r Lg Gg G IH]; intros Q Pos Lt H; [destruct H|].
  rewrite (ins_all_app s n) in H by auto. apply Forall_app in Lt as [T1 T2]. apply in_app_or in H as [H|H].
  - apply in_map_iff in H as (h & <- & H). apply ins_group_sound in H as (A1 & A2 & A3 & A4); auto.
    2: { apply (Pos (s, n)). now left. }
    split; [constructor; auto; lia|]. split.
    + rewrite !concat_app, A3, <- !app_assoc. apply Permutation_app_head, Permutation_app_comm.
    + rewrite map_app, A4, map_rm_id; auto.
  - apply in_map_iff in H as (h & <- & H). apply IH in H as (A1 & A2 & A3); auto.
    2: { intros p Hp. apply Pos. now right. }
    split; [constructor; auto|]. split.
    + rewrite !concat_app, A2, <- !app_assoc. reflexivity.
    + rewrite map_app, A3, map_rm_id; auto.
Qed.

(** ** same_bins *)
Lemma Forall2_perm_refl : forall P : list (list Z), Forall2 (@Permutation Z) P P.
Proof. induction P; constructor; auto. Qed.
Lemma Forall2_perm_sym : forall P Q : list (list Z), Forall2 (@Permutation Z) P Q -> Forall2 (@Permutation Z) Q P.
Proof. induction 1; constructor; auto. now symmetry. Qed.
Lemma Forall2_perm_trans : forall P Q R : list (list Z), Forall2 (@Permutation Z) P Q -> Forall2 (@Permutation Z) Q R ->
  Forall2 (@Permutation Z) P R.
Proof. intros P Q R H. revert R. induction H; intros R H'; inversion H'; subst; constructor; auto. etransitivity; eauto. Qed.

(** a permutation on the left can be moved to the right *)
Lemma Forall2_permute : forall {A B} (R : A -> B -> Prop) P P' Q, Permutation P P' -> Forall2 R P Q ->
  exists Q', Permutation Q Q' /\ Forall2 R P' Q'.
Proof.
  intros A B R P P' Q H. revert Q. induction H as [|x P P' H IH|x y P|P P' P'' H1 IH1 H2 IH2]; intros Q F.
  - inversion F; subst. exists []. auto.
  - inversion F as [|? q ? Q0 Hq F0]; subst. destruct (IH _ F0) as (Q' & Pq & F'). exists (q :: Q'). auto.
  - inversion F as [|? q ? Q0 ? F0]; subst. inversion F0 as [|? q' ? Q1]; subst. exists (q' :: q :: Q1).
    split; [apply perm_swap|]. auto.
  - destruct (IH1 _ F) as (Q' & Pq & F'). destruct (IH2 _ F') as (Q'' & Pq' & F''). exists Q''. split; auto.
    etransitivity; eauto.
Qed.

Lemma same_bins_refl : forall P, same_bins P P.
Proof. intros P. exists P. split; auto. apply Forall2_perm_refl. Qed.
Lemma same_bins_sym : forall P Q, same_bins P Q -> same_bins Q P.
Proof.
  intros P Q (Q' & Pq & F). apply Forall2_perm_sym in F. apply Permutation_sym in Pq.
  destruct (Forall2_permute _ _ _ _ Pq F) as (P' & Pp & F'). exists P'. auto.
Qed.
Lemma same_bins_trans : forall P Q R, same_bins P Q -> same_bins Q R -> same_bins P R.
Proof.
  intros P Q R (Q' & Pq & F) (R' & Pr & F'). destruct (Forall2_permute _ _ _ _ Pq F') as (R'' & Pr' & F'').
  exists R''. split; [etransitivity; eauto|]. eapply Forall2_perm_trans; eauto.
Qed.
Lemma same_bins_perm : forall P Q, Permutation P Q -> same_bins P Q.
Proof. intros P Q H. exists P. split; [now symmetry|apply Forall2_perm_refl]. Qed.
Lemma same_bins_cons : forall b c P Q, Permutation b c -> same_bins P Q -> same_bins (b :: P) (c :: Q).
Proof. intros b c P Q H (Q' & Pq & F). exists (c :: Q'). split; auto. Qed.
Lemma same_bins_app : forall P Q P' Q', same_bins P Q -> same_bins P' Q' -> same_bins (P ++ P') (Q ++ Q').
Proof.
  intros P Q P' Q' (A & PA & FA) (B & PB & FB). exists (A ++ B). split; [now apply Permutation_app|now apply Forall2_app].
Qed.
Lemma same_bins_in : forall P Q b, same_bins P Q -> In b P -> exists c, In c Q /\ Permutation b c.
Proof.
  intros P Q b (Q' & Pq & F) Hb.
  assert (G : exists c, In c Q' /\ Permutation b c).
  { clear Pq. induction F as [|u v P Q' H F IH]; [destruct Hb|]. destruct Hb as [->|Hb]; [exists v; split; auto; now left|].
    destruct (IH Hb) as (c & ? & ?). exists c. split; auto. now right. }
  destruct G as (c & Hc & P0). exists c. split; auto. eapply Permutation_in; [symmetry; exact Pq|auto].
Qed.
Lemma same_bins_rm : forall x P Q, same_bins P Q -> same_bins (map (rm x) P) (map (rm x) Q).
Proof.
  intros x P Q (Q' & Pq & F). exists (map (rm x) Q'). split; [now apply Permutation_map|].
  clear Pq. induction F; simpl; constructor; auto. now apply rm_perm.
Qed.
Lemma same_bins_length : forall P Q, same_bins P Q -> length P = length Q.
Proof. intros P Q (Q' & Pq & F). rewrite (Permutation_length Pq). eapply Forall2_length; eauto. Qed.

Lemma same_dist_rm : forall bsn x P Q, same_dist bsn P Q -> same_dist bsn (map (rm x) P) (map (rm x) Q).
Proof.
  induction 1; [constructor|]. rewrite !map_app. constructor; rewrite ?map_length; auto. now apply same_bins_rm.
Qed.
Lemma app_inv_len : forall {A} (a b c d : list A), length a = length c -> a ++ b = c ++ d -> a = c /\ b = d.
Proof.
  induction a as [|x a IH]; intros b [|y c] d L E; try discriminate; auto.
  simpl in *. injection E as -> E. destruct (IH b c d) as [-> ->]; auto.
Qed.
Lemma same_dist_inv : forall s n bsn P1 P2 Q1 Q2, length P1 = n -> length Q1 = n ->
  same_dist ((s, n) :: bsn) (P1 ++ P2) (Q1 ++ Q2) -> same_bins P1 Q1 /\ same_dist bsn P2 Q2.
Proof.
  intros s n bsn P1 P2 Q1 Q2 L1 L2 H. inversion H as [|? ? ? A B C D LA LC SB SD E1 E2 E3]; subst.
  apply app_inv_len in E2 as [-> ->]; [|lia]. apply app_inv_len in E3 as [-> ->]; [|lia]. auto.
Qed.

Lemma good_app_inv : forall s n bsn P, good ((s, n) :: bsn) P ->
  exists g r, P = g ++ r /\ length g = n /\ good_group s g /\ good bsn r.
Proof. intros s n bsn P H. inversion H; subst. eauto 8. Qed.

(** ** completeness *)
Lemma left_filled_split : forall g1 c g2, left_filled (g1 ++ c :: g2) -> c <> [] -> Forall (fun b => b <> []) g1.
Proof.
  induction g1 as [|[|y b] g1 IH]; intros c g2 H Hc; constructor.
  - simpl in H. rewrite Forall_app in H. destruct H as [_ H]. inversion H; subst. congruence.
  - simpl in H. rewrite Forall_app in H. destruct H as [_ H]. inversion H; subst. congruence.
  - discriminate.
  - exact (IH c g2 H Hc).
Qed.
Lemma ins_group_nonempty : forall s g1 c g2 x, Forall (fun b => b <> []) g1 -> c <> [] -> length c < s ->
  In (g1 ++ (c ++ [x]) :: g2) (ins_group s (g1 ++ c :: g2) x).
Proof.
  induction g1 as [|b g1 IH]; intros c g2 x F Hc L; cbn [app ins_group].
  - destruct c as [|y c]; [congruence|]. apply in_or_app. left.
    replace (Nat.ltb (length (y :: c)) s) with true by (symmetry; now apply Nat.ltb_lt). now left.
  - inversion F; subst. destruct b as [|y b]; [congruence|]. apply in_or_app. right. apply in_map. now apply IH.
Qed.
Lemma ins_group_empty : forall s g1 g2 x, Forall (fun b => b <> []) g1 ->
  In (g1 ++ [x] :: g2) (ins_group s (g1 ++ [] :: g2) x).
Proof.
  induction g1 as [|b g1 IH]; intros g2 x F; cbn [app ins_group]; [now left|].
  inversion F; subst. destruct b as [|y b]; [congruence|]. apply in_or_app. right. apply in_map. now apply IH.
Qed.
Lemma first_empty : forall g : list (list Z), In [] g -> exists g1 g2, g = g1 ++ [] :: g2 /\ Forall (fun b => b <> []) g1.
Proof.
  induction g as [|[|y b] g IH]; intros H; [destruct H|exists [], g; auto|].
  destruct H as [H|H]; [discriminate|]. destruct (IH H) as (g1 & g2 & -> & F). exists ((y :: b) :: g1), g2.
  split; auto. constructor; auto. discriminate.
Qed.

Lemma ins_group_complete : forall s g x h1 b h2, good_group s g ->
  same_bins g (h1 ++ rm x b :: h2) -> length b <= s -> Permutation b (rm x b ++ [x]) ->
  exists g', In g' (ins_group s g x) /\ same_bins g' (h1 ++ b :: h2).
Proof.
  intros s g x h1 b h2 (G1 & G2 & G3) (Q & Pq & F) L Pb.
  assert (Hin : In (rm x b) Q) by (eapply Permutation_in; [exact Pq|apply in_or_app; right; now left]).
  apply in_split in Hin as (q1 & q2 & ->).
  apply Permutation_app_inv in Pq.
  apply Forall2_app_inv_r in F as (g1 & g2' & F1 & F2 & ->). inversion F2 as [|c ? g2 ? Hc F2']; subst. clear F2.
  assert (S12 : same_bins (g1 ++ g2) (h1 ++ h2)).
  { exists (q1 ++ q2). split; auto. now apply Forall2_app. }
  assert (Fin : same_bins ((c ++ [x]) :: g1 ++ g2) (h1 ++ b :: h2)).
  { eapply same_bins_trans; [apply same_bins_cons; [|exact S12]|].
    - instantiate (1 := b). rewrite Pb. now apply Permutation_app_tail.
    - apply same_bins_perm, Permutation_middle. }
  destruct c as [|y c].
  - destruct (first_empty (g1 ++ [] :: g2)) as (e1 & e2 & E & Fe); [apply in_or_app; right; now left|].
    rewrite E. exists (e1 ++ [x] :: e2). split; [now apply ins_group_empty|].
    eapply same_bins_trans; [|exact Fin]. apply same_bins_perm. cbn [app].
    assert (Pe : Permutation (e1 ++ e2) (g1 ++ g2)) by (apply (Permutation_app_inv e1 e2 g1 g2 []); now rewrite E).
    rewrite <- Permutation_middle. now constructor.
  - exists (g1 ++ ((y :: c) ++ [x]) :: g2). split.
    + apply ins_group_nonempty; [eapply left_filled_split; eauto; discriminate|discriminate|].
      apply Permutation_length in Pb, Hc. rewrite app_length in Pb. simpl in *. lia.
    + eapply same_bins_trans; [|exact Fin]. apply same_bins_perm. symmetry. apply Permutation_middle.
Qed.

Lemma in_concat_split : forall (x : Z) (P : list (list Z)), In x (concat P) ->
  exists P1 b P2, P = P1 ++ b :: P2 /\ In x b.
Proof.
  intros x P H. apply in_concat in H as (b & Hb & Hx). apply in_split in Hb as (P1 & P2 & ->). eauto.
Qed.
Lemma rm_snoc_perm : forall x b, In x b -> NoDup b -> Permutation b (rm x b ++ [x]).
Proof.
  intros x b H N. apply in_split in H as (b1 & b2 & ->). rewrite rm_app.
  pose proof (NoDup_remove_2 _ _ _ N) as Nx. rewrite in_app_iff in Nx.
  change (rm x (x :: b2)) with (rm x ([x] ++ b2)). rewrite rm_app, rm_self. cbn [app].
  rewrite !rm_notin by tauto. rewrite <- Permutation_middle. apply Permutation_cons_append.
Qed.
Lemma map_rm_notin : forall x (P : list (list Z)), ~ In x (concat P) -> map (rm x) P = P.
Proof.
  induction P as [|b P IH]; intros H; simpl; auto. simpl in H. rewrite in_app_iff in H.
  rewrite rm_notin, IH by tauto. reflexivity.
Qed.

Lemma same_dist_refl_len : forall bsn P, length P = nbins bsn -> same_dist bsn P P.
Proof.
  induction bsn as [|[s n] bsn IH]; intros P L; unfold nbins in L; simpl in L.
  - destruct P; [constructor|discriminate].
  - rewrite <- (firstn_skipn n P) at 1 2. constructor.
    + rewrite firstn_length. lia.
    + rewrite firstn_length. lia.
    + apply same_bins_refl.
    + apply IH. rewrite skipn_length. unfold nbins. lia.
Qed.

Lemma ins_all_complete : forall bsn P x Q, good bsn P -> same_dist bsn P (map (rm x) Q) ->
  Forall2 (fun b s => length b <= s) Q (capacities bsn) -> In x (concat Q) -> NoDup (concat Q) ->
  exists P', In P' (ins_all bsn P x) /\ same_dist bsn P' Q.
Proof.
  intros bsn P x Q G. revert Q. induction G as [|s n bsn g r Lg Gg G IH]; intros Q SD C Hx N.
  - inversion C; subst. destruct Hx.
  - unfold capacities in C. cbn [flat_map fst snd] in C.
    apply Forall2_app_inv_r in C as (Q1 & Q2 & C1 & C2 & ->).
    assert (LQ : length Q1 = n) by (rewrite (Forall2_length _ _ _ C1), repeat_length; auto).
    rewrite map_app in SD. apply same_dist_inv in SD as [SB SD]; auto; [|now rewrite map_length].
    rewrite concat_app in Hx, N. apply NoDup_app_iff in N as (N1 & N2 & N3).
    rewrite (ins_all_app s n) by auto. apply in_app_or in Hx as [Hx|Hx].
    + destruct (in_concat_split _ _ Hx) as (h1 & b & h2 & -> & Hb).
      rewrite (map_rm_notin x Q2) in SD by (intros X; eapply N3; eauto).
      rewrite concat_app in N1. cbn [concat] in N1. apply NoDup_app_iff in N1 as (M1 & M2 & M3).
      apply NoDup_app_iff in M2 as (M4 & M5 & M6).
      rewrite map_app in SB. cbn [map] in SB.
      rewrite (map_rm_notin x h1) in SB by (intros X; eapply M3; [exact X|]; apply in_or_app; now left).
      rewrite (map_rm_notin x h2) in SB by (intros X; eapply M6; eauto).
      destruct (ins_group_complete s g x h1 b h2 Gg SB) as (g' & Hg & SB').
      { apply Forall2_app_inv_l in C1 as (c1 & c2 & _ & F2 & E). inversion F2; subst.
        assert (In y (repeat s (length g))) by (rewrite E; apply in_or_app; right; now left).
        apply repeat_spec in H. now subst. }
      { apply rm_snoc_perm; auto. }
      exists (g' ++ r). split; [apply in_or_app; left; now apply (in_map (fun h => h ++ r))|].
      constructor; auto. rewrite (same_bins_length _ _ SB'). auto.
    + destruct (IH Q2 SD C2 Hx N2) as (P' & HP & SD').
      exists (g ++ P'). split; [apply in_or_app; right; now apply in_map|]. constructor; auto.
      rewrite (map_rm_notin x Q1) in SB by (intros X; eapply N3; eauto). auto.
Qed.

(** ** distinctness *)
Lemma distinct_map : forall {A B} (R : B -> B -> Prop) (S : A -> A -> Prop) (f : A -> B) l,
  pairwise_distinct S l -> (forall x y, In x l -> In y l -> R (f x) (f y) -> S x y) -> pairwise_distinct R (map f l).
Proof.
  intros A B R S f l H. induction H as [|x l F H IH]; intros D; simpl; constructor.
  - rewrite Forall_forall in *. intros y Hy Rxy. apply in_map_iff in Hy as (z & <- & Hz).
    apply (F z Hz). apply D; auto; [now left|now right].
  - apply IH. intros; apply D; auto; now right.
Qed.

Fixpoint ins_keys (s : nat) (g : list (list Z)) : list (list Z) :=
  match g with
  | [] => []
  | [] :: _ => [[]]
  | b :: t => (if Nat.ltb (length b) s then [b] else []) ++ ins_keys s t
  end.
Lemma ins_keys_incl : forall s g k, In k (ins_keys s g) -> In k g.
Proof.
  induction g as [|[|y b] g IH]; intros k H; [destruct H|destruct H as [<-|[]]; now left|].
  cbn [ins_keys] in H. apply in_app_or in H as [H|H]; [|right; auto].
  destruct (Nat.ltb _ _); [destruct H as [<-|[]]; now left|destruct H].
Qed.
Lemma ins_keys_NoDup : forall s g, NoDup (concat g) -> NoDup (ins_keys s g).
Proof.
  induction g as [|[|y b] g IH]; intros N; [constructor|repeat constructor; auto|].
  cbn [ins_keys concat] in *. apply NoDup_app_iff in N as (N1 & N2 & N3).
  apply NoDup_app_iff. split; [destruct (Nat.ltb _ _); repeat constructor; auto|]. split; [auto|].
  intros k Hk Hk'. destruct (Nat.ltb _ _); [destruct Hk as [<-|[]]|destruct Hk]. apply ins_keys_incl in Hk'.
  apply (N3 y); [now left|]. apply in_concat. exists (y :: b). split; auto. now left.
Qed.

Definition has_key (x : Z) (u : list (list Z)) (k : list Z) : Prop :=
  StronglySorted Z.lt k /\ (exists c, In c u /\ In x c) /\ forall c, In c u -> In x c -> c = k ++ [x].

Lemma Forall2_map_l : forall {A B C} (R : B -> C -> Prop) (f : A -> B) l m,
  Forall2 (fun a c => R (f a) c) l m -> Forall2 R (map f l) m.
Proof. induction 1; simpl; constructor; auto. Qed.
Lemma Forall2_impl' : forall {A B} (R S : A -> B -> Prop) l m, (forall a b, R a b -> S a b) -> Forall2 R l m -> Forall2 S l m.
Proof. induction 2; constructor; auto. Qed.

Lemma ins_group_keys : forall s g x, Forall (StronglySorted Z.lt) g -> Forall (bin_lt x) g ->
  Forall2 (has_key x) (ins_group s g x) (ins_keys s g).
Proof.
  induction g as [|b g IH]; intros x S L; [constructor|].
  inversion S as [|? ? S1 S2]; inversion L as [|? ? L1 L2]; subst.
  assert (Ng : forall c, In c g -> ~ In x c).
  { intros c Hc. rewrite Forall_forall in L2. now apply bin_lt_notin, L2. }
  destruct b as [|y b].
  - cbn. constructor; [|constructor]. split; [constructor|]. split; [exists [x]; split; now left|].
    intros c [<-|Hc] Hx; auto. exfalso. eapply Ng; eauto.
  - cbn [ins_group ins_keys]. apply Forall2_app.
    + destruct (Nat.ltb _ _); [|constructor]. constructor; [|constructor]. split; [auto|].
      split; [exists ((y :: b) ++ [x]); split; [now left|apply in_or_app; right; now left]|].
      intros c [<-|Hc] Hx; auto. exfalso. eapply Ng; eauto.
    + apply Forall2_map_l. eapply Forall2_impl'; [|apply IH; auto]. intros u k (K1 & (c & Hc & Hx) & K3).
      split; auto. split; [exists c; split; auto; now right|].
      intros c' [<-|Hc'] Hx'; auto. exfalso. eapply bin_lt_notin; eauto.
Qed.

Lemma ins_group_distinct : forall s g x, Forall (StronglySorted Z.lt) g -> Forall (bin_lt x) g ->
  NoDup (concat g) -> pairwise_distinct same_bins (ins_group s g x).
Proof.
  intros s g x S L N. eapply distinct_by_key; [apply ins_group_keys; eauto|now apply ins_keys_NoDup|].
  intros u v k k' (K1 & (c & Hc & Hx) & K3) (K1' & _ & K3') SB.
  destruct (same_bins_in _ _ _ SB Hc) as (c' & Hc' & P).
  assert (Hx' : In x c') by (eapply Permutation_in; eauto).
  rewrite (K3 _ Hc Hx), (K3' _ Hc' Hx') in P. apply sorted_perm_eq; auto.
  apply Permutation_app_inv_r in P. auto.
Qed.

Lemma ins_all_distinct : forall bsn P x, (forall p, In p bsn -> 0 < fst p) -> good bsn P -> Forall (bin_lt x) P ->
  NoDup (concat P) -> pairwise_distinct (same_dist bsn) (ins_all bsn P x).
Proof.
  intros bsn P x Pos G. revert Pos. induction G as [|s n bsn g r Lg Gg G IH]; intros Pos L N; [constructor|].
  rewrite (ins_all_app s n) by auto. apply Forall_app in L as [L1 L2].
  rewrite concat_app in N. apply NoDup_app_iff in N as (N1 & N2 & N3).
  assert (Ps : 0 < s) by (apply (Pos (s, n)); now left).
  assert (Hl : forall h, In h (ins_group s g x) -> length h = n).
  { intros h Hh. apply ins_group_sound in Hh as (_ & E & _); auto. lia. }
  apply distinct_app.
  - eapply distinct_map; [apply (ins_group_distinct s g x); auto; apply Gg|].
    intros u v Hu Hv SD. apply same_dist_inv in SD as [SB _]; auto.
  - eapply distinct_map; [apply IH; auto; intros p Hp; apply Pos; now right|].
    intros u v Hu Hv SD. apply same_dist_inv in SD as [_ SD]; auto.
  - intros u v Hu Hv SD. apply in_map_iff in Hu as (h & <- & Hh). apply in_map_iff in Hv as (w & <- & Hw).
    apply same_dist_inv in SD as [SB _]; auto.
    apply ins_group_sound in Hh as (_ & _ & Pc & _); auto.
    assert (Hx : In x (concat h)) by (eapply Permutation_in; [symmetry; exact Pc|apply in_or_app; right; now left]).
    apply in_concat in Hx as (c & Hc & Hx). destruct (same_bins_in _ _ _ SB Hc) as (c' & Hc' & Pc').
    rewrite Forall_forall in L1. specialize (L1 c' Hc'). apply (bin_lt_notin _ _ L1). eapply Permutation_in; eauto.
Qed.

(** ** the whole enumeration *)
Lemma concat_res_map : forall {A B} (f : A -> res (list B)) (h : A -> list B) l,
  (forall x, In x l -> f x = Ok (h x)) -> concat_res (map f l) = Ok (flat_map h l).
Proof.
  induction l as [|x l IH]; intros H; simpl; auto. rewrite H by now left. cbn [bind].
  rewrite IH by (intros; apply H; now right). reflexivity.
Qed.

Lemma good_length : forall bsn P, good bsn P -> length P = nbins bsn.
Proof. induction 1; auto. rewrite app_length, IHgood, H. reflexivity. Qed.

Lemma good_init : forall bsn, good bsn (flat_map (fun sn => repeat [] (snd sn)) bsn).
Proof.
  induction bsn as [|[s n] bsn IH]; [constructor|]. cbn [flat_map snd]. constructor; auto.
  - apply repeat_length.
  - assert (E : forall b, In b (repeat (@nil Z) n) -> b = []) by (intros; eapply repeat_spec; eauto).
    split; [|split].
    + rewrite Forall_forall. intros b Hb. rewrite (E b Hb). simpl. lia.
    + rewrite Forall_forall. intros b Hb. rewrite (E b Hb). constructor.
    + apply all_empty_filled. rewrite Forall_forall. auto.
Qed.

Lemma good_caps : forall bsn P, good bsn P -> Forall2 (fun b s => length b <= s) P (capacities bsn).
Proof.
  induction 1 as [|s n bsn g r Lg (Gl & _) G IH]; [constructor|]. unfold capacities. cbn [flat_map fst snd].
  apply Forall2_app; auto. clear - Gl Lg. revert n Lg. induction Gl; intros n Lg; subst n; simpl; constructor; auto.
Qed.

Lemma gup_rev_spec : forall bsn, (forall p, In p bsn -> 0 < fst p /\ 0 < snd p) ->
  forall r, StronglySorted Z.lt (rev r) ->
  exists out, gup_rev r bsn = Ok out /\
    (forall P, In P out -> good bsn P /\ Permutation (concat P) (rev r)) /\
    (forall Q, distribution bsn (rev r) Q -> exists P, In P out /\ same_dist bsn P Q) /\
    pairwise_distinct (same_dist bsn) out.
Proof.
  intros bsn Pos. assert (Pos1 : forall p, In p bsn -> 0 < fst p) by (intros p Hp; now apply Pos).
  assert (Pos2 : forall p, In p bsn -> 0 < snd p) by (intros p Hp; now apply Pos).
  induction r as [|x r IH]; intros So.
  - exists [flat_map (fun sn => repeat [] (snd sn)) bsn]. split; [reflexivity|]. split; [|split].
    + intros P [<-|[]]. split; [apply good_init|]. simpl.
      assert (E : concat (flat_map (fun sn : nat * nat => repeat (@nil Z) (snd sn)) bsn) = []); [|now rewrite E].
      induction bsn as [|[s n] b IHb]; auto. cbn [flat_map snd]. rewrite concat_app, IHb.
      * rewrite app_nil_r. clear. induction n; simpl; auto.
      * intros; apply Pos; now right.
      * intros; apply Pos1; now right.
      * intros; apply Pos2; now right.
    + intros Q [Pc C]. exists (flat_map (fun sn => repeat [] (snd sn)) bsn). split; [now left|].
      apply Permutation_sym, Permutation_nil in Pc.
      assert (E : Q = flat_map (fun sn => repeat [] (snd sn)) bsn).
      { clear Pos Pos1 Pos2 So. revert Q Pc C. induction bsn as [|[s n] b IHb]; intros Q Pc C.
        - inversion C; auto.
        - unfold capacities in C. cbn [flat_map fst snd] in *. apply Forall2_app_inv_r in C as (Q1 & Q2 & C1 & C2 & ->).
          rewrite concat_app in Pc. apply app_eq_nil in Pc as [P1 P2]. rewrite (IHb Q2); auto. f_equal.
          apply Forall2_length in C1. rewrite repeat_length in C1. subst n.
          clear - P1. induction Q1 as [|q Q1 IH]; auto. simpl in *. apply app_eq_nil in P1 as [-> P1]. now rewrite <- IH. }
      rewrite E. apply same_dist_refl_len. apply good_length, good_init.
    + repeat constructor.
  - cbn [rev] in So |- *.
    assert (So' : StronglySorted Z.lt (rev r) /\ bin_lt x (rev r)).
    { clear - So. induction (rev r) as [|y l IH]; [split; [constructor|intros y []]|]. simpl in So.
      inversion So as [|? ? S1 S2]; subst. destruct (IH S1) as [A B]. rewrite Forall_forall in S2. split.
      - constructor; auto. rewrite Forall_forall. intros z Hz. apply S2. apply in_or_app. now left.
      - intros z [<-|Hz]; auto. apply S2. apply in_or_app. right. now left. }
    destruct So' as [So' Lx]. destruct (IH So') as (out & E & A1 & A2 & A3).
    assert (Nr : NoDup (rev r)).
    { clear - So'. induction So'; constructor; auto. intros X. rewrite Forall_forall in H. apply H in X. lia. }
    assert (Lt : forall P, In P out -> Forall (bin_lt x) P).
    { intros P HP. destruct (A1 P HP) as [_ Pc]. rewrite Forall_forall. intros b Hb y Hy. apply Lx.
      eapply Permutation_in; [exact Pc|]. apply in_concat. eauto. }
    exists (flat_map (fun P => ins_all bsn P x) out). split; [|split; [|split]].
    + cbn [gup_rev]. rewrite E. cbn [bind]. apply concat_res_map. intros P HP.
      apply up_while_all; auto. apply good_length. now apply A1.
    + intros Q HQ. apply in_flat_map in HQ as (P & HP & HQ). destruct (A1 P HP) as [G Pc].
      apply ins_all_sound in HQ as (G' & Pc' & _); auto. split; auto. rewrite Pc'. now apply Permutation_app_tail.
    + intros Q [Pc C].
      assert (N : NoDup (rev r ++ [x])).
      { apply NoDup_app_iff. split; auto. split; [repeat constructor; auto|].
        intros y Hy [<-|[]]. apply Lx in Hy. lia. }
      assert (NQ : NoDup (concat Q)) by (eapply Permutation_NoDup; [symmetry; exact Pc|exact N]).
      destruct (A2 (map (rm x) Q)) as (P & HP & SD).
      { split.
        - rewrite rm_concat. rewrite (rm_perm x _ _ Pc), rm_app, rm_self, app_nil_r, rm_notin; auto.
          intros X. apply Lx in X. lia.
        - clear - C. induction C; simpl; constructor; auto. unfold rm.
          etransitivity; [apply filter_len_le|auto]. }
      destruct (A1 P HP) as [G _].
      destruct (ins_all_complete bsn P x Q G SD C) as (P' & HP' & SD'); auto.
      { eapply Permutation_in; [symmetry; exact Pc|]. apply in_or_app. right. now left. }
      exists P'. split; auto. apply in_flat_map. eauto.
    + eapply distinct_flat_map; [exact A3| |].
      * intros P HP. destruct (A1 P HP) as [G Pc]. apply ins_all_distinct; auto.
        eapply Permutation_NoDup; [symmetry; exact Pc|auto].
      * intros P P' u v HP HP' Hu Hv SD.
        destruct (A1 P HP) as [G _]. destruct (A1 P' HP') as [G' _].
        apply ins_all_sound in Hu as (_ & _ & <-); auto. apply ins_all_sound in Hv as (_ & _ & <-); auto.
        now apply same_dist_rm.
Qed.

(** ** full bins of distinct sizes: set partitions *)
Lemma capacities_sum : forall bsn, list_sum (capacities bsn) = list_sum (map (fun p => fst p * snd p) bsn).
Proof.
  induction bsn as [|[s n] bsn IH]; simpl; auto. unfold capacities in *. cbn [flat_map fst snd].
  rewrite list_sum_app, IH. f_equal. induction n; simpl; lia.
Qed.
Lemma concat_length_sum : forall P : list (list Z), length (concat P) = list_sum (map (@length Z) P).
Proof. induction P; simpl; auto. rewrite app_length. lia. Qed.

Lemma caps_full : forall P caps, Forall2 (fun b s => length b <= s) P caps ->
  length (concat P) = list_sum caps -> map (@length Z) P = caps.
Proof.
  intros P caps H. rewrite concat_length_sum. induction H as [|b s P caps L F IH]; simpl; auto. intros E.
  assert (list_sum (map (@length Z) P) <= list_sum caps).
  { clear - F. induction F; simpl; lia. }
  assert (length b = s) by lia. subst. f_equal. apply IH. lia.
Qed.

Lemma filter_perm : forall {A} (f : A -> bool) l l', Permutation l l' -> Permutation (filter f l) (filter f l').
Proof.
  intros A f l l' H. induction H as [|y a b H IH|y z a|]; simpl; auto.
  - destruct (f y); auto.
  - destruct (f y), (f z); auto. apply perm_swap.
  - etransitivity; eauto.
Qed.

Lemma same_bins_to_dist : forall bsn P Q, NoDup (map fst bsn) -> map (@length Z) P = capacities bsn ->
  map (@length Z) Q = capacities bsn -> same_bins P Q -> same_dist bsn P Q.
Proof.
  induction bsn as [|[s n] bsn IH]; intros P Q N EP EQ SB.
  - destruct P; [|discriminate]. destruct Q; [|discriminate]. constructor.
  - unfold capacities in EP, EQ. cbn [flat_map fst snd] in EP, EQ.
    apply map_eq_app in EP as (P1 & P2 & -> & E1 & E2). apply map_eq_app in EQ as (Q1 & Q2 & -> & F1 & F2).
    fold (capacities bsn) in *. inversion N as [|? ? N1 N2]; subst.
    set (f := fun b : list Z => Nat.eqb (length b) s).
    assert (H1 : forall g, map (@length Z) g = repeat s n -> filter f g = g /\ filter (fun b => negb (f b)) g = []).
    { intros g Eg. assert (A : forall b, In b g -> length b = s).
      { intros b Hb. apply (repeat_spec n s). rewrite <- Eg. now apply in_map. }
      split; [apply filter_all_true; intros b Hb; apply Nat.eqb_eq; auto|].
      clear - A. induction g as [|b g IH]; auto. simpl. unfold f at 1. rewrite (A b), Nat.eqb_refl by now left.
      simpl. apply IH. intros; apply A; now right. }
    assert (H2 : forall g, map (@length Z) g = capacities bsn -> filter (fun b => negb (f b)) g = g /\ filter f g = []).
    { intros g Eg. assert (A : forall b, In b g -> length b <> s).
      { intros b Hb X. apply (in_map (@length Z)) in Hb. rewrite Eg, X in Hb. apply N1.
        unfold capacities in Hb. apply in_flat_map in Hb as ([s' n'] & Hp & Hr). apply repeat_spec in Hr. cbn [fst snd] in Hr.
        apply in_map_iff. exists (s', n'). auto. }
      split; [apply filter_all_true; intros b Hb; apply negb_true_iff, Nat.eqb_neq; auto|].
      clear - A. induction g as [|b g IH]; auto. simpl. unfold f at 1.
      assert (length b <> s) by (apply A; now left). apply Nat.eqb_neq in H. rewrite H. apply IH. intros; apply A; now right. }
    assert (FB : forall (h : list Z -> bool), (forall b c, Permutation b c -> h b = h c) -> forall P Q, same_bins P Q ->
                 same_bins (filter h P) (filter h Q)).
    { intros h Hh A B (B' & Pb & F). exists (filter h B'). split; [now apply filter_perm|].
      clear Pb. induction F as [|u v A B' Huv F IHF]; simpl; auto. rewrite (Hh u v Huv). destruct (h v); auto. }
    assert (Hf : forall b c, Permutation b c -> f b = f c) by (intros b c Pb; unfold f; now rewrite (Permutation_length Pb)).
    assert (X1 := FB f Hf _ _ SB). rewrite !filter_app in X1.
    destruct (H1 _ E1) as [a1 a2], (H1 _ F1) as [b1 b2], (H2 _ E2) as [c1 c2], (H2 _ F2) as [d1 d2].
    rewrite a1, b1, c2, d2, !app_nil_r in X1.
    assert (X2 := FB (fun b => negb (f b)) (fun b c Pb => f_equal negb (Hf b c Pb)) _ _ SB). rewrite !filter_app in X2.
    rewrite a2, b2, c1, d1 in X2. cbn [app] in X2.
    constructor; auto.
    + rewrite <- (map_length (@length Z)), E1. apply repeat_length.
    + rewrite <- (map_length (@length Z)), F1. apply repeat_length.
Qed.

Lemma same_dist_bins : forall bsn P Q, same_dist bsn P Q -> same_bins P Q.
Proof. induction 1; [apply same_bins_refl|]. now apply same_bins_app. Qed.
