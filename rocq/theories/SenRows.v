(** The lists of operators of SeniorityCC are the rows of BaseCC *)
From Coq Require Import List ZArith NArith Arith Bool Lia Permutation Sorted.
From Verif Require Import Py Slater SignSpec SignLemmas Graphs GraphSpec MatchSpec MathTools PermLemmas SdLemmas Combos
  GeneralLemmas BicliqueLemmas P_Graphs CC CCRows CCRows2 CCGen CCExp CCLemmas SenCC.
Import ListNotations.
Local Open Scope nat_scope.

Lemma subseq_app_inv : forall {A} (l1 l2 r : list A), subseq r (l1 ++ l2) -> exists r1 r2, r = r1 ++ r2 /\ subseq r1 l1 /\ subseq r2 l2.
Proof.
  induction l1 as [|x l1 IH]; intros l2 r H.
  - exists [], r. split; [reflexivity|]. split; [constructor|exact H].
  - cbn [app] in H. inversion H as [l|y a l H'|y a l H']; subst.
    + exists [], []. split; [reflexivity|]. split; constructor.
    + destruct (IH _ _ H') as (r1 & r2 & -> & H1 & H2). exists (x :: r1), r2. split; [reflexivity|]. split; [now constructor|auto].
    + destruct (IH _ _ H') as (r1 & r2 & -> & H1 & H2). exists r1, r2. split; [reflexivity|]. split; [now constructor|auto].
Qed.
Lemma subseq_skips : forall {A} (l1 r l2 : list A), subseq r l2 -> subseq r (l1 ++ l2).
Proof. induction l1; intros r l2 H; [exact H|]. cbn [app]. apply subseq_skip. auto. Qed.
Lemma subseq_in : forall {A} (l1 l2 r : list A) x, In x l1 -> subseq r l2 -> subseq (x :: r) (l1 ++ l2).
Proof.
  induction l1 as [|y l1 IH]; intros l2 r x Hx H; [destruct Hx|]. cbn [app]. destruct Hx as [->|Hx].
  - apply subseq_take. now apply subseq_skips.
  - apply subseq_skip. now apply IH.
Qed.
Lemma subseq_full : forall {A} (r l : list A), subseq r l -> length r = length l -> r = l.
Proof.
  induction 1 as [l|x a l H IH|x a l H IH]; intros L.
  - now destruct l.
  - f_equal. apply IH. cbn in L. lia.
  - exfalso. assert (X : length a <= length l) by (clear - H; induction H; cbn; lia). cbn in L. lia.
Qed.
Lemma filter_map' : forall {A B} (p : B -> bool) (f : A -> B) l, filter p (map f l) = map f (filter (fun x => p (f x)) l).
Proof. induction l as [|x l IH]; [reflexivity|]. cbn. destruct (p (f x)); cbn; now rewrite IH. Qed.

Definition pairs_of (g : list Z -> list (list Z)) (annhs : list (list Z)) : row := flat_map (fun a => map (pair a) (g a)) annhs.
Lemma pairs_fst : forall g annhs r, subseq r (pairs_of g annhs) -> NoDup (map fst r) -> subseq (map fst r) annhs.
Proof.
  intros g. induction annhs as [|a annhs IH]; intros r H N.
  - inversion H; subst. constructor.
  - unfold pairs_of in H. cbn [flat_map] in H. apply subseq_app_inv in H as (r1 & r2 & -> & H1 & H2). rewrite map_app in *.
    pose proof (IH r2 H2) as I2. apply NoDup_app_iff in N as (N1 & N2 & _). specialize (I2 N2). destruct r1 as [|p [|q r1]].
    + cbn. now constructor.
    + assert (E : fst p = a). { apply subseq_incl in H1. specialize (H1 p (or_introl eq_refl)). apply in_map_iff in H1 as (x & <- & _). reflexivity. }
      cbn. rewrite E. now constructor.
    + exfalso. apply subseq_incl in H1. pose proof (H1 p (or_introl eq_refl)) as X. pose proof (H1 q (or_intror (or_introl eq_refl))) as Y.
      apply in_map_iff in X as (x & <- & _), Y as (y & <- & _). cbn in N1. inversion N1 as [|? ? Q _]. apply Q. now left.
Qed.
Lemma pairs_pick : forall g r, Forall (fun p => In (snd p) (g (fst p))) r -> subseq r (pairs_of g (map fst r)).
Proof.
  intros g. induction 1 as [|[u v] r Hp F IH]; [constructor|]. cbn [map fst pairs_of flat_map]. apply subseq_in; [|exact IH].
  now apply in_map.
Qed.
Lemma pairs_In : forall g annhs p, In p (pairs_of g annhs) <-> In (fst p) annhs /\ In (snd p) (g (fst p)).
Proof.
  intros g annhs [u v]. unfold pairs_of. rewrite in_flat_map. cbn [fst snd]. split.
  - intros (x & Hx & H). apply in_map_iff in H as (y & E & Hy). injection E as -> ->. auto.
  - intros [H1 H2]. exists u. split; auto. now apply in_map.
Qed.

Definition same_len (creas : list (list Z)) (annh : list Z) : list (list Z) := filter (fun crea => Nat.eqb (length annh) (length crea)) creas.
Lemma combs_pairs : forall annhs creas, sen_combs annhs creas = map cat (pairs_of (same_len creas) annhs).
Proof.
  intros annhs creas. unfold sen_combs, pairs_of. rewrite map_flat_map. apply flat_map_ext. intros a. rewrite map_map. reflexivity.
Qed.
Lemma cat_inj : forall p q, length (fst p) = length (snd p) -> length (fst q) = length (snd q) -> cat p = cat q -> p = q.
Proof.
  intros [p1 p2] [q1 q2] Lp Lq E. destruct (cat_halves _ Lp) as (A1 & A2 & _), (cat_halves _ Lq) as (B1 & B2 & _). rewrite E in A1, A2. cbn in *. congruence.
Qed.
Lemma disjointb_spec : forall x y, disjointb x y = true <-> forall z, In z x -> ~ In z y.
Proof.
  intros x y. unfold disjointb. rewrite forallb_forall. split.
  - intros H z Hz Hy. specialize (H z Hz). apply (memz_In z y) in Hy. rewrite Hy in H. discriminate.
  - intros H z Hz. destruct (memz z y) eqn:E; [|reflexivity]. apply memz_In in E. exfalso. now apply (H z).
Qed.
Lemma key_eqb_spec : forall x y, key_eqb x y = true <-> x = y.
Proof. intros x y. unfold key_eqb. destruct (list_eq_dec Z.eq_dec x y); split; auto; discriminate. Qed.
Lemma match_spec : forall ops, sen_match ops = true <-> forall x y, In x ops -> In y ops -> x <> y -> forall z, In z x -> ~ In z y.
Proof.
  intros ops. unfold sen_match. rewrite forallb_forall. split.
  - intros H x y Hx Hy Ne. specialize (H y Hy). rewrite forallb_forall in H. specialize (H x Hx). apply orb_true_iff in H as [H|H].
    + apply key_eqb_spec in H. contradiction.
    + now apply disjointb_spec.
  - intros H y Hy. apply forallb_forall. intros x Hx. apply orb_true_iff. destruct (list_eq_dec Z.eq_dec x y) as [->|Ne].
    + left. now apply key_eqb_spec.
    + right. apply disjointb_spec. now apply H.
Qed.

Lemma in_block : forall (P : list (list Z)) b b' z, NoDup (concat P) -> In b P -> In b' P -> In z b -> In z b' -> b = b'.
Proof.
  induction P as [|x P IH]; intros b b' z N Hb Hb' Hz Hz'; [destruct Hb|]. cbn [concat] in N. apply NoDup_app_iff in N as (N1 & N2 & N3).
  destruct Hb as [->|Hb], Hb' as [->|Hb']; auto.
  - exfalso. apply (N3 z Hz). apply in_concat. eauto.
  - exfalso. apply (N3 z Hz'). apply in_concat. eauto.
  - eapply IH; eauto.
Qed.
Section Match.
Variables (a c : list Z) (annhs creas : list (list Z)).
Hypothesis Na : NoDup a.
Hypothesis Nc : NoDup c.
Hypothesis Dac : forall z, In z a -> ~ In z c.
Hypothesis Pa : Permutation (concat annhs) a.
Hypothesis Pc : Permutation (concat creas) c.
Hypothesis Ea : Forall (fun b => b <> []) annhs.
Hypothesis Ec : Forall (fun b => b <> []) creas.
Hypothesis L : length annhs = length creas.
Let NA : NoDup annhs.
Proof. apply concat_NoDup_blocks; auto. eapply Permutation_NoDup; [symmetry; exact Pa|auto]. Qed.
Let NC : NoDup creas.
Proof. apply concat_NoDup_blocks; auto. eapply Permutation_NoDup; [symmetry; exact Pc|auto]. Qed.
Let P := pairs_of (same_len creas) annhs.
Lemma P_In : forall p, In p P <-> In (fst p) annhs /\ In (snd p) creas /\ length (fst p) = length (snd p).
Proof. intros p. unfold P. rewrite pairs_In. unfold same_len. rewrite filter_In, Nat.eqb_eq. tauto. Qed.
Lemma P_NoDup : NoDup P.
Proof.
  unfold P, pairs_of. apply NoDup_flat_map; auto.
  - intros x _. apply NoDup_map_inj; [intros u v _ _ E; now injection E|]. apply NoDup_filter. exact NC.
  - intros x y p Hx Hy H1 H2. apply in_map_iff in H1 as (u & <- & _), H2 as (v & E & _). now injection E.
Qed.
Lemma matches : exists rs, filter sen_match (combinations (sen_combs annhs creas) (length annhs)) = map (map cat) rs /\ NoDup rs /\
  forall r, In r rs <-> map fst r = annhs /\ Permutation (map snd r) creas /\ same_size r.
Proof.
  exists (filter (fun r => sen_match (map cat r)) (combinations P (length annhs))). split; [|split].
  - rewrite combs_pairs, combinations_map, filter_map'. reflexivity.
  - apply NoDup_filter, combinations_NoDup, P_NoDup.
  - intros r. rewrite filter_In, combinations_In, match_spec. split.
    + intros [[S Lr] M]. pose proof (subseq_NoDup _ _ S P_NoDup) as Nr. pose proof (subseq_incl _ _ S) as Ir.
      assert (Ls : forall p, In p r -> length (fst p) = length (snd p)) by (intros p Hp; apply Ir, P_In in Hp; tauto).
      assert (D : forall p q, In p r -> In q r -> p <> q -> forall z, In z (cat p) -> ~ In z (cat q)).
      { intros p q Hp Hq Ne. apply M; try now apply in_map. intros X. apply Ne. apply cat_inj; auto. }
      rewrite Forall_forall in Ea, Ec.
      assert (N1 : NoDup (map fst r)).
      { apply NoDup_map_inj; auto. intros p q Hp Hq E. destruct (list_eq_dec Z.eq_dec (cat p) (cat q)) as [X|X].
        - apply cat_inj; auto.
        - exfalso. pose proof (Ir _ Hp) as Ip. apply P_In in Ip as (A1 & _). apply Ea in A1. destruct (fst p) as [|z t] eqn:Ep; [congruence|].
          apply (D p q Hp Hq) with (z := z); [congruence| |]; unfold cat; apply in_app_iff; left; [rewrite Ep|rewrite <- E]; now left. }
      assert (N2 : NoDup (map snd r)).
      { apply NoDup_map_inj; auto. intros p q Hp Hq E. destruct (list_eq_dec Z.eq_dec (cat p) (cat q)) as [X|X].
        - apply cat_inj; auto.
        - exfalso. pose proof (Ir _ Hp) as Ip. apply P_In in Ip as (_ & A1 & _). apply Ec in A1. destruct (snd p) as [|z t] eqn:Ep; [congruence|].
          apply (D p q Hp Hq) with (z := z); [congruence| |]; unfold cat; apply in_app_iff; right; [rewrite Ep|rewrite <- E]; now left. }
      split; [|split].
      * apply subseq_full; [now apply (pairs_fst (same_len creas))|]. now rewrite map_length.
      * apply NoDup_Permutation_bis; auto.
        -- rewrite map_length. lia.
        -- intros b Hb. apply in_map_iff in Hb as (p & <- & Hp). apply Ir, P_In in Hp. tauto.
      * apply Forall_forall. intros p Hp. apply Ir, P_In in Hp. tauto.
    + intros (E & Pm & S). unfold same_size in S. rewrite Forall_forall in S.
      assert (Ir : forall p, In p r -> In p P).
      { intros p Hp. apply P_In. split; [rewrite <- E; now apply in_map|]. split; [|auto]. eapply Permutation_in; [exact Pm|]. now apply in_map. }
      split; [split|].
      * unfold P. rewrite <- E. apply pairs_pick. apply Forall_forall. intros p Hp. apply Ir in Hp. unfold P in Hp. apply pairs_In in Hp. tauto.
      * rewrite <- E. now rewrite map_length.
      * intros x y Hx Hy Ne z Hz Hz'. apply in_map_iff in Hx as (p & <- & Hp), Hy as (q & <- & Hq).
        pose proof (proj1 (P_In p) (Ir p Hp)) as (A1 & A2 & _). pose proof (proj1 (P_In q) (Ir q Hq)) as (B1 & B2 & _).
        assert (InA : forall b z, In b annhs -> In z b -> In z a) by (intros b u Hb Hu; eapply Permutation_in; [exact Pa|]; apply in_concat; eauto).
        assert (InC : forall b z, In b creas -> In z b -> In z c) by (intros b u Hb Hu; eapply Permutation_in; [exact Pc|]; apply in_concat; eauto).
        assert (Nf : NoDup (map fst r)) by now rewrite E.
        assert (Ns : NoDup (map snd r)) by (eapply Permutation_NoDup; [symmetry; exact Pm|exact NC]).
        assert (Inj : forall (f : list Z * list Z -> list Z), NoDup (map f r) -> f p = f q -> p = q).
        { intros f Nf' Ef. clear - Nf' Ef Hp Hq. induction r as [|t r IH]; [destruct Hp|]. cbn in Nf'. inversion Nf' as [|? ? X Y]; subst.
          destruct Hp as [->|Hp], Hq as [->|Hq]; auto.
          - exfalso. apply X. rewrite Ef. now apply in_map.
          - exfalso. apply X. rewrite <- Ef. now apply in_map. }
        unfold cat in Hz, Hz'. apply in_app_iff in Hz as [Hz|Hz], Hz' as [Hz'|Hz'].
        -- apply Ne. f_equal. apply (Inj fst Nf). eapply in_block; eauto. eapply Permutation_NoDup; [symmetry; exact Pa|auto].
        -- apply (Dac z); [apply (InA (fst p)); auto|apply (InC (snd q)); auto].
        -- apply (Dac z); [apply (InA (fst q)); auto|apply (InC (snd p)); auto].
        -- apply Ne. f_equal. apply (Inj snd Ns). eapply in_block; eauto. eapply Permutation_NoDup; [symmetry; exact Pc|auto].
Qed.
End Match.

Lemma caps_length : forall bsn, list_sum (map snd bsn) = length (capacities bsn).
Proof. induction bsn as [|[s n] t IH]; [reflexivity|]. unfold capacities in *. cbn [map flat_map list_sum fold_right fst snd]. rewrite app_length, repeat_length. unfold list_sum in IH. now rewrite IH. Qed.
Lemma mapM_lists : forall {A B C} (f : A -> res (list C)) (g : B -> C) (h : A -> list B) l,
  (forall x, In x l -> exists r, f x = Ok (map g r) /\ Permutation r (h x)) ->
  exists R, mapM f l = Ok (map (map g) R) /\ Permutation (concat R) (flat_map h l).
Proof.
  intros A B C f g h. induction l as [|x l IH]; intros H.
  - exists []. split; [reflexivity|constructor].
  - destruct (H x (or_introl eq_refl)) as (r & E & Pr). destruct IH as (R & ER & PR); [intros; apply H; now right|].
    exists (r :: R). cbn [mapM]. rewrite E. cbn [bind]. rewrite ER. cbn [bind map concat flat_map]. split; [reflexivity|]. now apply Permutation_app.
Qed.
Lemma flat_map_perm2 : forall {A B} (f g : A -> list B) l, (forall x, In x l -> Permutation (f x) (g x)) -> Permutation (flat_map f l) (flat_map g l).
Proof. induction l as [|x l IH]; intros H; [constructor|]. cbn [flat_map]. apply Permutation_app; [apply H; now left|]. apply IH. intros; apply H; now right. Qed.

Section Gen.
Variables (d : exops) (ranks a c : list Z).
Hypothesis Sa : StronglySorted Z.lt a.
Hypothesis Sc : StronglySorted Z.lt c.
Hypothesis Dac : forall z, In z a -> ~ In z c.
Hypothesis Hpos : forall r, In r ranks -> (0 < r)%Z.
Hypothesis Hnd : NoDup ranks.
Hypothesis Lac : length a <= length c.
Lemma sen_part_rows : forall parts p, parts_ok ranks a parts -> In p parts -> exists rs, sen_part a c p = Ok (map (map cat) rs) /\ Permutation rs (part_rows a c p).
Proof.
  intros parts p Hparts Hin. destruct (part_pos ranks a Hpos parts Hparts p Hin) as [Pp Ps]. unfold sen_part.
  destruct (Nat.eq_dec (length a) (length c)) as [L|L].
  - destruct (part_facts a c Sa Sc p Pp Ps L) as (As & Cs & EA & EC & FA & FC & _ & _ & _ & _). unfold part_rows. rewrite EA, EC. cbn [bind].
    set (h := fun annhs => flat_map (fun creas => match pairings (bins_of p) annhs creas with Ok rs => rs | Err _ => [] end) Cs).
    destruct (mapM_lists (fun annhs => Ok (flat_map (fun creas => filter sen_match (combinations (sen_combs annhs creas) (list_sum (map snd (bins_of p))))) Cs)) (map cat) h As) as (R & ER & PR).
    + intros annhs HA. destruct (FA annhs HA) as (QA & LA & _).
      assert (Q : exists r, flat_map (fun creas => filter sen_match (combinations (sen_combs annhs creas) (list_sum (map snd (bins_of p))))) Cs = map (map cat) r /\
        Permutation r (h annhs)).
      { unfold h. clear h EC. induction Cs as [|creas Cs IH]; [exists []; split; [reflexivity|constructor]|].
        destruct (FC creas (or_introl eq_refl)) as (QC & LC & _). destruct IH as (r2 & E2 & P2); [intros; apply FC; now right|].
        destruct (part_pairings a c Sc p Pp Ps L annhs creas QA QC LA LC) as (rs & E & Nrs & I).
        assert (NE : forall blocks, map (@length Z) blocks = capacities (bins_of p) -> Forall (fun b => b <> []) blocks).
        { intros blocks X. destruct (caps_grouped _ _ X) as (Gs & G & ->). apply Forall_forall. intros b Hb ->.
          apply (grouped_sizes _ _ _ G) in Hb. apply in_map_iff in Hb as (sn & Es & Hs). apply bins_positive in Hs; auto. simpl in Es. lia. }
        destruct (matches a c annhs creas (SS_NoDup _ Sa) (SS_NoDup _ Sc) Dac QA QC (NE _ LA) (NE _ LC)) as (ms & Em & Nms & Im).
        { rewrite <- (map_length (@length Z) annhs), <- (map_length (@length Z) creas). congruence. }
        exists (ms ++ r2). cbn [flat_map]. rewrite map_app, <- E2. split.
        - f_equal. rewrite <- Em. f_equal. f_equal. rewrite caps_length, <- LA. apply map_length.
        - rewrite E. apply Permutation_app; [|exact P2]. apply NoDup_Permutation; auto. intros r. rewrite Im, I. reflexivity. }
      destruct Q as (r & -> & Pr). exists r. auto.
    + rewrite ER. cbn [bind]. exists (concat R). split; [now rewrite concat_map|]. exact PR.
  - destruct (part_rows_more a c Sa Sc p Pp Ps) as (As & E1 & E2); [lia|]. unfold part_rows. rewrite E1, E2. cbn [bind]. exists [].
    assert (X : forall l : list (list (list Z)), mapM (fun annhs => Ok (flat_map (fun creas => filter sen_match (combinations (sen_combs annhs creas) (list_sum (map snd (bins_of p))))) [])) l = Ok (map (fun _ => []) l)).
    { induction l as [|x l IH]; [reflexivity|]. cbn [mapM flat_map bind] in *. rewrite IH. reflexivity. }
    rewrite X. cbn [bind map flat_map]. split.
    + f_equal. clear. induction As; auto.
    + assert (Y : forall l : list (list (list Z)), flat_map (fun _ : list (list Z) => @nil row) l = []) by (induction l; auto). rewrite Y. constructor.
Qed.
Lemma sen_gen_rows : exists L parts, sen_gen d ranks a c = Ok (map (map cat) L) /\ parts_ok ranks a parts /\
  Permutation L (filter (row_ok d) (flat_map (part_rows a c) (rev parts))).
Proof.
  destruct (parts_exist ranks a c Hpos Hnd Lac) as (parts & Ep & Hp). unfold sen_gen. rewrite Ep. cbn [bind].
  destruct (mapM_lists (sen_part a c) (map cat) (part_rows a c) (rev parts)) as (R & ER & PR).
  { intros p Hin. apply in_rev in Hin. now apply (sen_part_rows parts). }
  rewrite ER. cbn [bind]. exists (filter (row_ok d) (concat R)), parts. split; [|split; [exact Hp|]].
  - f_equal. rewrite <- concat_map, filter_map'. reflexivity.
  - now apply perm_filter.
Qed.
End Gen.
