(** The pairing schemes of the geminal classes list the matchings with their signs *)
From Coq Require Import List ZArith NArith Arith Bool Lia Permutation Sorted.
From Verif Require Import Py Slater BitSpec BitLemmas SlaterBits Combos Fock FockLemmas FockInner Alg SignSpec SignLemmas
  Graphs GraphSpec MatchSpec MatchLemmas GeneralLemmas MathTools SdLemmas PermLemmas HamLemmas
  BicliqueLemmas BicliqueMain WfnCI Geminal GemPairs CreSpec CreLemmas P_Slater2 P_Graphs P_GemPairs GemMain.
Import ListNotations.
Local Open Scope nat_scope.

(** *** APG *)
Lemma sorted_app_inv : forall l1 l2, StronglySorted Z.lt (l1 ++ l2) ->
  StronglySorted Z.lt l1 /\ StronglySorted Z.lt l2 /\ forall x y, In x l1 -> In y l2 -> (x < y)%Z.
Proof.
  induction l1 as [|a l1 IH]; intros l2 S; [split; [constructor|split; [auto|intros x y []]]|].
  cbn [app] in S. inversion S as [|? ? S' F]; subst. destruct (IH _ S') as (S1 & S2 & C). rewrite Forall_forall in F. split; [|split; auto].
  - constructor; auto. apply Forall_forall. intros x Hx. apply F. apply in_or_app. auto.
  - intros x y [<-|Hx] Hy; auto. apply F. apply in_or_app. auto.
Qed.
Lemma sortedZ_NoDup : forall l, StronglySorted Z.lt l -> NoDup l.
Proof.
  induction 1 as [|x l S IH F]; constructor; auto. intros I. rewrite Forall_forall in F. apply F in I. lia.
Qed.
Lemma cpm_sorted : forall h t sign p, length t = 2 * h -> StronglySorted Z.lt (rev t) -> In p (cpm_rev t sign) ->
  forall x y, In (x, y) (fst p) -> In x t /\ In y t /\ (x < y)%Z.
Proof.
  induction h as [|h IH]; intros t sign p Ln So Hp x y Hxy.
  { destruct t; [|cbn in Ln; lia]. destruct Hp as [<-|[]]. destruct Hxy. }
  destruct t as [|b [|a t]]; try (cbn in Ln; lia).
  assert (Hab : (a < b)%Z /\ StronglySorted Z.lt (rev t) /\ forall z, In z t -> (z < a)%Z /\ (z < b)%Z).
  { cbn [rev] in So. rewrite <- app_assoc in So. cbn [app] in So. apply sorted_app_inv in So as (S1 & S2 & C).
    inversion S2 as [|? ? S3 F]; subst. inversion F; subst. split; [auto|]. split; [auto|]. intros z Hz. split; apply C; cbn; auto; now apply -> in_rev. }
  destruct Hab as (Hab & St & Hz). destruct t as [|c t].
  { cbn [cpm_rev] in Hp. destruct Hp as [<-|[]]. destruct Hxy as [[= <- <-]|[]]. cbn; auto. }
  change (cpm_rev (b :: a :: c :: t) sign) with (flat_map (cpm_extend a b (Nat.div (length (b :: a :: c :: t)) 2 - 1)) (cpm_rev (c :: t) sign)) in Hp.
  assert (Lt : length (c :: t) = 2 * h) by (cbn [length] in *; lia). rewrite Ln, Nat.mul_comm, Nat.div_mul in Hp by lia.
  apply in_flat_map in Hp as ([sch s] & Hq & Hp).
  assert (IH' : forall x y, In (x, y) sch -> In x (c :: t) /\ In y (c :: t) /\ (x < y)%Z).
  { apply (IH (c :: t) sign (sch, s)); auto. }
  assert (Nt : NoDup (c :: t)) by (rewrite <- (rev_involutive (c :: t)); apply NoDup_rev, sortedZ_NoDup; auto).
  destruct (cpm_rev_spec h (c :: t) sign Lt Nt) as (A & _). destruct (A _ Hq) as [Len _]. cbn [fst] in Len. clear A.
  unfold cpm_extend in Hp. cbn [fst snd] in Hp. destruct Hp as [<-|Hp].
  - cbn [fst] in Hxy. apply in_app_or in Hxy as [Hxy|[[= <- <-]|[]]]; [|cbn; auto].
    destruct (IH' _ _ Hxy) as (A & B & C). repeat split; auto; now right; right.
  - apply in_flat_map in Hp as (i & Hi & Hp). set (q := nth i sch (0, 0)%Z) in Hp. apply in_rev, in_seq in Hi.
    assert (Iq : In q sch) by (apply nth_In; lia).
    assert (Hl : forall z, In z (firstn i sch) \/ In z (skipn (i + 1) sch) -> In z sch).
    { intros z [H|H]; [rewrite <- (firstn_skipn i sch)|rewrite <- (firstn_skipn (i + 1) sch)]; apply in_or_app; auto. }
    destruct q as [q1 q2]. destruct (IH' _ _ Iq) as (A & B & C). pose proof (Hz q1 A). pose proof (Hz q2 B). cbn [fst snd] in Hp.
    assert (Fin : forall u v, In (x, y) (firstn i sch ++ [(q1, u); (q2, v)] ++ skipn (i + 1) sch) -> (u = a /\ v = b \/ u = b /\ v = a) ->
       In x (b :: a :: c :: t) /\ In y (b :: a :: c :: t) /\ (x < y)%Z).
    { intros u v Hu E. apply in_app_or in Hu as [Hu|Hu]; [|apply in_app_or in Hu as [Hu|Hu]].
      - destruct (IH' x y) as (A' & B' & C'); [apply Hl; auto|]. repeat split; auto; now right; right.
      - assert (Ia : In a (b :: a :: c :: t)) by (cbn; auto). assert (Ib : In b (b :: a :: c :: t)) by (cbn; auto).
        assert (I1 : In q1 (b :: a :: c :: t)) by (right; right; auto). assert (I2 : In q2 (b :: a :: c :: t)) by (right; right; auto).
        destruct E as [[-> ->]|[-> ->]]; destruct Hu as [[= <- <-]|[[= <- <-]|[]]]; repeat split; auto; lia.
      - destruct (IH' x y) as (A' & B' & C'); [apply Hl; auto|]. repeat split; auto; now right; right. }
    destruct Hp as [<-|[<-|[]]]; cbn [fst] in Hxy; eapply Fin; eauto.
Qed.
(** sorted pairs: the same matching is the same set of pairs *)
Lemma matching_perm : forall ps qs, NoDup ps -> NoDup qs -> (forall x y, In (x, y) ps -> (x < y)%Z) -> (forall x y, In (x, y) qs -> (x < y)%Z) ->
  same_matching ps qs -> Permutation ps qs.
Proof.
  intros ps qs N1 N2 S1 S2 M. apply NoDup_Permutation; auto. intros [x y]. split; intros H.
  - destruct (proj1 (M x y) (or_introl H)) as [Q|Q]; auto. apply S1 in H. apply S2 in Q. lia.
  - destruct (proj2 (M x y) (or_introl H)) as [Q|Q]; auto. apply S2 in H. apply S1 in Q. lia.
Qed.
Lemma perm_matching : forall ps qs, Permutation ps qs -> same_matching ps qs.
Proof.
  intros ps qs P x y. unfold edge. split; (intros [H|H]; [left|right]); (eapply Permutation_in; [|exact H]); auto; now symmetry.
Qed.
Lemma good_apg : forall n m h, (forall i, bit m i = true -> i < n) -> 0 < h -> length (zocc m) = 2 * h ->
  good_schemes (all_pairs n) (zocc m) 1 (generate_complete_pmatch (zocc m) 1).
Proof.
  intros n m h B H L. pose proof (occZ_sorted m) as So. pose proof (occZ_NoDup m) as N.
  assert (Srt : forall p, In p (generate_complete_pmatch (zocc m) 1) -> forall x y, In (x, y) (fst p) -> In x (zocc m) /\ In y (zocc m) /\ (x < y)%Z).
  { intros p Hp x y Hxy. rewrite (cpm_even h) in Hp by auto. destruct (cpm_sorted h (rev (zocc m)) 1 p) with (x := x) (y := y) as (A & C & D); auto.
    - now rewrite rev_length.
    - now rewrite rev_involutive.
    - apply in_rev in A, C. auto. }
  assert (Np : forall p, In p (generate_complete_pmatch (zocc m) 1) -> NoDup (fst p)).
  { intros [ps s] Hp. apply (C19_sound h) in Hp; auto. eapply flat_perm_NoDup; [exact N|exact Hp]. }
  assert (Bz : forall x, In x (zocc m) -> (0 <= x < Z.of_nat n)%Z).
  { intros x Hx. apply occZ_In in Hx as [H1 H2]. apply B in H2. lia. }
  split; [|split].
  - intros [ps s] Hp. split.
    + intros [x y] Hxy. destruct (Srt _ Hp x y Hxy) as (A & C & D). apply all_pairs_In. cbn [fst snd]. apply Bz in A, C. lia.
    + destruct (C19_sign h _ _ _ _ L H N Hp) as (s0 & [[k Sw] Hs] & ->). exists k. cbn [fst snd]. split; auto. rewrite (Hs k Sw). lia.
  - intros qs I P. destruct (C19_complete h (zocc m) 1 qs L H N P) as (ps & s & Hp & M). exists (ps, s). split; auto. cbn [fst].
    apply matching_perm; auto.
    + eapply flat_perm_NoDup; eauto.
    + apply (Np (ps, s)); auto.
    + intros x y Hxy. apply I, all_pairs_In in Hxy. cbn [fst snd] in Hxy. lia.
    + intros x y Hxy. destruct (Srt (ps, s) Hp x y Hxy) as (_ & _ & D). auto.
  - destruct (C19_once h (zocc m) 1 L H N) as [D _]. unfold pairwise_distinct in *.
    clear - D. induction D as [|x l F D IH]; constructor; auto. eapply Forall_impl; [|exact F]. cbn beta. intros y Hy P. apply Hy. now apply perm_matching.
Qed.

(** *** set-divided *)
Lemma filter_perm : forall {A} (f : A -> bool) l, Permutation l (filter f l ++ filter (fun x => negb (f x)) l).
Proof.
  induction l as [|x l IH]; [reflexivity|]. cbn [filter]. destruct (f x); cbn [negb app].
  - now constructor.
  - rewrite IH at 1. apply Permutation_middle.
Qed.
Lemma flat_fst_snd : forall ps, Permutation (flat ps) (map fst ps ++ map snd ps).
Proof.
  induction ps as [|[a b] ps IH]; [reflexivity|]. cbn [flat map fst snd app]. constructor. rewrite IH. apply Permutation_middle.
Qed.
Lemma filter_all : forall {A} (f : A -> bool) l, (forall x, In x l -> f x = true) -> filter f l = l.
Proof. induction l as [|x l IH]; intros H; [reflexivity|]. cbn [filter]. rewrite (H x) by now left. f_equal. apply IH. intros; apply H; now right. Qed.
Lemma filter_none : forall {A} (f : A -> bool) l, (forall x, In x l -> f x = false) -> filter f l = [].
Proof. induction l as [|x l IH]; intros H; [reflexivity|]. cbn [filter]. rewrite (H x) by now left. apply IH. intros; apply H; now right. Qed.
Lemma perm_filter : forall {A} (f : A -> bool) l l', Permutation l l' -> Permutation (filter f l) (filter f l').
Proof.
  intros A f l l' P. induction P as [|x l l' P IH|x y l|]; cbn [filter]; auto.
  - destruct (f x); auto.
  - destruct (f x), (f y); auto; constructor.
  - etransitivity; eauto.
Qed.
(** matchings within the alpha-beta pairs are the bipartite matchings *)
Lemma bipartite_ab : forall k occ ps, (forall x, In x occ -> (0 <= x < 2 * Z.of_nat k)%Z) ->
  (incl ps (ab_pairs k) /\ Permutation (flat ps) occ <->
   bipartite (filter (fun i => (i <? Z.of_nat k)%Z) occ) (filter (fun i => negb (i <? Z.of_nat k)%Z) occ) ps).
Proof.
  intros k occ ps B. set (f := fun i => (i <? Z.of_nat k)%Z). unfold bipartite. split.
  - intros [I P].
    assert (F1 : filter f (map fst ps) = map fst ps).
    { apply filter_all. intros x Hx. apply in_map_iff in Hx as (p & <- & Hp). apply I, ab_In in Hp. unfold f. apply Z.ltb_lt. lia. }
    assert (F2 : filter f (map snd ps) = []).
    { apply filter_none. intros x Hx. apply in_map_iff in Hx as (p & <- & Hp). apply I, ab_In in Hp. unfold f. apply Z.ltb_ge. lia. }
    assert (F3 : filter (fun i => negb (f i)) (map snd ps) = map snd ps).
    { apply filter_all. intros x Hx. apply in_map_iff in Hx as (p & <- & Hp). apply I, ab_In in Hp. unfold f. apply negb_true_iff, Z.ltb_ge. lia. }
    assert (F4 : filter (fun i => negb (f i)) (map fst ps) = []).
    { apply filter_none. intros x Hx. apply in_map_iff in Hx as (p & <- & Hp). apply I, ab_In in Hp. unfold f. apply negb_false_iff, Z.ltb_lt. lia. }
    rewrite flat_fst_snd in P. split.
    + apply (perm_filter f) in P. rewrite filter_app, F1, F2, app_nil_r in P. exact P.
    + apply (perm_filter (fun i => negb (f i))) in P. rewrite filter_app, F3, F4 in P. exact P.
  - intros [P1 P2]. split.
    + intros [x y] H. apply ab_In. cbn [fst snd].
      assert (X : In x (filter f occ)) by (eapply Permutation_in; [exact P1|]; apply (in_map fst _ _ H)).
      assert (Y : In y (filter (fun i => negb (f i)) occ)) by (eapply Permutation_in; [exact P2|]; apply (in_map snd _ _ H)).
      apply filter_In in X as [X1 X2], Y as [Y1 Y2]. unfold f in *. apply Z.ltb_lt in X2. apply negb_true_iff, Z.ltb_ge in Y2. apply B in X1, Y1. lia.
    + rewrite flat_fst_snd, P1, P2. symmetry. apply (filter_perm f).
Qed.
Definition set_schemes (k : nat) (occ : list Z) : res (list (scheme * Z)) :=
  generate_biclique_pmatch (filter (fun i => (i <? Z.of_nat k)%Z) occ) (filter (fun i => negb (i <? Z.of_nat k)%Z) occ) (Some occ) false.
Lemma good_set : forall k m h, (forall i, bit m i = true -> i < 2 * k) -> 0 < h -> length (zocc m) = 2 * h ->
  (exists L, set_schemes k (zocc m) = Ok L /\ good_schemes (ab_pairs k) (zocc m) 1 L) \/
  (set_schemes k (zocc m) = Ok [([], 1%Z)] /\ forall qs, incl qs (ab_pairs k) -> ~ Permutation (flat qs) (zocc m)).
Proof.
  intros k m h B H L. pose proof (occZ_sorted m) as So. pose proof (occZ_NoDup m) as N. unfold set_schemes.
  assert (Bz : forall x, In x (zocc m) -> (0 <= x < 2 * Z.of_nat k)%Z).
  { intros x Hx. apply occZ_In in Hx as [H1 H2]. apply B in H2. lia. }
  set (one := filter (fun i => (i <? Z.of_nat k)%Z) (zocc m)). set (two := filter (fun i => negb (i <? Z.of_nat k)%Z) (zocc m)).
  assert (P12 : Permutation (zocc m) (one ++ two)) by apply filter_perm.
  assert (N12 : NoDup (one ++ two)) by (eapply Permutation_NoDup; eauto).
  assert (Bip : forall ps, incl ps (ab_pairs k) /\ Permutation (flat ps) (zocc m) <-> bipartite one two ps) by (intros; now apply bipartite_ab).
  destruct (Nat.eq_dec (length one) (length two)) as [E|E].
  - left. rewrite C20_ordered_set; auto.
    assert (Ne : one <> []). { intros Q. pose proof (Permutation_length P12) as Q2. rewrite app_length, <- E, Q, L in Q2. cbn [length] in Q2. lia. }
    destruct (C20_matchings one two None false Ne E N12 (or_introl eq_refl)) as (out & Eo & _ & A & C & D).
    exists out. split; auto. split; [|split]; auto.
    + intros p Hp. destruct (proj2 (Bip (fst p)) (A p Hp)) as [I P]. split; auto.
      destruct (swaps_exist (flat (fst p)) (zocc m)) as [j Sw]; [eapply Permutation_NoDup; [symmetry; exact P|auto]|auto|].
      exists j. split; auto. rewrite (C20_sign one two false out p Ne E N12 Eo Hp j (zocc m) Sw So). lia.
    + intros qs I P. apply C. apply Bip. auto.
  - right. split.
    + assert (Hs : exists o, sign_perm (flatten_pairs (combine one two)) (Some (zocc m)) false = Ok o).
      { unfold sign_perm. rewrite (proj2 (strictly_increasing_iff _) So). cbn [negb]. eauto. }
      destruct Hs as [o Hs]. unfold generate_biclique_pmatch. rewrite Hs. cbn [bind].
      destruct ((length one =? 0) || (length two =? 0))%bool; [reflexivity|]. rewrite (proj2 (Nat.eqb_neq _ _) E). reflexivity.
    + intros qs I P. destruct (proj1 (Bip qs) (conj I P)) as [B1 B2]. apply E. rewrite <- (Permutation_length B1), <- (Permutation_length B2). now rewrite !map_length.
Qed.

(** *** APIG *)
Definition apig_pairs (pairs : list (Z * Z)) (occ : list Z) : list (Z * Z) :=
  flat_map (fun i => match find (fun p => Z.eqb (fst p) i) (rev pairs) with Some p => [p] | None => [] end) occ.
Lemma flat_unique : forall pairs p q, NoDup (flat pairs) -> In p pairs -> In q pairs ->
  (fst p = fst q \/ fst p = snd q \/ snd p = fst q \/ snd p = snd q) -> p = q.
Proof.
  induction pairs as [|[a b] l IH]; intros p q N Hp Hq E; [destruct Hp|]. cbn [flat] in N. inversion N as [|? ? N1 N2]; subst. inversion N2 as [|? ? N3 N4]; subst.
  assert (F : forall r, In r l -> In (fst r) (flat l) /\ In (snd r) (flat l)) by (intros [x y] Hr; now apply flat_In).
  destruct Hp as [<-|Hp], Hq as [<-|Hq]; auto; cbn [fst snd] in *; exfalso.
  - destruct (F q Hq) as [F1 F2]. destruct E as [->|[->|[->| ->]]]; [apply N1; now right|apply N1; now right|auto|auto].
  - destruct (F p Hp) as [F1 F2]. destruct E as [E|[E|[E|E]]]; [rewrite E in F1; apply N1; now right|rewrite E in F1; auto|rewrite E in F2; apply N1; now right|rewrite E in F2; auto].
Qed.
Lemma apig_pairs_In : forall pairs occ p, NoDup (flat pairs) -> (In p (apig_pairs pairs occ) <-> In p pairs /\ In (fst p) occ).
Proof.
  intros pairs occ p N. unfold apig_pairs. rewrite in_flat_map. split.
  - intros (i & Hi & H). destruct (find _ (rev pairs)) as [q|] eqn:E; [|destruct H]. destruct H as [<-|[]]. apply find_some in E as [E1 E2].
    apply in_rev in E1. apply Z.eqb_eq in E2. subst. auto.
  - intros [H1 H2]. exists (fst p). split; auto. destruct (find _ (rev pairs)) as [q|] eqn:E.
    + apply find_some in E as [E1 E2]. apply in_rev in E1. apply Z.eqb_eq in E2. left. apply (flat_unique pairs); auto.
    + exfalso. pose proof (find_none _ _ E p (proj1 (in_rev _ _) H1)) as Q. cbn beta in Q. rewrite Z.eqb_refl in Q. discriminate.
Qed.
Lemma apig_pairs_NoDup : forall pairs occ, NoDup (flat pairs) -> NoDup occ -> NoDup (apig_pairs pairs occ).
Proof.
  intros pairs occ N No. unfold apig_pairs. apply NoDup_flat_map; auto.
  - intros i _. destruct (find _ _); repeat constructor; auto.
  - intros i j p _ _ H1 H2. destruct (find _ (rev pairs)) as [q|] eqn:E in H1; [|destruct H1]. destruct (find _ (rev pairs)) as [q'|] eqn:E' in H2; [|destruct H2].
    destruct H1 as [->|[]]. destruct H2 as [->|[]]. apply find_some in E as [_ E]. apply find_some in E' as [_ E']. apply Z.eqb_eq in E, E'. congruence.
Qed.
Lemma flat_sub_NoDup : forall l pairs, NoDup l -> incl l pairs -> NoDup (flat pairs) -> (forall p, In p pairs -> fst p <> snd p) -> NoDup (flat l).
Proof.
  induction l as [|[a b] l IH]; intros pairs N I F D; [constructor|]. inversion N as [|? ? N1 N2]; subst. cbn [flat].
  assert (Hab : In (a, b) pairs) by (apply I; now left).
  assert (X : forall x, In x (flat l) -> x <> a /\ x <> b).
  { intros x Hx. apply flat_In_inv in Hx as [y Hy]. split; intros ->.
    - destruct Hy as [Hy|Hy]; assert (E : (a, b) = _) by (apply (flat_unique pairs); [exact F|exact Hab|apply I; right; exact Hy|cbn; auto]); rewrite <- E in Hy; auto.
    - destruct Hy as [Hy|Hy]; assert (E : (a, b) = _) by (apply (flat_unique pairs); [exact F|exact Hab|apply I; right; exact Hy|cbn; auto]); rewrite <- E in Hy; auto. }
  constructor; [|constructor].
  - intros [Q|Q]; [apply (D _ Hab); cbn; auto|]. now apply X in Q as [Q _].
  - intros Q. now apply X in Q as [_ Q].
  - apply (IH pairs); auto. intros p Hp. apply I. now right.
Qed.
Lemma incl_perm : forall (a b : list Z), NoDup a -> NoDup b ->
  (forallb (fun x => existsb (Z.eqb x) a) b && forallb (fun x => existsb (Z.eqb x) b) a)%bool = true <-> Permutation a b.
Proof.
  intros a b Na Nb. assert (G : forall l l', forallb (fun x => existsb (Z.eqb x) l) l' = true <-> incl l' l).
  { intros l l'. rewrite forallb_forall. unfold incl. split; intros H x Hx.
    - apply H in Hx. apply existsb_exists in Hx as (y & Hy & E). apply Z.eqb_eq in E. now subst.
    - apply existsb_exists. exists x. split; auto. apply Z.eqb_refl. }
  rewrite andb_true_iff, !G. split.
  - intros [H1 H2]. apply NoDup_Permutation; auto. intros x. split; auto.
  - intros P. split; intros x; [apply Permutation_in; now symmetry|now apply Permutation_in].
Qed.
Lemma good_apig : forall nelec pairs m h, NoDup (flat pairs) -> (forall p, In p pairs -> (fst p < snd p)%Z) ->
  0 < h -> length (zocc m) = 2 * h -> nelec = Z.of_nat (2 * h) ->
  (exists L, apig_schemes nelec pairs (zocc m) = Ok L /\ good_schemes pairs (zocc m) (pow_m1 h) L) \/
  (apig_schemes nelec pairs (zocc m) = Ok [([], 1%Z)] /\ forall qs, incl qs pairs -> ~ Permutation (flat qs) (zocc m)).
Proof.
  intros nelec pairs m h F Srt H L ->. pose proof (occZ_sorted m) as So. pose proof (occZ_NoDup m) as N.
  unfold apig_schemes. rewrite L, Z.eqb_refl. cbn [negb]. fold (apig_pairs pairs (zocc m)). rewrite pair_orbs_flat.
  set (ps := apig_pairs pairs (zocc m)). destruct (sign_perm_None (flat ps) true) as [s Hs]. rewrite Hs. cbn [bind].
  assert (Np : NoDup ps) by (now apply apig_pairs_NoDup).
  assert (Ip : incl ps pairs) by (intros p Hp; apply apig_pairs_In in Hp as [? _]; auto).
  assert (Nf : NoDup (flat ps)).
  { apply (flat_sub_NoDup ps pairs); auto. intros p Hp. apply Srt in Hp. lia. }
  assert (Cmp : forall qs, incl qs pairs -> Permutation (flat qs) (zocc m) -> Permutation qs ps).
  { intros qs I P. apply NoDup_Permutation; [apply (flat_perm_NoDup qs (zocc m)); auto|exact Np|]. intros [a b]. unfold ps. rewrite apig_pairs_In by auto. cbn [fst]. split.
    - intros Hq. split; auto. eapply Permutation_in; [exact P|]. now apply flat_In in Hq as [Hq _].
    - intros [H1 H2]. apply (Permutation_in _ (Permutation_sym P)) in H2. apply flat_In_inv in H2 as [y [Hy|Hy]].
      + replace (a, b) with (a, y); auto. apply (flat_unique pairs); cbn; auto.
      + replace (a, b) with (y, a); auto. apply (flat_unique pairs); cbn; auto. }
  destruct (forallb (fun x => existsb (Z.eqb x) (flat ps)) (zocc m) && forallb (fun x => existsb (Z.eqb x) (zocc m)) (flat ps))%bool eqn:T.
  - left. apply incl_perm in T; auto. eexists. split; [reflexivity|]. split; [|split].
    + intros p [<-|[]]. cbn [fst snd]. split; auto. destruct (swaps_exist (flat ps) (zocc m) Nf T) as [k Sw]. exists k. split; auto.
      destruct (swaps_reverse (zocc m)) as (r & Sr & Er). rewrite L in Er.
      assert (Es : sign_perm (flat ps) None true = Ok (pow_m1 (k + r))).
      { apply (C10_sign_perm_decreasing (flat ps) (k + r) (rev (zocc m))); auto; [eapply swaps_trans; eauto|]. now rewrite rev_involutive. }
      rewrite Hs in Es. injection Es as ->.
      assert (Er' : r + h = 2 * (h * h)) by nia.
      rewrite !pow_m1_add, <- Z.mul_comm, <- Z.mul_assoc, <- pow_m1_add, Er'. replace (2 * (h * h)) with (2 * (h * h) + 0) by lia. rewrite pow_m1_even. cbn. lia.
    + intros qs I P. eexists. split; [now left|]. cbn [fst]. auto.
    + cbn [map fst]. repeat constructor.
  - right. split; [reflexivity|]. intros qs I P. 
    assert (X : Permutation (flat ps) (zocc m)). { rewrite <- P. symmetry. apply flat_perm. auto. }
    apply incl_perm in X; auto. congruence.
Qed.
