(** Lemmas: the Pfaffian is the sum over the perfect matchings *)
From Coq Require Import List ZArith NArith Arith Bool Lia Permutation Sorted Ring_theory.
From Verif Require Import Py Slater BitSpec BitLemmas SlaterBits Combos Alg SdLemmas SignSpec SignLemmas PermLemmas MatchSpec MatchLemmas BicliqueLemmas GeneralLemmas
  Graphs WfnCI Geminal GemPairs CreSpec CreLemmas GemMain GemSchemes GemFinal CCLemmas MathTools Creation CreationSpec CreationLemmas CreationGood.
Import ListNotations.
Local Open Scope nat_scope.

(** ** matchings expanded along the first label *)
Fixpoint pfl (n : nat) (l : list Z) : list (scheme * Z) :=
  match n, l with
  | _, [] => [([], 1%Z)]
  | S n, x :: t => flat_map (fun j => map (fun q => ((x, nth j t 0%Z) :: fst q, (pow_m1 j * snd q)%Z)) (pfl n (firstn j t ++ skipn (S j) t))) (seq 0 (length t))
  | O, _ => []
  end.
Lemma pfl_nil : forall n, pfl n [] = [([], 1%Z)].
Proof. destruct n; reflexivity. Qed.
Lemma nth_split' : forall {A} (d : A) j l, j < length l -> l = firstn j l ++ nth j l d :: skipn (S j) l.
Proof.
  intros A d j. induction j as [|j IH]; intros [|x l] H; cbn [length] in H; try lia; [reflexivity|]. cbn [firstn nth app]. f_equal. apply IH. lia.
Qed.
Lemma cut_sorted : forall j l, StronglySorted Z.lt l -> StronglySorted Z.lt (firstn j l ++ skipn (S j) l).
Proof.
  intros j l So. revert j. induction So as [|x l So IH F]; intros j; [destruct j; constructor|]. destruct j as [|j]; [exact So|]. cbn [firstn app]. change (skipn (S (S j)) (x :: l)) with (skipn (S j) l).
  constructor; auto. rewrite Forall_forall in *. intros y Hy. apply F. apply in_app_iff in Hy as [Hy|Hy].
  - rewrite <- (firstn_skipn j l). apply in_or_app. now left.
  - rewrite <- (firstn_skipn (S j) l). apply in_or_app. now right.
Qed.
Lemma cut_length : forall {A} j (l : list A), j < length l -> S (length (firstn j l ++ skipn (S j) l)) = length l.
Proof. intros A j l H. rewrite app_length, firstn_length, skipn_length. lia. Qed.
Lemma move_front : forall {A} (x y : A) a b, swaps (length a) (x :: y :: a ++ b) (x :: a ++ y :: b).
Proof.
  intros A x y a b. change (x :: y :: a ++ b) with ([x] ++ (y :: a) ++ b). pose proof (swaps_move y a) as H.
  assert (X : forall k (l l' pre post : list A), swaps k l l' -> swaps k (pre ++ l ++ post) (pre ++ l' ++ post)).
  { clear. intros k l l' pre post H. induction H as [|k l1 a b l2 l' H IH]; [constructor|]. replace (pre ++ (l1 ++ a :: b :: l2) ++ post) with ((pre ++ l1) ++ a :: b :: (l2 ++ post)) by (now rewrite <- !app_assoc).
    constructor. replace ((pre ++ l1) ++ b :: a :: l2 ++ post) with (pre ++ (l1 ++ b :: a :: l2) ++ post); auto. now rewrite <- !app_assoc. }
  apply (X _ _ _ [x] b) in H. rewrite <- app_assoc in H. exact H.
Qed.
Lemma swaps_cons : forall {A} k (x : A) l l', swaps k l l' -> swaps k (x :: l) (x :: l').
Proof. intros A k x l l' H. induction H as [|k l1 a b l2 l' H IH]; [constructor|]. change (x :: l1 ++ a :: b :: l2) with ((x :: l1) ++ a :: b :: l2). constructor. exact IH. Qed.
Lemma swaps_trans' : forall {A} k (l l' : list A), swaps k l l' -> forall k' l'', swaps k' l' l'' -> swaps (k + k') l l''.
Proof. intros A k l l' H. induction H as [|k l1 a b l2 l' H IH]; intros k' l'' H'; [exact H'|]. cbn [Nat.add]. constructor. now apply IH. Qed.

Lemma pfl_spec : forall h n l, length l = 2 * h -> length l <= n -> StronglySorted Z.lt l -> forall q, In q (pfl n l) ->
  (forall p, In p (fst q) -> In (fst p) l /\ In (snd p) l /\ (fst p < snd p)%Z) /\ exists k, swaps k (flat (fst q)) l /\ snd q = pow_m1 k.
Proof.
  induction h as [|h IH]; intros n l L Ln S q Hq.
  - destruct l; [|discriminate]. rewrite pfl_nil in Hq. destruct Hq as [<-|[]]. split; [intros p []|]. exists 0. split; [constructor|reflexivity].
  - destruct l as [|x t]; [discriminate|]. cbn [length] in L, Ln. destruct n as [|n]; [lia|]. cbn [pfl] in Hq. apply in_flat_map in Hq as (j & Hj & Hq). apply in_seq in Hj.
    inversion S as [|? ? S' F]; subst. apply in_map_iff in Hq as (q' & <- & Hq'). pose proof (cut_length j t ltac:(lia)) as Lc. pose proof (nth_split' 0%Z j t ltac:(lia)) as Sp.
    destruct (IH n (firstn j t ++ skipn (Datatypes.S j) t)) with (q := q') as [A (k & W & E)]; auto; try lia; [now apply cut_sorted|]. cbn [fst snd flat]. split.
    + rewrite Forall_forall in F. assert (Hn : In (nth j t 0%Z) t) by (apply nth_In; lia). intros p [<-|Hp]; cbn [fst snd].
      * split; [now left|]. split; [now right|]. now apply F.
      * apply A in Hp as (H1 & H2 & H3). assert (X : forall z, In z (firstn j t ++ skipn (Datatypes.S j) t) -> In z (x :: t)).
        { intros z Hz. right. rewrite Sp. apply in_app_iff in Hz as [Hz|Hz]; apply in_or_app; [now left|right; now right]. }
        auto.
    + exists (k + j). split; [|transitivity (pow_m1 j * pow_m1 k)%Z; [f_equal; exact E|rewrite pow_m1_add; lia]]. eapply swaps_trans'; [apply swaps_cons, swaps_cons, W|]. pose proof (move_front x (nth j t 0%Z) (firstn j t) (skipn (Datatypes.S j) t)) as M.
      rewrite <- Sp in M. rewrite firstn_length in M. replace (Nat.min j (length t)) with j in M by lia. exact M.
Qed.
Lemma pfl_complete : forall h n l, length l = 2 * h -> length l <= n -> StronglySorted Z.lt l -> forall qs, (forall p, In p qs -> (fst p < snd p)%Z) -> Permutation (flat qs) l ->
  exists q, In q (pfl n l) /\ Permutation qs (fst q).
Proof.
  induction h as [|h IH]; intros n l L Ln S qs Lt P.
  - destruct l; [|discriminate]. rewrite pfl_nil. symmetry in P. apply Permutation_nil in P. destruct qs as [|[a b] qs]; [|discriminate]. exists ([], 1%Z). split; [now left|constructor].
  - destruct l as [|x t]; [discriminate|]. cbn [length] in L, Ln. destruct n as [|n]; [lia|]. inversion S as [|? ? S' F]; subst. rewrite Forall_forall in F.
    assert (Hx : In x (flat qs)) by (apply (Permutation_in _ (Permutation_sym P)); now left). destruct (flat_In_inv _ _ Hx) as (y & [Hxy|Hxy]).
    2:{ exfalso. pose proof (Lt _ Hxy) as L'. cbn [fst snd] in L'. destruct (flat_In _ _ _ Hxy) as [Hy _]. apply (Permutation_in _ P) in Hy as [<-|Hy]; [lia|]. specialize (F _ Hy). lia. }
    destruct (flat_In _ _ _ Hxy) as [_ Hy]. pose proof (Lt _ Hxy) as L'. cbn [fst snd] in L'. apply (Permutation_in _ P) in Hy as [<-|Hy]; [lia|]. apply (In_nth _ _ 0%Z) in Hy as (j & Hj & <-).
    apply in_split in Hxy as (q1 & q2 & Eq). assert (Pq : Permutation qs ((x, nth j t 0%Z) :: q1 ++ q2)) by (subst qs; symmetry; apply Permutation_middle).
    pose proof (nth_split' 0%Z j t Hj) as Sp. pose proof (cut_length j t Hj) as Lc.
    destruct (IH n (firstn j t ++ skipn (Datatypes.S j) t)) with (qs := q1 ++ q2) as (q & Hq & Pq'); try lia.
    + now apply cut_sorted.
    + intros p Hp. apply Lt. apply (Permutation_in _ (Permutation_sym Pq)). now right.
    + apply flat_perm in Pq. cbn [flat] in Pq. rewrite P in Pq. apply Permutation_cons_inv in Pq. rewrite Sp in Pq at 1. symmetry. apply (Permutation_cons_inv (a := nth j t 0%Z)). rewrite <- Pq. apply Permutation_middle.
    + exists ((x, nth j t 0%Z) :: fst q, (pow_m1 j * snd q)%Z). split.
      * cbn [pfl]. apply in_flat_map. exists j. split; [apply in_seq; lia|]. apply in_map_iff. exists q. auto.
      * cbn [fst]. rewrite Pq. now constructor.
Qed.
Lemma pfl_distinct : forall h n l, length l = 2 * h -> length l <= n -> StronglySorted Z.lt l -> pairwise_distinct (@Permutation (Z * Z)) (map fst (pfl n l)).
Proof.
  induction h as [|h IH]; intros n l L Ln S.
  - destruct l; [|discriminate]. rewrite pfl_nil. cbn [map]. constructor; constructor.
  - destruct l as [|x t]; [discriminate|]. cbn [length] in L, Ln. destruct n as [|n]; [lia|]. cbn [pfl]. inversion S as [|? ? S' F]; subst. rewrite Forall_forall in F.
    assert (Nt : NoDup t) by (now apply sortedZ_NoDup).
    assert (G : forall s m, s + m = length t -> pairwise_distinct (@Permutation (Z * Z))
       (map fst (flat_map (fun j => map (fun q => ((x, nth j t 0%Z) :: fst q, (pow_m1 j * snd q)%Z)) (pfl n (firstn j t ++ skipn (Datatypes.S j) t))) (seq s m)))).
    { intros s m. revert s. induction m as [|m Im]; intros s Hs; cbn [seq flat_map map]; [constructor|]. rewrite map_app. apply distinct_app; [|apply Im; lia|].
      - rewrite map_map. cbn [fst]. pose proof (cut_length s t ltac:(lia)) as Lc. assert (D := IH n (firstn s t ++ skipn (Datatypes.S s) t) ltac:(lia) ltac:(lia) (cut_sorted s t S')).
        unfold pairwise_distinct in *. induction (pfl n (firstn s t ++ skipn (Datatypes.S s) t)) as [|q Q IQ]; cbn [map] in *; constructor.
        + inversion D as [|? ? FD _]; subst. rewrite Forall_forall in *. intros y Hy P. apply in_map_iff in Hy as (q' & <- & Hq'). apply (FD (fst q')); [now apply in_map|]. now apply Permutation_cons_inv in P.
        + inversion D; subst. auto.
      - intros a b Ha Hb P. apply in_map_iff in Ha as (a' & <- & Ha). apply in_map_iff in Hb as (b' & <- & Hb). apply in_map_iff in Ha as (qa & <- & Ha). apply in_flat_map in Hb as (j & Hj & Hb).
        apply in_map_iff in Hb as (qb & <- & Hb). apply in_seq in Hj. cbn [fst] in P. pose proof (cut_length j t ltac:(lia)) as Lc.
        destruct (pfl_spec h n (firstn j t ++ skipn (Datatypes.S j) t) ltac:(lia) ltac:(lia) (cut_sorted j t S') qb Hb) as [Sb _].
        assert (I : In (x, nth s t 0%Z) ((x, nth j t 0%Z) :: fst qb)) by (apply (Permutation_in _ P); now left). destruct I as [E|I].
        + injection E as E. apply NoDup_nth in E; auto; lia.
        + apply Sb in I as (I & _). cbn [fst] in I. assert (It : In x t). { rewrite (nth_split' 0%Z j t) by lia. apply in_app_iff in I as [I|I]; apply in_or_app; [now left|right; now right]. }
          specialize (F _ It). lia. }
    apply (G 0 (length t)). lia.
Qed.
Lemma pfl_good : forall h n l pairs, length l = 2 * h -> length l <= n -> StronglySorted Z.lt l -> covers pairs l -> (forall p, In p pairs -> (fst p < snd p)%Z) -> good_schemes pairs l 1 (pfl n l).
Proof.
  intros h n l pairs L Ln S C Lt. split; [|split].
  - intros q Hq. destruct (pfl_spec h n l L Ln S q Hq) as [A (k & W & E)]. split.
    + intros [x y] Hp. apply A in Hp as (H1 & H2 & H3). now apply C.
    + exists k. split; auto. rewrite E. lia.
  - intros qs I P. apply (pfl_complete h); auto.
  - now apply (pfl_distinct h).
Qed.

Section Sums.
Context {K : CRing}.
Local Open Scope cr_scope.
Add Ring K_ring105 : (rth K).
Lemma sum_match : forall {A} (R : A -> A -> Prop) (f g : A -> K) L1 L2, (forall x y, R x y -> R y x) -> (forall x y z, R x y -> R y z -> R x z) ->
  pairwise_distinct R L1 -> pairwise_distinct R L2 -> (forall x, In x L1 -> exists y, In y L2 /\ R x y) -> (forall y, In y L2 -> exists x, In x L1 /\ R x y) ->
  (forall x y, In x L1 -> In y L2 -> R x y -> f x = g y) -> sumf f L1 = sumf g L2.
Proof.
  intros A R f g L1. induction L1 as [|x L1 IH]; intros L2 Sy Tr D1 D2 M1 M2 E.
  - destruct L2 as [|y L2]; [reflexivity|]. destruct (M2 y (or_introl eq_refl)) as (x & [] & _).
  - destruct (M1 x (or_introl eq_refl)) as (y & Hy & Rxy). apply in_split in Hy as (a & b & ->). inversion D1 as [|? ? F1 D1']; subst. rewrite Forall_forall in F1.
    assert (Dab : pairwise_distinct R (a ++ b) /\ forall z, In z (a ++ b) -> ~ R y z).
    { clear - D2 Sy. induction a as [|z a IHa]; cbn [app] in *.
      - inversion D2 as [|? ? F D]; subst. rewrite Forall_forall in F. auto.
      - inversion D2 as [|? ? F D]; subst. rewrite Forall_forall in F. destruct (IHa D) as [D' Y]. split.
        + constructor; auto. rewrite Forall_forall. intros w Hw. apply F. apply in_app_iff in Hw as [Hw|Hw]; apply in_or_app; [now left|right; now right].
        + intros w [<-|Hw]; auto. intros Q. apply (F y); auto. apply in_or_app. right. now left. }
    destruct Dab as [Dab Y]. rewrite sumf_cons, sumf_app, sumf_cons. rewrite (E x y); [|now left|apply in_or_app; right; now left|exact Rxy].
    assert (Q : sumf f L1 = sumf g (a ++ b)); [|rewrite Q, sumf_app; ring]. apply IH; auto.
    + intros z Hz. destruct (M1 z (or_intror Hz)) as (w & Hw & Rzw). exists w. split; auto. apply in_app_iff in Hw as [Hw|[<-|Hw]]; apply in_or_app; [now left| |now right].
      exfalso. apply (F1 z Hz). eapply Tr; [exact Rxy|now apply Sy].
    + intros w Hw. destruct (M2 w) as (z & [<-|Hz] & Rzw); eauto.
      * apply in_app_iff in Hw as [Hw|Hw]; apply in_or_app; [now left|right; now right].
      * exfalso. apply (Y w Hw). eapply Tr; [apply Sy; exact Rxy|exact Rzw].
    + intros z w Hz Hw. apply E; [now right|]. apply in_app_iff in Hw as [Hw|Hw]; apply in_or_app; [now left|right; now right].
Qed.
Lemma good_sum : forall pairs occ g1 g2 L1 L2 (F : scheme -> K), NoDup occ -> good_schemes pairs occ g1 L1 -> good_schemes pairs occ g2 L2 ->
  (forall p q, Permutation p q -> F p = F q) ->
  sumf (fun p => sgnr (g1 * snd p)%Z * F (fst p)) L1 = sumf (fun p => sgnr (g2 * snd p)%Z * F (fst p)) L2.
Proof.
  intros pairs occ g1 g2 L1 L2 F N (A1 & B1 & C1) (A2 & B2 & C2) Inv.
  assert (D : forall L : list (scheme * Z), pairwise_distinct (@Permutation (Z * Z)) (map fst L) -> pairwise_distinct (fun p q => Permutation (fst p) (fst q)) L).
  { clear. unfold pairwise_distinct. induction L as [|p L IH]; intros H; cbn [map] in H; inversion H as [|? ? F H']; subst; constructor; auto. rewrite Forall_forall in *. intros q Hq P. apply (F (fst q)); auto. now apply in_map. }
  apply (sum_match (fun p q => Permutation (fst p) (fst q))); auto.
  - intros x y H. now symmetry.
  - intros x y z H1 H2. now rewrite H1.
  - intros p Hp. destruct (A1 p Hp) as (I & k & W & _). destruct (B2 (fst p) I (swaps_perm _ _ _ W)) as (q & Hq & P). eauto.
  - intros q Hq. destruct (A2 q Hq) as (I & k & W & _). destruct (B1 (fst q) I (swaps_perm _ _ _ W)) as (p & Hp & P). exists p. split; auto. now symmetry.
  - intros p q Hp Hq P. apply f_equal2; [|exact (Inv _ _ P)]. f_equal. destruct (A1 p Hp) as (_ & k & W & E1). destruct (A2 q Hq) as (_ & k' & W' & E2). refine (eq_trans E1 (eq_trans _ (eq_sym E2))).
    destruct (flat_swaps _ _ P) as (m & Wm). eapply swaps_trans' in Wm; [|constructor]. pose proof (swaps_trans' _ _ _ Wm _ _ W') as W2. cbn [Nat.add] in W2.
    rewrite (swaps_parity k (2 * m + k') (flat (fst p)) occ); auto; [apply GemMain.pow_m1_even|]. eapply Permutation_NoDup; [|exact N]. symmetry. now apply swaps_perm in W.
Qed.
Lemma sgnr_m1pow : forall j, sgnr (pow_m1 j) = m1pow j :> K.
Proof.
  intros j. unfold pow_m1, m1pow. rewrite <- Nat.negb_even. destruct (Nat.even j); reflexivity.
Qed.
Lemma sgnr_pm' : forall a b, (a = 1 \/ a = -1)%Z -> (b = 1 \/ b = -1)%Z -> sgnr (a * b) = sgnr a * sgnr b :> K.
Proof. intros a b [-> | ->] [-> | ->]; cbn; ring. Qed.
Lemma pfl_pm : forall n l q, In q (pfl n l) -> (snd q = 1 \/ snd q = -1)%Z.
Proof.
  induction n as [|n IH]; intros l q H; destruct l as [|x t]; cbn [pfl] in H; try (destruct H as [<-|[]]; auto); [destruct H|].
  apply in_flat_map in H as (j & _ & H). apply in_map_iff in H as (q' & <- & H). apply IH in H. cbn [snd]. generalize dependent H. unfold scheme. generalize (snd q'). intros z H. unfold pow_m1. destruct (Nat.odd j), H as [-> | ->]; auto.
Qed.
Lemma pfaffian_sum : forall A n l, length l <= n -> pfaffian_ (K := K) n A l = sumf (fun p => sgnr (snd p) * prodf A (fst p)) (pfl n l).
Proof.
  intros A. induction n as [|n IH]; intros l H; destruct l as [|x t]; cbn [length] in H; try lia.
  - cbn. change (sumf (fun p : scheme * Z => sgnr (snd p) * prodf A (fst p)) [([], 1%Z)]) with ((1 * 1 : K) + 0). ring.
  - cbn. change (sumf (fun p : scheme * Z => sgnr (snd p) * prodf A (fst p)) [([], 1%Z)]) with ((1 * 1 : K) + 0). ring.
  - cbn [pfaffian_ pfl]. rewrite sumf_flat_map. apply sumf_ext. intros j Hj. apply in_seq in Hj. pose proof (cut_length j t ltac:(lia)) as Lc. rewrite IH by lia. rewrite sumf_map.
    rewrite <- !sumf_mul_l. apply sumf_ext. intros q Hq. cbn [fst snd]. rewrite prodf_cons. rewrite (sgnr_pm' (pow_m1 j)), sgnr_m1pow; [unfold scheme; ring| |now apply pfl_pm in Hq]. unfold pow_m1. destruct (Nat.odd j); auto.
Qed.
Lemma good_pfaffian : forall h l pairs g L (A : Z * Z -> K), length l = (2 * h)%nat -> StronglySorted Z.lt l -> covers pairs l -> (forall p, In p pairs -> (fst p < snd p)%Z) ->
  good_schemes pairs l g L -> sumf (fun p => sgnr (g * snd p)%Z * prodf A (fst p)) L = pfaffian A l.
Proof.
  intros h l pairs g L A Ll S C Lt G. unfold pfaffian. rewrite pfaffian_sum by lia.
  etransitivity; [apply (good_sum pairs l g 1 L (pfl (length l) l) (prodf A)); auto|].
  - now apply sortedZ_NoDup.
  - now apply (pfl_good h).
  - intros p q P. now apply prodf_perm.
  - apply sumf_ext. intros p _. now rewrite Z.mul_1_l.
Qed.
Lemma permR_repeat : forall (c : Z * Z -> K) h ps, length ps = h -> permR (repeat c h) ps = nat_r (fact h) * prodf c ps.
Proof.
  intros c. induction h as [|h IH]; intros ps L; [destruct ps; [|discriminate]; cbn; ring|]. cbn [repeat permR].
  assert (X : forall p, In p (picks ps) -> c (fst p) * permR (repeat c h) (snd p) = nat_r (fact h) * prodf c ps).
  { intros p Hp. assert (Pm : Permutation (fst p :: snd p) ps). { symmetry. now apply picks_perm. }
    rewrite IH by (apply Permutation_length in Pm; cbn [length] in Pm; lia). rewrite <- (prodf_perm c _ _ Pm), prodf_cons. ring. }
  rewrite (sumf_ext _ _ _ X), sumf_const. rewrite <- (map_length fst), picks_fst, L. change (fact (S h)) with (S h * fact h)%nat. rewrite nat_r_mul. ring.
Qed.
End Sums.
