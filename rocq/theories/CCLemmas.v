(** The operators and parameters of a constructed coupled-cluster wavefunction *)
From Coq Require Import List ZArith NArith Arith Bool Lia Permutation Sorted.
From Verif Require Import Py BitSpec BitLemmas Slater SlaterBits SlaterBits2 MathTools PermLemmas SdLemmas Combos
  GeneralLemmas BicliqueLemmas P_Slater1 Fock FockLemmas FockInner Alg WfnCI CC CCRows CCRows2 CCGen CCSpec CCFock CCExp.
Import ListNotations.
Local Open Scope nat_scope.

(** ** combinations of sorted lists *)
Lemma SSZ_inv : forall x l, StronglySorted Z.lt (x :: l) -> StronglySorted Z.lt l /\ (forall y, In y l -> (x < y)%Z).
Proof. intros x l H. inversion H; subst. split; auto. now apply Forall_forall. Qed.
Lemma SSZ_cons : forall x l, StronglySorted Z.lt l -> (forall y, In y l -> (x < y)%Z) -> StronglySorted Z.lt (x :: l).
Proof. intros x l H H'. constructor; auto. now apply Forall_forall. Qed.
Lemma subseq_SSZ : forall a l, subseq a l -> StronglySorted Z.lt l -> StronglySorted Z.lt a.
Proof.
  induction 1 as [|x a l H IH|x a l H IH]; intros N; [constructor| |].
  - apply SSZ_inv in N as [N1 N2]. apply SSZ_cons; auto. intros y Hy. apply N2. eapply subseq_incl; eauto.
  - apply SSZ_inv in N as [N1 N2]. auto.
Qed.
Lemma SSZ_subseq : forall l a, StronglySorted Z.lt l -> StronglySorted Z.lt a -> incl a l -> subseq a l.
Proof.
  induction l as [|x l IH]; intros a Hl Ha Hi.
  - destruct a as [|y a]; [constructor|]. exfalso. apply (Hi y). now left.
  - apply SSZ_inv in Hl as [Hl1 Hl2]. destruct a as [|y a]; [constructor|].
    pose proof Ha as Ha'. apply SSZ_inv in Ha as [Ha1 Ha2].
    destruct (Hi y (or_introl eq_refl)) as [->|Hy].
    + constructor. apply IH; auto. intros z Hz. destruct (Hi z (or_intror Hz)) as [->|]; auto. specialize (Ha2 _ Hz). lia.
    + apply subseq_skip. apply IH; auto. intros z [->|Hz]; auto. destruct (Hi z (or_intror Hz)) as [->|]; auto.
      specialize (Ha2 _ Hz). specialize (Hl2 _ Hy). lia.
Qed.
Lemma combos_SSZ : forall l k c, StronglySorted Z.lt l ->
  (In c (combinations l k) <-> StronglySorted Z.lt c /\ incl c l /\ length c = k).
Proof.
  intros l k c H. rewrite combinations_In. split.
  - intros [S L]. repeat split; auto; [eapply subseq_SSZ|apply subseq_incl]; eauto.
  - intros (I1 & I2 & L). split; auto. now apply SSZ_subseq.
Qed.
Lemma SS_filter : forall p l, StronglySorted Z.lt l -> StronglySorted Z.lt (filter p l).
Proof.
  intros p l H. induction l as [|x l IH]; [constructor|]. apply SSZ_inv in H as [H1 H2]. cbn [filter]. destruct (p x); auto.
  apply SSZ_cons; auto. intros y Hy. apply filter_In in Hy. apply H2. tauto.
Qed.

(** ** keys *)
Section Keys.
Variables (ranks from : list Z) (to : list Z -> list Z).
Hypothesis Hr : forall r, In r ranks -> (0 < r)%Z.
Hypothesis Nr : NoDup ranks.
Hypothesis Sf : StronglySorted Z.lt from.
Hypothesis St : forall ann, StronglySorted Z.lt (to ann).
Lemma rank_keys_In : forall e, In e (rank_keys ranks from to) <->
  exists ann cre, exop_shape ranks e ann cre /\ incl ann from /\ incl cre (to ann).
Proof.
  intros e. unfold rank_keys. rewrite in_flat_map. split.
  - intros (rank & H1 & H2). apply in_flat_map in H2 as (ann & H2 & H3). apply in_map_iff in H3 as (cre & <- & H3).
    apply combos_SSZ in H2 as (S1 & I1 & L1); auto. apply combos_SSZ in H3 as (S2 & I2 & L2); auto.
    exists ann, cre. repeat split; auto; [congruence|]. rewrite L1, Z2Nat.id; auto. apply Z.lt_le_incl. auto.
  - intros (ann & cre & (-> & L & R & S1 & S2) & I1 & I2). exists (Z.of_nat (length ann)). split; auto.
    apply in_flat_map. exists ann. rewrite Nat2Z.id. split; [now apply combos_SSZ|]. apply in_map. now apply combos_SSZ.
Qed.
Lemma rank_keys_NoDup : NoDup (rank_keys ranks from to).
Proof.
  assert (A : forall (a b c e : list Z), length a = length c -> a ++ b = c ++ e -> a = c /\ b = e).
  { induction a as [|x a IH]; intros b [|y c] e L E; cbn in *; try discriminate; auto. injection L as L. injection E as -> E.
    destruct (IH _ _ _ L E). now subst. }
  unfold rank_keys. apply NoDup_flat_map; auto.
  - intros rank H. apply NoDup_flat_map.
    + apply combinations_NoDup, SS_NoDup. auto.
    + intros ann Ha. apply NoDup_map_inj.
      * intros x y _ _ E. now apply app_inv_head in E.
      * apply combinations_NoDup, SS_NoDup. auto.
    + intros x y b Hx Hy Hb Hb'. apply in_map_iff in Hb as (u & <- & Hu), Hb' as (v & E & Hv).
      apply combinations_In in Hx as [_ Lx], Hy as [_ Ly]. apply A in E as [E _]; congruence.
  - intros r1 r2 b H1 H2 Hb Hb'. apply in_flat_map in Hb as (x & Hx & Hb), Hb' as (y & Hy & Hb').
    apply in_map_iff in Hb as (u & <- & Hu), Hb' as (v & E & Hv).
    apply combinations_In in Hx as [_ Lx], Hy as [_ Ly], Hu as [_ Lu], Hv as [_ Lv].
    apply (f_equal (@length Z)) in E. rewrite !app_length in E. apply Hr in H1, H2. lia.
Qed.
End Keys.
Lemma shape_halves : forall ranks e ann cre, exop_shape ranks e ann cre -> annihilators e = ann /\ creators e = cre.
Proof. intros ranks e ann cre (-> & L & _). destruct (cat_halves (ann, cre) L) as (A & B & _). auto. Qed.

(** ** numbering *)
Lemma dict_set_new : forall {V} (d : list (list Z * V)) k v, ~ In k (map fst d) -> dict_set d k v = d ++ [(k, v)].
Proof.
  induction d as [|[k' v'] d IH]; intros k v H; [reflexivity|]. cbn [dict_set map fst app] in *. unfold key_eqb.
  destruct (list_eq_dec Z.eq_dec k k') as [->|]; [exfalso; apply H; now left|]. rewrite IH by (intros X; apply H; now right). reflexivity.
Qed.
Lemma number_eq : forall keys, NoDup keys -> number keys = combine keys (seq 0 (length keys)).
Proof.
  intros keys N. unfold number.
  assert (G : forall keys d n, NoDup (map fst d ++ keys) -> fst (fold_left (fun st k => (dict_set (fst st) k (snd st), S (snd st))) keys (d, n)) = d ++ combine keys (seq n (length keys))).
  { clear. induction keys as [|k keys IH]; intros d n N; cbn [fold_left fst snd length seq combine]; [now rewrite app_nil_r|].
    rewrite dict_set_new.
    - rewrite IH; [now rewrite <- app_assoc|]. rewrite map_app, <- app_assoc. exact N.
    - intros H. apply NoDup_remove_2 in N. apply N. apply in_app_iff. auto. }
  now rewrite (G keys [] 0).
Qed.
Lemma combine_fst' : forall {A B} (l : list A) (m : list B), length l = length m -> map fst (combine l m) = l.
Proof. induction l; intros [|y m] H; cbn in *; try discriminate; auto. now rewrite IHl by lia. Qed.
Lemma combine_snd' : forall {A B} (l : list A) (m : list B), length l = length m -> map snd (combine l m) = m.
Proof. induction l; intros [|y m] H; cbn in *; try discriminate; auto. now rewrite IHl by lia. Qed.
Lemma combine_seq_In : forall {A} (l : list A) n e i, In (e, i) (combine l (seq n (length l))) <-> n <= i /\ nth_error l (i - n) = Some e.
Proof.
  induction l as [|x l IH]; intros n e i; cbn [length seq combine].
  - split; [intros []|]. intros [_ H]. destruct (i - n); discriminate.
  - cbn [In]. rewrite IH. split.
    + intros [E|[L E]].
      * injection E as -> ->. split; auto. now rewrite Nat.sub_diag.
      * split; [lia|]. replace (i - n) with (S (i - S n)) by lia. exact E.
    + intros [L E]. destruct (Nat.eq_dec i n) as [->|Ne].
      * left. rewrite Nat.sub_diag in E. injection E as ->. reflexivity.
      * right. split; [lia|]. replace (i - n) with (S (i - S n)) in E by lia. exact E.
Qed.
Lemma get_exop_In : forall (d : exops) ind, NoDup (map snd d) ->
  forall e, get_exop d ind = Ok e <-> exists i, In (e, i) d /\ Z.of_nat i = ind.
Proof.
  induction d as [|[k v] d IH]; intros ind N e; cbn [get_exop].
  - split; [discriminate|]. intros (i & [] & _).
  - cbn [map snd] in N. inversion N; subst. destruct (Z.eqb_spec (Z.of_nat v) ind) as [E|Ne].
    + split.
      * intros X. apply Ok_inj in X. subst. exists v. split; [now left|reflexivity].
      * intros (i & [X|X] & Ei); [injection X as -> ->; reflexivity|]. assert (i = v) by lia. subst i. exfalso. apply H1. now apply (in_map snd) in X.
    + rewrite IH by auto. split; intros (i & X & Ei); exists i; split; auto; [now right|]. destruct X as [X|X]; auto. injection X as -> ->. contradiction.
Qed.
Lemma get_exop_kind : forall d ind e, get_exop d ind = Err e -> e = ValueError.
Proof. induction d as [|[k v] d IH]; intros ind e; cbn [get_exop]; [intros X; now injection X|]. destruct (Z.of_nat v =? ind)%Z; [discriminate|apply IH]. Qed.

(** ** ranks *)
Lemma assign_ranks_ok : forall nelec ra rk, assign_ranks nelec ra = Ok rk ->
  (forall r, In r rk -> (0 < r <= nelec)%Z) /\ NoDup rk /\ StronglySorted Z.lt rk /\
  (forall r, In r rk <-> match ra with RanksNone => (1 <= r <= nelec)%Z | RanksInt n => (1 <= r <= n)%Z | RanksList l => In r l end).
Proof.
  intros nelec ra rk H.
  assert (Q : forall r, (r <=? 0)%Z = false -> (nelec <? r)%Z = false ->
    let rk := map Z.of_nat (seq 1 (Z.to_nat r)) in
    (forall x, In x rk -> (0 < x <= nelec)%Z) /\ NoDup rk /\ StronglySorted Z.lt rk /\ (forall x, In x rk <-> (1 <= x <= r)%Z)).
  { intros r H1 H2 rk'. apply Z.leb_gt in H1. apply Z.ltb_ge in H2.
    assert (I : forall x, In x rk' <-> (1 <= x <= r)%Z).
    { intros x. unfold rk'. rewrite in_map_iff. split.
      - intros (i & <- & Hi). apply in_seq in Hi. lia.
      - intros Hx. exists (Z.to_nat x). split; [lia|]. apply in_seq. lia. }
    assert (S : StronglySorted Z.lt rk').
    { apply SS_of_nat. clear. generalize 1. induction (Z.to_nat r) as [|n IH]; intros m; [constructor|]. cbn [seq]. constructor; auto.
      apply Forall_forall. intros y Hy. apply in_seq in Hy. lia. }
    split; [intros x Hx; apply I in Hx; lia|]. split; [now apply SS_NoDup|]. auto. }
  unfold assign_ranks in H. destruct ra as [|r|l].
  - destruct (nelec <=? 0)%Z eqn:E1; [discriminate|]. destruct (nelec <? nelec)%Z eqn:E2; [discriminate|]. apply Ok_inj in H. subst rk. now apply Q.
  - destruct (r <=? 0)%Z eqn:E1; [discriminate|]. destruct (nelec <? r)%Z eqn:E2; [discriminate|]. apply Ok_inj in H. subst rk. now apply Q.
  - destruct (forallb (fun r => 0 <? r)%Z l) eqn:E1; cbn [negb] in H; [|discriminate]. destruct l as [|x t]; [discriminate|].
    destruct (nelec <? fold_left Z.max t x)%Z eqn:E2; [discriminate|]. apply Ok_inj in H. subst rk.
    rewrite forallb_forall in E1. apply Z.ltb_ge in E2.
    assert (M : forall t x y, In y (x :: t) -> (y <= fold_left Z.max t x)%Z).
    { clear. induction t as [|z t IH]; intros x y [->|H]; cbn [fold_left]; try lia; try contradiction.
      - etransitivity; [|apply (IH (Z.max y z)); now left]. lia.
      - destruct H as [->|H]; [etransitivity; [|apply (IH (Z.max x y)); now left]; lia|]. apply IH. now right. }
    split.
    + intros r Hr. apply (proj1 (sorted_set_In _ _)) in Hr. pose proof (M _ _ _ Hr). apply E1 in Hr. apply Z.ltb_lt in Hr. lia.
    + pose proof (sorted_set_sorted (x :: t)) as S. split; [now apply SS_NoDup|]. split; auto. intros r. apply sorted_set_In.
Qed.

(** ** construction *)
Lemma memz_In : forall x l, memz x l = true <-> In x l.
Proof.
  intros x l. unfold memz. rewrite existsb_exists. split; [intros (y & Hy & E); apply Z.eqb_eq in E; now subst|]. intros H. exists x. now rewrite Z.eqb_refl.
Qed.
Lemma orbitals_In : forall n x, In x (orbitals n) <-> (0 <= x < n)%Z.
Proof.
  intros n x. unfold orbitals. rewrite in_map_iff. split.
  - intros (i & <- & Hi). apply in_seq in Hi. lia.
  - intros H. exists (Z.to_nat x). split; [lia|]. apply in_seq. lia.
Qed.
Lemma seq_inc : forall n m, StronglySorted lt (seq m n).
Proof. induction n as [|n IH]; intros m; cbn [seq]; constructor; auto. apply Forall_forall. intros y Hy. apply in_seq in Hy. lia. Qed.
Lemma orbitals_SS : forall n, StronglySorted Z.lt (orbitals n).
Proof. intros n. apply SS_of_nat, seq_inc. Qed.
Lemma zoccs_In : forall sd x, In x (zoccs sd) <-> (0 <= x)%Z /\ bit sd (Z.to_nat x) = true.
Proof.
  intros sd x. unfold zoccs. rewrite in_map_iff. split.
  - intros (i & <- & Hi). apply occ_indices_In in Hi. rewrite Nat2Z.id. split; [lia|auto].
  - intros [H B]. exists (Z.to_nat x). split; [lia|]. now apply occ_indices_In.
Qed.
Lemma zoccs_SS : forall sd, StronglySorted Z.lt (zoccs sd).
Proof. intros sd. apply SS_of_nat. apply occ_indices_increasing. Qed.

(** the keys of a class, as two lists to choose from *)
Definition key_source (c : ccclass) (nspin : Z) (g : N) (indices : option (list (list Z))) : list Z * (list Z -> list Z) :=
  match c with
  | CCBase | CCGeneralized =>
      match indices with
      | Some [i0; i1] => (sorted_set i0, fun _ => sorted_set i1)
      | _ => (orbitals nspin, fun ann => filter (fun i => negb (memz i ann)) (orbitals nspin))
      end
  | _ => (zoccs g, fun _ => filter (fun i => negb (memz i (zoccs g))) (orbitals nspin))
  end.
Lemma key_source_SS : forall c nspin g indices, StronglySorted Z.lt (fst (key_source c nspin g indices)) /\
  forall ann, StronglySorted Z.lt (snd (key_source c nspin g indices) ann).
Proof.
  intros c nspin g indices. destruct c; cbn [key_source]; [destruct indices as [[|i0 [|i1 [|]]]|]| |destruct indices as [[|i0 [|i1 [|]]]|]|]; cbn [fst snd];
    split; intros; auto using orbitals_SS, zoccs_SS, SS_filter, sorted_set_sorted.
Qed.
Lemma exop_keys_eq : forall c nspin ranks g indices keys, exop_keys c nspin ranks g indices = Ok keys ->
  keys = rank_keys ranks (fst (key_source c nspin g indices)) (snd (key_source c nspin g indices)) /\
  (c <> CCBase -> indices = None) /\
  (forall l, indices = Some l -> exists i0 i1, l = [i0; i1] /\ (forall x, In x i0 -> (0 <= x)%Z) /\ (forall x, In x i1 -> (0 <= x)%Z)).
Proof.
  intros c nspin ranks g indices keys H.
  assert (B : forall indices, base_exop_keys nspin ranks indices = Ok keys ->
    keys = rank_keys ranks (fst (key_source CCBase nspin g indices)) (snd (key_source CCBase nspin g indices)) /\
    (forall l, indices = Some l -> exists i0 i1, l = [i0; i1] /\ (forall x, In x i0 -> (0 <= x)%Z) /\ (forall x, In x i1 -> (0 <= x)%Z))).
  { clear. intros indices H. destruct indices as [[|i0 [|i1 [|]]]|]; cbn [base_exop_keys] in H; try discriminate.
    - destruct (forallb (fun i => 0 <=? i)%Z i0) eqn:E0; cbn [negb] in H; [|discriminate].
      destruct (forallb (fun i => 0 <=? i)%Z i1) eqn:E1; cbn [negb] in H; [|discriminate]. apply Ok_inj in H. subst. split; [reflexivity|].
      intros l E. injection E as <-. exists i0, i1. split; [reflexivity|]. rewrite forallb_forall in E0, E1.
      split; intros x Hx; [apply E0 in Hx|apply E1 in Hx]; now apply Z.leb_le in Hx.
    - apply Ok_inj in H. subst. split; [reflexivity|discriminate]. }
  destruct c, indices as [l|]; cbn [exop_keys] in H; try discriminate.
  - apply B in H as [H1 H2]. split; [exact H1|]. split; [congruence|exact H2].
  - apply B in H as [H1 H2]. split; [exact H1|]. split; [congruence|discriminate].
  - apply Ok_inj in H. subst. split; [reflexivity|]. split; [auto|discriminate].
  - apply B in H as [H1 H2]. split; [exact H1|]. split; [auto|discriminate].
  - apply Ok_inj in H. subst. split; [reflexivity|]. split; [auto|discriminate].
Qed.

Section New.
Context {K : CRing}.
Local Open Scope cr_scope.
Lemma copy_length : forall d items theirs (params out : list K), copy_exops d items theirs params = Ok out -> length out = length params.
Proof.
  intros d. induction items as [|[e ind] items IH]; intros theirs params out H; cbn [copy_exops] in H; [apply Ok_inj in H; now subst|].
  destruct (get_ind d e) as [i|x]; [|eauto]. destruct (nth_error theirs ind) as [v|]; [|discriminate]. destruct (Nat.ltb i (length params)); [|discriminate].
  apply IH in H. now rewrite upd_length in H.
Qed.
Lemma assign_params_inv : forall (w w' : cc K) ps, cc_assign_params w ps = Ok w' ->
  length (cc_params w') = length (cc_exops w) /\ w' = with_params w (cc_params w').
Proof.
  intros w w' ps H. unfold cc_assign_params in H. destruct ps as [|l|o].
  - cbn [bind] in H. apply Ok_inj in H. subst. cbn. split; [apply repeat_length|reflexivity].
  - destruct (Nat.eqb_spec (length l) (length (cc_exops w))); [|discriminate]. cbn [bind] in H. apply Ok_inj in H. subst. cbn. auto.
  - destruct (negb (cc_nelec w =? cc_nelec o)%Z); [discriminate|]. destruct (negb (cc_nspin w =? cc_nspin o)%Z); [discriminate|].
    destruct (copy_exops _ _ _ _) as [l|] eqn:E; [|discriminate]. cbn [bind] in H. apply Ok_inj in H. subst. cbn. apply copy_length in E.
    rewrite repeat_length in E. auto.
Qed.
(** what a successful construction gives *)
Record built (c : ccclass) (nelec nspin : Z) (ra : ranksarg) (indices : option (list (list Z))) (refwfn : refarg) (given : bool)
  (refresh : Z) (w : cc K) (g : N) : Prop := mkbuilt {
  b_nelec : (0 < nelec)%Z; b_nspin : (0 < nspin)%Z /\ (nspin mod 2 = 0)%Z;
  b_class : cc_class w = c; b_ne : cc_nelec w = nelec; b_ns : cc_nspin w = nspin; b_refresh : cc_refresh w = refresh;
  b_combs : cc_combs w = if given then None else Some [];
  b_ranks : assign_ranks nelec (match c with CCSingles => RanksList [1%Z] | _ => ra end) = Ok (cc_ranks w);
  b_ref : assign_refwfn c nelec nspin refwfn = Ok (cc_ref w);
  b_ground : (c = CCStandard \/ c = CCSingles) -> ground nelec nspin = Ok g;
  b_keys : exists keys, exop_keys c nspin (cc_ranks w) g indices = Ok keys /\ cc_exops w = number keys;
  b_params : length (cc_params w) = length (cc_exops w) }.
Lemma new_cc_built : forall c nelec nspin ra indices refwfn ps given refresh (w : cc K),
  new_cc c nelec nspin ra indices refwfn ps given refresh = Ok w -> exists g, built c nelec nspin ra indices refwfn given refresh w g.
Proof.
  intros c nelec nspin ra indices refwfn ps given refresh w H. unfold new_cc in H.
  unfold assign_nelec in H. destruct (Z.leb_spec nelec 0); [discriminate|]. cbn [bind] in H.
  unfold assign_nspin in H. destruct (Z.leb_spec nspin 0); [discriminate|]. destruct (Z.eqb_spec (nspin mod 2) 1); [discriminate|]. cbn [bind] in H.
  assert (Ev : (nspin mod 2 = 0)%Z) by (pose proof (Z.mod_pos_bound nspin 2); lia).
  destruct (assign_ranks nelec _) as [rk|] eqn:Er; [|discriminate]. cbn [bind] in H.
  set (late := match c with CCStandard | CCSingles => true | _ => false end) in *.
  destruct (assign_refwfn c nelec nspin (if late then RefNone else refwfn)) as [r1|] eqn:E1; [|discriminate]. cbn [bind] in H.
  destruct (exop_keys c nspin rk _ (if late then None else indices)) as [keys|] eqn:Ek; [|discriminate]. cbn [bind] in H.
  match type of H with bind ?X _ = _ => destruct X as [w1|] eqn:Ep; [|discriminate] end. cbn [bind] in H.
  apply assign_params_inv in Ep as [Lp Ew]. cbn [cc_exops] in Lp.
  exists (match r1 with RSd sd => sd | RCI => 0%N end).
  destruct c; unfold late in *; clear late; cbv beta iota zeta in *.
  - apply Ok_inj in H. subst w. rewrite Ew. constructor; auto; try reflexivity.
    + intros [X|X]; discriminate.
    + exists keys. split; [exact Ek|reflexivity].
  - destruct (exop_keys CCStandard nspin rk _ indices) as [keys2|] eqn:Ek2; [|discriminate]. cbn [bind] in H.
    destruct (assign_refwfn CCStandard nelec nspin refwfn) as [r2|] eqn:E2; [|discriminate]. cbn [bind] in H. apply Ok_inj in H. subst w.
    destruct indices as [l|]; [discriminate|]. rewrite Ek in Ek2. apply Ok_inj in Ek2. subst keys2.
    constructor; auto; try reflexivity.
    + rewrite Ew. reflexivity.
    + intros _. unfold assign_refwfn in E1. destruct (ground nelec nspin); [|discriminate]. cbn [bind] in E1. apply Ok_inj in E1. now subst r1.
    + exists keys. split; [exact Ek|reflexivity].
  - apply Ok_inj in H. subst w. rewrite Ew. constructor; auto; try reflexivity.
    + intros [X|X]; discriminate.
    + exists keys. split; [exact Ek|reflexivity].
  - destruct (exop_keys CCSingles nspin rk _ indices) as [keys2|] eqn:Ek2; [|discriminate]. cbn [bind] in H.
    destruct (assign_refwfn CCSingles nelec nspin refwfn) as [r2|] eqn:E2; [|discriminate]. cbn [bind] in H. apply Ok_inj in H. subst w.
    destruct indices as [l|]; [discriminate|]. rewrite Ek in Ek2. apply Ok_inj in Ek2. subst keys2.
    constructor; auto; try reflexivity.
    + rewrite Ew. reflexivity.
    + intros _. unfold assign_refwfn in E1. destruct (ground nelec nspin); [|discriminate]. cbn [bind] in E1. apply Ok_inj in E1. now subst r1.
    + exists keys. split; [exact Ek|reflexivity].
Qed.

Section Built.
Variables (c : ccclass) (nelec nspin : Z) (ra : ranksarg) (indices : option (list (list Z))) (refwfn : refarg) (given : bool)
  (refresh : Z) (w : cc K) (g : N).
Hypothesis B : built c nelec nspin ra indices refwfn given refresh w g.
Definition keys_of (w : cc K) : list (list Z) := map fst (cc_exops w).
Lemma built_ranks : (forall r, In r (cc_ranks w) -> (0 < r <= nelec)%Z) /\ NoDup (cc_ranks w).
Proof. destruct (assign_ranks_ok _ _ _ (b_ranks _ _ _ _ _ _ _ _ _ _ B)) as (H1 & H2 & _). auto. Qed.
Lemma built_exops : keys_of w = rank_keys (cc_ranks w) (fst (key_source c nspin g indices)) (snd (key_source c nspin g indices)) /\
  NoDup (keys_of w) /\ cc_exops w = combine (keys_of w) (seq 0%nat (length (keys_of w))).
Proof.
  destruct (b_keys _ _ _ _ _ _ _ _ _ _ B) as (keys & E & En). destruct (exop_keys_eq _ _ _ _ _ _ E) as (Ek & _ & _).
  destruct built_ranks as [R1 R2]. destruct (key_source_SS c nspin g indices) as [S1 S2].
  assert (N : NoDup keys) by (rewrite Ek; apply rank_keys_NoDup; auto; intros r Hr; apply R1 in Hr; lia).
  rewrite (number_eq keys N) in En.
  assert (X : keys_of w = keys) by (unfold keys_of; rewrite En; apply combine_fst'; now rewrite seq_length).
  rewrite X. auto.
Qed.
Lemma built_length : length (cc_params w) = length (keys_of w).
Proof. rewrite (b_params _ _ _ _ _ _ _ _ _ _ B). unfold keys_of. now rewrite map_length. Qed.
Lemma built_key : forall e, In e (keys_of w) <-> exists ann cre, exop_shape (cc_ranks w) e ann cre /\
  incl ann (fst (key_source c nspin g indices)) /\ incl cre (snd (key_source c nspin g indices) ann).
Proof.
  intros e. destruct built_exops as (-> & _ & _). destruct built_ranks as [R1 R2]. destruct (key_source_SS c nspin g indices) as [S1 S2].
  apply rank_keys_In; auto. intros r Hr. apply R1 in Hr. lia.
Qed.
Lemma source_nonneg : (forall x, In x (fst (key_source c nspin g indices)) -> (0 <= x)%Z) /\
  (forall ann x, In x (snd (key_source c nspin g indices) ann) -> (0 <= x)%Z).
Proof.
  destruct (b_keys _ _ _ _ _ _ _ _ _ _ B) as (keys & E & _). destruct (exop_keys_eq _ _ _ _ _ _ E) as (_ & En & Ei).
  destruct c; cbn [key_source]; [destruct indices as [[|i0 [|i1 [|]]]|]| |destruct indices as [l|]; [discriminate (En ltac:(discriminate))|]|]; cbn [fst snd];
    try (split; intros; repeat match goal with
      | H : In _ (orbitals _) |- _ => apply orbitals_In in H; lia
      | H : In _ (filter _ (orbitals _)) |- _ => apply filter_In in H as [H _]
      | H : In _ (zoccs _) |- _ => apply zoccs_In in H; tauto end; fail).
  destruct (Ei _ eq_refl) as (j0 & j1 & X & P0 & P1). injection X as <- <-.
  split; intros; [apply P0|apply P1]; now apply (proj1 (sorted_set_In _ _)).
Qed.
Lemma built_good : forall e, In e (keys_of w) -> good_key (cc_ranks w) e.
Proof.
  intros e He. apply built_key in He as (ann & cre & S & I1 & I2). pose proof (shape_halves _ _ _ _ S) as [Ea Ec]. destruct S as (Ee & L & R & S1 & S2).
  unfold good_key. rewrite Ea, Ec. repeat split; auto. intros z Hz. rewrite Ee in Hz. destruct source_nonneg as [P1 P2].
  apply in_app_iff in Hz as [Hz|Hz]; [apply P1; auto|apply (P2 ann); auto].
Qed.
End Built.
End New.
