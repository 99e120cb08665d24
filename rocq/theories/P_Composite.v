(** C50: linear combinations, products and embeddings of wavefunctions. *)
From Coq Require Import List ZArith NArith Arith Bool Lia Permutation Sorted.
From Verif Require Import Py Slater BitSpec BitLemmas SlaterBits SlaterBits2 SignLemmas Alg WfnCI Composite CompSpec BicliqueLemmas CompLemmas CompMain CompMain2 CompGrad CompEx.
Import ListNotations.
Local Open Scope nat_scope.

Lemma upd_beyond : forall {A} (l : list A) k x, length l <= k -> upd l k x = l.
Proof. induction l as [|a l IH]; intros k x H; [destruct k; reflexivity|]. destruct k; cbn in *; [lia|]. f_equal. apply IH. lia. Qed.
Lemma part_unique : forall sd l n n', part_of sd l n -> part_of sd l n' -> n = n'.
Proof.
  intros sd l n n' (m & (I1 & M1) & B1) (m' & (I2 & M2) & B2). assert (m = m') by (apply increasing_ext; auto; intros i; rewrite M1, M2; tauto). subst m'.
  apply bit_ext. intros j. rewrite B1, B2. reflexivity.
Qed.
Lemma parts_unique : forall sd L ns ns', Forall2 (part_of sd) L ns -> Forall2 (part_of sd) L ns' -> ns = ns'.
Proof.
  intros sd L ns ns' H. revert ns'. induction H as [|l n L ns P H IH]; intros ns' H'; inversion H'; subst; [reflexivity|]. f_equal; [eapply part_unique; eauto|auto].
Qed.
Lemma mapM_bind : forall {A B C} (R : A -> res B) (F : B -> res C) l r, mapM (fun x => do y <- R x; F y) l = Ok r <-> exists rows, mapM R l = Ok rows /\ mapM F rows = Ok r.
Proof.
  intros A B C R F. induction l as [|x l IH]; intros r; cbn [mapM].
  - split; [intros E; apply Ok_inj in E; subst; exists []; auto|intros (rows & E & E'); apply Ok_inj in E; subst; exact E'].
  - destruct (R x) as [y|e]; cbn [bind]; [|split; [discriminate|intros (rows & E & _); discriminate]].
    split.
    + destruct (F y) as [z|] eqn:Fy; cbn [bind]; [|discriminate]. destruct (mapM (fun x => do y <- R x; F y) l) as [t|]; cbn [bind]; [|discriminate].
      intros E. apply Ok_inj in E. subst r. destruct (proj1 (IH t) eq_refl) as (rows & E1 & E2). exists (y :: rows). rewrite E1. cbn. rewrite Fy, E2. auto.
    + intros (rows & E1 & E2). destruct (mapM R l) as [rs|]; cbn [bind] in E1; [|discriminate]. apply Ok_inj in E1. subst rows. cbn [mapM] in E2.
      destruct (F y) as [z|]; cbn [bind] in *; [|discriminate]. destruct (mapM F rs) as [t|] eqn:Et; cbn [bind] in E2; [|discriminate]. apply Ok_inj in E2. subst r.
      rewrite (proj2 (IH t) (ex_intro _ rs (conj eq_refl Et))). reflexivity.
Qed.
Lemma mapM_scatter : forall {A B} (p : A -> bool) (f : A -> res B) (z : B) l r,
  mapM (fun x => if p x then f x else Ok z) l = Ok r <-> exists v, mapM f (filter p l) = Ok v /\ r = scatter z (map p l) v.
Proof.
  intros A B p f z. induction l as [|x l IH]; intros r; cbn [mapM filter map].
  - split; [intros E; apply Ok_inj in E; subst; exists []; auto|intros (v & _ & ->); reflexivity].
  - destruct (p x).
    + cbn [mapM]. destruct (f x) as [y|]; cbn [bind]; [|split; [discriminate|intros (v & E & _); discriminate]]. split.
      * destruct (mapM (fun x => if p x then f x else Ok z) l) as [t|]; cbn [bind]; [|discriminate]. intros E. apply Ok_inj in E. subst r.
        destruct (proj1 (IH t) eq_refl) as (v & -> & ->). exists (y :: v). auto.
      * intros (v & E & ->). destruct (mapM f (filter p l)) as [v'|]; cbn [bind] in E; [|discriminate]. apply Ok_inj in E. subst v.
        rewrite (proj2 (IH (scatter z (map p l) v'))) by eauto. reflexivity.
    + cbn [bind]. split.
      * destruct (mapM (fun x => if p x then f x else Ok z) l) as [t|]; cbn [bind]; [|discriminate]. intros E. apply Ok_inj in E. subst r.
        destruct (proj1 (IH t) eq_refl) as (v & -> & ->). exists v. split; [reflexivity|]. destruct v; reflexivity.
      * intros (v & E & ->). rewrite (proj2 (IH (scatter z (map p l) v))) by eauto. destruct v; reflexivity.
Qed.
Lemma all_sds_some : forall ns, all_sds (map Some ns) = Ok ns.
Proof. unfold all_sds. induction ns as [|n ns IH]; [reflexivity|]. cbn. rewrite IH. reflexivity. Qed.

Lemma mapM_Forall2 : forall {A B} (f : A -> res B) l r, mapM f l = Ok r <-> Forall2 (fun x y => f x = Ok y) l r.
Proof.
  intros A B f. induction l as [|x l IH]; intros r; cbn [mapM].
  - split; [intros E; apply Ok_inj in E; subst; constructor|intros E; inversion E; reflexivity].
  - split.
    + destruct (f x) as [y|] eqn:E; cbn [bind]; [|discriminate]. destruct (mapM f l) as [t|]; cbn [bind]; [|discriminate]. intros Q. apply Ok_inj in Q. subst. constructor; [auto|]. apply IH. reflexivity.
    + intros Q. inversion Q as [|? y ? t Q1 Q2]; subst. rewrite Q1. cbn [bind]. apply IH in Q2. rewrite Q2. reflexivity.
Qed.
Lemma Forall2_impl' : forall {A B} (P Q : A -> B -> Prop), (forall x y, P x y -> Q x y) -> forall l r, Forall2 P l r -> Forall2 Q l r.
Proof. intros A B P Q H l r F. induction F; constructor; auto. Qed.

Section Theorems.
Context {K : CRing}.
Local Open Scope cr_scope.
Add Ring K_ring66 : (rth K).

(** The notion of derivative in the theorems below can be that of polynomials. *)
Theorem C50_polynomials : derivation (K := K) poly_der.
Proof.
  split.
  - intros f f' x g E (P & H & ->). exists P. split; [|reflexivity]. intros y. rewrite <- E. apply H.
  - intros x. exists [0; 1]. cbn [peval pder]. split; [intros y; ring|ring].
  - intros f x g a b (P & H & ->).
    assert (A : forall P y, peval (map (rmul b) P) y = b * peval P y) by (clear; induction P as [|c P IH]; intros y; cbn [map peval]; [ring|]; rewrite IH; ring).
    assert (B : forall P, pder (map (rmul b) P) x = b * pder P x) by (clear - A; induction P as [|c P IH]; cbn [map pder]; [ring|]; rewrite A, IH; ring).
    destruct P as [|c P].
    + exists [a]. cbn [peval pder] in *. split; [intros y; rewrite H; ring|ring].
    + exists ((a + b * c) :: map (rmul b) P). cbn [pder peval] in *. split; [intros y; rewrite H, A; ring|rewrite A, B; ring].
Qed.

(** ** linear combinations *)
(** The constructor accepts wavefunctions of the same number of electrons and memory, none or at least two, without repetition. *)
Theorem C50_lincomb_constructor : forall nelec nspin memory (wfns : list (comp K)) params w,
  new_lincomb nelec nspin memory wfns params = Ok w <->
  (0 < nelec)%Z /\ (0 < nspin)%Z /\ (nspin mod 2 = 0)%Z /\
  (forall c, In c wfns -> c_nelec c = nelec /\ c_memory c = memory) /\ length wfns <> 1%nat /\ NoDup (map c_id wfns) /\
  (params = None -> wfns <> []) /\
  w = mklc nelec nspin memory wfns (match params with Some p => p | None => map (fun k => if Nat.eqb k 0 then 1 else 0) (seq 0%nat (length wfns)) end).
Proof.
  intros nelec nspin memory wfns params w. unfold new_lincomb, assign_nelec, assign_nspin, lc_assign_wfns.
  destruct (Z.leb_spec nelec 0); cbn [bind]; [split; [discriminate|intros (A & _); lia]|].
  destruct (Z.leb_spec nspin 0); cbn [bind]; [split; [discriminate|intros (_ & A & _); lia]|].
  destruct (Z.eqb_spec (nspin mod 2) 1) as [M|M]; cbn [bind]; [split; [discriminate|intros (_ & _ & A & _); lia]|].
  assert (M0 : (nspin mod 2 = 0)%Z) by (pose proof (Z.mod_pos_bound nspin 2 ltac:(lia)); lia). clear M.
  destruct (forallb (fun c => Z.eqb (c_nelec c) nelec) wfns) eqn:F1; cbn [negb bind].
  2:{ split; [discriminate|]. intros (_ & _ & _ & A & _). assert (X : forallb (fun c => Z.eqb (c_nelec c) nelec) wfns = true); [|congruence].
      apply forallb_forall. intros c Hc. apply Z.eqb_eq. apply A. exact Hc. }
  destruct (forallb (fun c => Z.eqb (c_memory c) memory) wfns) eqn:F2; cbn [negb bind].
  2:{ split; [discriminate|]. intros (_ & _ & _ & A & _). assert (X : forallb (fun c => Z.eqb (c_memory c) memory) wfns = true); [|congruence].
      apply forallb_forall. intros c Hc. apply Z.eqb_eq. apply A. exact Hc. }
  rewrite forallb_forall in F1, F2.
  destruct (Nat.eqb_spec (length wfns) 1); cbn [bind]; [split; [discriminate|intros (_ & _ & _ & _ & A & _); contradiction]|].
  destruct (repeated (map c_id wfns)) eqn:R; cbn [bind].
  { split; [discriminate|]. intros (_ & _ & _ & _ & _ & A & _). apply repeated_NoDup in A. congruence. }
  apply repeated_NoDup in R.
  assert (C : forall c, In c wfns -> c_nelec c = nelec /\ c_memory c = memory) by (intros c Hc; split; apply Z.eqb_eq; auto).
  unfold lc_assign_params. destruct params as [p|]; cbn [bind].
  - split; [intros E; apply Ok_inj in E; subst w; repeat (split; auto)|intros (_ & _ & _ & _ & _ & _ & _ & ->); reflexivity]. discriminate.
  - destruct wfns as [|c t]; cbn [bind]; [split; [discriminate|intros (_ & _ & _ & _ & _ & _ & A & _); specialize (A eq_refl); congruence]|].
    assert (E : (1 :: map (fun _ => 0) t : list K) = map (fun k => if Nat.eqb k 0 then 1 else 0) (seq 0%nat (length (c :: t)))).
    { cbn [length seq map Nat.eqb]. f_equal. rewrite <- seq_shift, map_map. cbn [Nat.eqb]. clear. generalize 0%nat. induction t as [|x t IH]; intros a; [reflexivity|]. cbn. f_equal. apply IH. }
    rewrite E. split; [intros Q; apply Ok_inj in Q; subst w; repeat (split; auto)|intros (_ & _ & _ & _ & _ & _ & _ & ->); reflexivity]. discriminate.
Qed.
(** The overlap is the sum of the overlaps of the components with the parameters as weights. *)
Theorem C50_lincomb_overlap : forall (w : lincomb K) sd os, length (lc_params w) = length (lc_wfns w) ->
  Forall2 (fun c o => get_olp c sd = Ok o) (lc_wfns w) os -> lc_overlap w sd = Ok (weighted (lc_params w) os).
Proof. intros w sd os Le H. apply lc_overlap_value; [|exact Le]. apply mapM_Forall2. exact H. Qed.
(** With the default parameters it is the overlap of the first wavefunction. *)
Theorem C50_lincomb_default : forall nelec nspin memory (wfns : list (comp K)) w sd os,
  new_lincomb nelec nspin memory wfns None = Ok w -> Forall2 (fun c o => get_olp c sd = Ok o) wfns os ->
  exists o t, os = o :: t /\ lc_overlap w sd = Ok o.
Proof.
  intros nelec nspin memory wfns w sd os E H. apply C50_lincomb_constructor in E. destruct E as (_ & _ & _ & _ & _ & _ & Ne & ->). specialize (Ne eq_refl).
  destruct wfns as [|c wfns]; [congruence|]. inversion H as [|? o ? t H1 H2]; subst. exists o, t. split; [reflexivity|].
  rewrite (C50_lincomb_overlap _ sd (o :: t)); [|cbn [lc_params lc_wfns]; rewrite map_length, seq_length; reflexivity|exact H].
  f_equal. cbn [lc_params length seq map Nat.eqb]. unfold weighted. cbn [combine]. rewrite sumf_cons. cbn [fst snd].
  rewrite sumf_zero; [ring|]. intros [p x] Hp. cbn [fst snd]. apply in_combine_l in Hp. apply in_map_iff in Hp. destruct Hp as (k & <- & Hk). apply in_seq in Hk.
  destruct (Nat.eqb_spec k 0); [lia|ring].
Qed.
(** The derivative with respect to parameters of a component, in the order in which the component returns them. *)
Theorem C50_lincomb_derivative : forall Der, derivation Der -> forall (w : lincomb K) sd os k c d ps g,
  length (lc_params w) = length (lc_wfns w) -> NoDup (map c_id (lc_wfns w)) ->
  Forall2 (fun c o => get_olp c sd = Ok o) (lc_wfns w) os -> nth_error (lc_wfns w) k = Some c ->
  get_dolp c sd d = Ok g ->
  gradient Der (fun p x => get_olp (with_param c p x) sd) (fun p => nth p (c_params c) 0) ps g ->
  exists g', lc_overlap_deriv w sd (TWfn (c_id c)) d = Ok g' /\
    gradient Der (fun p x => lc_overlap (swapped w k (with_param c p x)) sd) (fun p => nth p (c_params c) 0) ps g'.
Proof.
  intros Der HD w sd os k c d ps g Le ND H Hk Hg G. apply mapM_Forall2 in H. unfold lc_overlap_deriv. rewrite H. cbn [bind].
  rewrite (find_comp_at _ k c ND Hk), Hk.
  assert (Hlt : (k < length (lc_wfns w))%nat) by (apply nth_error_Some; congruence).
  rewrite (nth_error_nth' (lc_params w) 0) by (rewrite Le; exact Hlt). rewrite Hg. cbn [bind]. eexists. split; [reflexivity|].
  eapply (gradient_scale Der HD _ _ _ _ _ (weighted (lc_params w) (upd os k 0)) (nth k (lc_params w) 0)); [exact G|].
  intros p x v _ E. cbn beta in E |- *. rewrite (lc_overlap_value _ sd (upd os k v)).
  - f_equal. apply weighted_upd; [rewrite Le; auto|apply mapM_length in H; rewrite H; auto].
  - cbn [swapped lc_wfns]. apply mapM_upd; auto.
  - cbn [swapped lc_wfns lc_params]. rewrite upd_length. exact Le.
Qed.
(** The derivative with respect to the parameters of the combination: all of them, whatever the requested indices. *)
Theorem C50_lincomb_self : forall Der, derivation Der -> forall (w : lincomb K) sd os d,
  length (lc_params w) = length (lc_wfns w) ->
  Forall2 (fun c o => get_olp c sd = Ok o) (lc_wfns w) os ->
  (forall i, In i d -> (0 <= i < Z.of_nat (length (lc_params w)))%Z) ->
  lc_overlap_deriv w sd TSelf d = Ok os /\
  gradient Der (fun p x => lc_overlap (reweighted w p x) sd) (fun p => nth p (lc_params w) 0) (seq 0%nat (length (lc_params w))) os.
Proof.
  intros Der HD w sd os d Le H Hd. apply mapM_Forall2 in H. split.
  - unfold lc_overlap_deriv. rewrite H. cbn [bind]. destruct (existsb _ d) eqn:E; [|reflexivity]. exfalso.
    apply existsb_exists in E. destruct E as (i & Hi & E). apply Hd in Hi. apply orb_true_iff in E. destruct E as [E|E]; [apply Z.ltb_lt in E|apply Z.leb_le in E]; lia.
  - assert (Lo : length os = length (lc_params w)) by (apply mapM_length in H; congruence). unfold gradient.
    assert (G : forall p, (p < length (lc_params w))%nat -> exists f, (forall x, lc_overlap (reweighted w p x) sd = Ok (f x)) /\ Der f (nth p (lc_params w) 0) (nth p os 0)).
    { intros p Hp. exists (fun x => weighted (upd (lc_params w) p 0) os + nth p os 0 * x). split.
      - intros x. rewrite (lc_overlap_value _ sd os); [|exact H|cbn [reweighted lc_params lc_wfns]; rewrite upd_length; exact Le].
        f_equal. cbn [reweighted lc_params]. apply weighted_upd_l; lia.
      - pose proof (der_affine Der HD (fun x => x) (nth p (lc_params w) 0) 1 (weighted (upd (lc_params w) p 0) os) (nth p os 0) (der_id Der HD _)) as X.
        replace (nth p os 0 * 1) with (nth p os 0) in X by ring. exact X. }
    assert (Q : forall (l : list K) a, (forall p, (p < length l)%nat -> exists f, (forall x, lc_overlap (reweighted w (a + p) x) sd = Ok (f x)) /\ Der f (nth (a + p) (lc_params w) 0) (nth p l 0)) ->
       Forall2 (fun p g => exists f, (forall x, lc_overlap (reweighted w p x) sd = Ok (f x)) /\ Der f (nth p (lc_params w) 0) g) (seq a (length l)) l).
    { induction l as [|o l IH]; intros a X; cbn [length seq]; constructor.
      - specialize (X 0%nat ltac:(cbn; lia)). rewrite Nat.add_0_r in X. exact X.
      - apply IH. intros p Hp. specialize (X (S p) ltac:(cbn; lia)). replace (S a + p)%nat with (a + S p)%nat by lia. exact X. }
    rewrite <- Lo. apply (Q os 0%nat). intros p Hp. apply G. lia.
Qed.
(** What is refused. *)
Theorem C50_lincomb_errors : forall (w : lincomb K) sd os d, Forall2 (fun c o => get_olp c sd = Ok o) (lc_wfns w) os ->
  (forall i, ~ In i (map c_id (lc_wfns w)) -> lc_overlap_deriv w sd (TWfn i) d = Err ValueError) /\
  (forall i, In i d -> (i < 0 \/ Z.of_nat (length (lc_params w)) <= i)%Z -> lc_overlap_deriv w sd TSelf d = Err ValueError).
Proof.
  intros w sd os d H. apply mapM_Forall2 in H. unfold lc_overlap_deriv. rewrite H. cbn [bind]. split.
  - intros i Hi. rewrite find_comp_none by auto. reflexivity.
  - intros i Hi R. match goal with |- (if ?b then _ else _) = _ => assert (X : b = true) end; [|rewrite X; reflexivity].
    apply existsb_exists. exists i. split; [auto|]. apply orb_true_iff. destruct R; [left; apply Z.ltb_lt; auto|right; apply Z.leb_le; auto].
Qed.

(** ** products *)
Theorem C50_product_constructor : forall wfns ws : list (comp K), new_product wfns = Ok ws <->
  ws = wfns /\ NoDup (map c_id wfns) /\ exists c, hd_error wfns = Some c /\ (0 < c_nelec c)%Z /\ (0 < c_nspin c)%Z /\ (c_nspin c mod 2 = 0)%Z /\ forall c', In c' wfns -> c_nelec c' = c_nelec c.
Proof.
  intros wfns ws. unfold new_product, assign_nelec, assign_nspin. destruct wfns as [|c t]; [split; [discriminate|intros (_ & _ & c & E & _); discriminate]|].
  cbn [hd_error]. destruct (Z.leb_spec (c_nelec c) 0); cbn [bind]; [split; [discriminate|intros (_ & _ & c' & E & A & _); injection E as <-; lia]|].
  destruct (Z.leb_spec (c_nspin c) 0); cbn [bind]; [split; [discriminate|intros (_ & _ & c' & E & _ & A & _); injection E as <-; lia]|].
  destruct (Z.eqb_spec (c_nspin c mod 2) 1) as [M|M]; cbn [bind]; [split; [discriminate|intros (_ & _ & c' & E & _ & _ & A & _); injection E as <-; lia]|].
  assert (M0 : (c_nspin c mod 2 = 0)%Z) by (pose proof (Z.mod_pos_bound (c_nspin c) 2 ltac:(lia)); lia). clear M.
  destruct (forallb (fun c' => Z.eqb (c_nelec c') (c_nelec c)) (c :: t)) eqn:F; cbn [negb bind].
  2:{ split; [discriminate|]. intros (_ & _ & c' & E & _ & _ & _ & A). injection E as <-. assert (X : forallb (fun c' => Z.eqb (c_nelec c') (c_nelec c)) (c :: t) = true); [|congruence].
      apply forallb_forall. intros x Hx. apply Z.eqb_eq. auto. }
  rewrite forallb_forall in F.
  destruct (repeated (map c_id (c :: t))) eqn:R.
  { split; [discriminate|]. intros (_ & A & _). apply repeated_NoDup in A. congruence. }
  apply repeated_NoDup in R. split.
  - intros E. apply Ok_inj in E. subst. split; [auto|]. split; [auto|]. exists c. repeat (split; auto). intros c' Hc. apply Z.eqb_eq. auto.
  - intros (-> & _). reflexivity.
Qed.
Lemma contrib_same : forall (ws : list (comp K)) sd os, Forall2 (fun c o => get_olp c sd = Ok o) ws os -> pr_contrib ws (map (fun _ => sd) ws) = Ok os.
Proof.
  intros ws sd os H. unfold pr_contrib. apply mapM_Forall2. induction H; cbn; constructor; auto.
Qed.
Theorem C50_product_overlap : forall (ws : list (comp K)) sd os, Forall2 (fun c o => get_olp c sd = Ok o) ws os ->
  pr_overlap ws sd = Ok (prodf (fun x => x) os).
Proof. intros ws sd os H. unfold pr_overlap, pr_overlap_at. rewrite (contrib_same ws sd os H). reflexivity. Qed.
Lemma deriv_at : forall Der, derivation Der -> forall (ws : list (comp K)) sds os k c sd d ps g,
  NoDup (map c_id ws) -> pr_contrib ws sds = Ok os -> length sds = length ws -> nth_error ws k = Some c -> nth_error sds k = Some sd ->
  get_dolp c sd d = Ok g ->
  gradient Der (fun p x => get_olp (with_param c p x) sd) (fun p => nth p (c_params c) 0) ps g ->
  exists g', pr_deriv_at ws sds (c_id c) d = Ok g' /\
    gradient Der (fun p x => pr_overlap_at (upd ws k (with_param c p x)) sds) (fun p => nth p (c_params c) 0) ps g'.
Proof.
  intros Der HD ws sds os k c sd d ps g ND H Le Hk Hs Hg G. unfold pr_deriv_at. rewrite H. cbn [bind]. rewrite (find_comp_at _ k c ND Hk), Hk, Hs, Hg. cbn [bind].
  eexists. split; [reflexivity|].
  assert (Hlt : (k < length os)%nat). { unfold pr_contrib in H. apply mapM_length in H. rewrite H, combine_length, Le, Nat.min_id. apply nth_error_Some. congruence. }
  eapply (gradient_scale Der HD _ _ _ _ _ 0); [exact G|].
  intros p x v _ E. cbn beta in E |- *. unfold pr_overlap_at. rewrite (pr_contrib_upd ws sds os k _ sd v H Hs E). cbn [bind]. f_equal. rewrite prodf_upd by auto. ring.
Qed.
Theorem C50_product_derivative : forall Der, derivation Der -> forall (ws : list (comp K)) sd os k c d ps g,
  NoDup (map c_id ws) -> Forall2 (fun c o => get_olp c sd = Ok o) ws os -> nth_error ws k = Some c ->
  get_dolp c sd d = Ok g ->
  gradient Der (fun p x => get_olp (with_param c p x) sd) (fun p => nth p (c_params c) 0) ps g ->
  exists g', pr_overlap_deriv ws sd (c_id c) d = Ok g' /\
    gradient Der (fun p x => pr_overlap (upd ws k (with_param c p x)) sd) (fun p => nth p (c_params c) 0) ps g'.
Proof.
  intros Der HD ws sd os k c d ps g ND H Hk Hg G. apply contrib_same in H.
  destruct (deriv_at Der HD ws (map (fun _ => sd) ws) os k c sd d ps g ND H) as (g' & E & G'); auto.
  - rewrite map_length. reflexivity.
  - rewrite nth_error_map, Hk. reflexivity.
  - exists g'. split; [exact E|]. unfold gradient in *. clear - G'. induction G' as [|p q ps gs (f & F1 & F2) G' IH]; constructor; [|exact IH].
    exists f. split; [|exact F2]. intros x. rewrite <- F1. unfold pr_overlap. f_equal. clear. generalize (with_param c p x). intros c'. revert k.
    induction ws as [|a ws IH]; intros [|k]; cbn; try reflexivity. f_equal. apply IH.
Qed.
Theorem C50_product_errors : forall (ws : list (comp K)) sd os i d, Forall2 (fun c o => get_olp c sd = Ok o) ws os -> ~ In i (map c_id ws) ->
  pr_overlap_deriv ws sd i d = Err ValueError.
Proof. intros ws sd os i d H Hi. unfold pr_overlap_deriv, pr_deriv_at. rewrite (contrib_same ws sd os H). cbn [bind]. rewrite find_comp_none by auto. reflexivity. Qed.
(** The methods for many determinants give the overlaps and derivatives one after the other. *)
Lemma columns_same : forall (ws : list (comp K)) (sds : list N), map (fun _ => sds) ws = transpose_sds (length ws) (map (fun sd => map (fun _ => sd) ws) sds).
Proof.
  intros ws sds. unfold transpose_sds. apply (nth_ext _ _ [] []); rewrite !map_length, ?seq_length; [reflexivity|]. intros s Hs.
  set (h := fun s => map (fun r => nth s r 0%N) (map (fun sd => map (fun _ => sd) ws) sds)).
  rewrite (nth_indep (map h (seq 0 (length ws))) [] (h 0%nat)) by (rewrite map_length, seq_length; auto). rewrite map_nth, seq_nth by auto. unfold h. cbn [Nat.add].
  rewrite map_map. transitivity sds.
  - destruct (nth_error ws s) as [c|] eqn:E; [|apply nth_error_None in E; lia]. apply nth_error_nth. rewrite nth_error_map, E. reflexivity.
  - rewrite <- (map_id sds) at 1. apply map_ext. intros sd. symmetry. destruct (nth_error ws s) as [c|] eqn:E; [|apply nth_error_None in E; lia].
    apply nth_error_nth. rewrite nth_error_map, E. reflexivity.
Qed.
Lemma mapM_mapped : forall {A B C} (g : A -> B) (f : B -> res C) l, mapM f (map g l) = mapM (fun x => f (g x)) l.
Proof. intros A B C g f. induction l as [|x l IH]; [reflexivity|]. cbn. rewrite IH. reflexivity. Qed.
Theorem C50_product_batch : forall (ws : list (comp K)) sds r, Forall batch_ok ws ->
  (pr_overlaps ws sds = Ok r <-> mapM (pr_overlap ws) sds = Ok r) /\
  forall k c d r, NoDup (map c_id ws) -> nth_error ws k = Some c ->
    (pr_overlaps_deriv ws sds (c_id c) d = Ok r <-> mapM (fun sd => pr_overlap_deriv ws sd (c_id c) d) sds = Ok r).
Proof.
  intros ws sds r HB. unfold pr_overlaps, pr_overlaps_deriv. rewrite columns_same.
  assert (EL : length sds = length (map (fun sd => map (fun _ : comp K => sd) ws) sds)) by (rewrite map_length; reflexivity).
  assert (HL : forall row, In row (map (fun sd => map (fun _ => sd) ws) sds) -> length row = length ws).
  { intros row Hr. apply in_map_iff in Hr. destruct Hr as (sd & <- & _). apply map_length. }
  split.
  - rewrite EL, batch_overlaps by auto. rewrite mapM_mapped. reflexivity.
  - intros k c d r' ND Hk. rewrite EL, (batch_derivs _ _ k c) by auto. rewrite mapM_mapped. reflexivity.
Qed.

(** ** embeddings *)
Section Embedded.
Variables (nelec nspin : Z) (L : list (list Z)) (wfns : list (comp K)) (dj : bool) (w : embedded K).
Hypothesis HW : new_embedded nelec nspin L wfns dj = Ok w.
(** What the constructor guarantees. *)
Theorem C50_embedded_constructor :
  em_wfns w = wfns /\ Forall2 (fun c ind => c_nspin c = Z.of_nat (length ind)) wfns L /\
  (forall i, (0 <= i < nspin)%Z <-> exists ind, In ind L /\ In i ind) /\
  (forall ind, In ind L -> NoDup ind) /\
  (dj = true -> nelec = fold_right Z.add 0%Z (map c_nelec wfns) /\
    forall s s' a b i, nth_error L s = Some a -> nth_error L s' = Some b -> In i a -> In i b -> s = s').
Proof.
  destruct (embedded_inv _ _ _ _ _ _ HW) as (_ & _ & _ & _ & _ & _ & A & _ & B & C & D & E). split; [exact A|]. split; [exact D|]. split; [|split].
  - intros i. split; [intros Hi; destruct (C i Hi) as (s & l & Hs & Hl); exists l; split; [eapply nth_error_In; exact Hs|exact Hl]|].
    intros (ind & H1 & H2). apply (B ind H1). exact H2.
  - intros ind Hi. apply B. exact Hi.
  - intros Hd. destruct (E Hd) as (E1 & E2). split; [exact E1|]. apply disjoint_lists_spec. exact E2.
Qed.
(** Each subsystem is given the part of the determinant on its orbitals, numbered in increasing order. *)
Theorem C50_split : forall sd, fits sd (Z.to_nat nspin) ->
  exists ns, split_sd w sd = Ok (map Some ns) /\ Forall2 (part_of sd) L ns /\ Forall2 (fun c n => fits n (Z.to_nat (c_nspin c))) wfns ns.
Proof.
  intros sd Hf. destruct (split_parts _ _ _ _ _ _ HW sd Hf) as (ns & E & P & _). exists ns. split; [exact E|]. split; [exact P|].
  destruct (embedded_inv _ _ _ _ _ _ HW) as (_ & _ & _ & _ & _ & _ & _ & _ & B & _ & D & _).
  assert (B' : forall l, In l L -> NoDup l /\ forall i, In i l -> (0 <= i)%Z) by (intros l Hl; destruct (B l Hl) as (X & _ & Y); split; [exact X|intros i Hi; apply Y in Hi; lia]).
  clear - P D B'. revert wfns D. induction P as [|l n L' ns (m & Em & Bm) P IH]; intros ws D; inversion D as [|c ? ws' ? D1 D2]; subst; constructor.
  - intros j Hj. rewrite Bm. destruct (nth_error m j) as [i|] eqn:Q; [|reflexivity]. exfalso.
    destruct (B' l (or_introl eq_refl)) as (N & R). destruct (sorted_nat l N R) as (m' & _ & Em' & Lm).
    assert (m = m') by (apply increasing_ext; [apply Em|apply Em'|]; intros x; rewrite (proj2 Em x), (proj2 Em' x); tauto). subst m'.
    assert (j < length m)%nat by (apply nth_error_Some; congruence). rewrite D1 in Hj. lia.
  - apply IH; [intros; apply B'; right; auto|exact D2].
Qed.
(** The spin orbitals of a subsystem are the two spin orbitals of each of its spatial orbitals, alpha before beta, in the same order. *)
Theorem C50_split_pairs : forall sd ind n, fits sd (Z.to_nat nspin) -> In ind L -> part_of sd ind n ->
  exists a, increasing a /\ length ind = (length a + length a)%nat /\ (forall i, In i a -> (i < Z.to_nat (nspin / 2))%nat) /\
    forall j i, nth_error a j = Some i -> bit n j = bit sd i /\ bit n (length a + j)%nat = bit sd (i + Z.to_nat (nspin / 2))%nat.
Proof.
  intros sd ind n Hf Hi (m & Em & Bm). destruct (embedded_pairs _ _ _ _ _ _ HW ind Hi) as (a & Ia & Ra & Sa & La).
  destruct (embedded_inv _ _ _ _ _ _ HW) as (_ & Hn & He & _ & _ & _ & _ & _ & B & _). destruct (B ind Hi) as (N & _ & R).
  assert (Hp : (0 <= nspin / 2)%Z) by (apply Z.div_pos; lia).
  destruct (sorted_nat ind N) as (m' & S' & Em' & _); [intros i H; apply R in H; lia|].
  assert (m = m') by (apply increasing_ext; [apply Em|apply Em'|]; intros x; rewrite (proj2 Em x), (proj2 Em' x); tauto). subst m'.
  assert (Q : m = a ++ map (fun i => i + Z.to_nat (nspin / 2))%nat a).
  { rewrite Sa in S'. clear - S' Hp. assert (Z : map Z.to_nat (map Z.of_nat a ++ map (fun i => (Z.of_nat i + nspin / 2)%Z) a) = map Z.to_nat (map Z.of_nat m)) by (rewrite S'; reflexivity).
    rewrite map_app, !map_map in Z. rewrite (map_ext (fun x => Z.to_nat (Z.of_nat x)) (fun x => x)) in Z by (intros; apply Nat2Z.id). rewrite !map_id in Z.
    rewrite (map_ext (fun x => Z.to_nat (Z.of_nat x)) (fun x => x)) in Z by (intros; apply Nat2Z.id). rewrite map_id in Z. rewrite <- Z. f_equal.
    apply map_ext. intros x. lia. }
  exists a. split; [exact Ia|]. split; [exact La|]. split; [intros i H; apply Ra in H; lia|]. intros j i Hj.
  assert (j < length a)%nat by (apply nth_error_Some; congruence). rewrite !Bm, Q. split.
  - rewrite nth_error_app1 by auto. rewrite Hj. reflexivity.
  - rewrite nth_error_app2 by lia. replace (length a + j - length a)%nat with j by lia. rewrite nth_error_map, Hj. reflexivity.
Qed.
(** A determinant with an electron outside of the orbitals is refused. *)
Theorem C50_split_outside : forall sd i, bit sd i = true -> (nspin <= Z.of_nat i)%Z -> split_sd w sd = Err KeyError.
Proof. exact (split_outside _ _ _ _ _ _ HW). Qed.
(** With disjoint subsystems no electron is lost or counted twice. *)
Theorem C50_split_electrons : dj = true -> forall sd ns k, fits sd (Z.to_nat nspin) -> split_sd w sd = Ok (map Some ns) -> has_electrons sd k ->
  exists ks, Forall2 has_electrons ns ks /\ list_sum ks = k.
Proof.
  intros Hd sd ns k Hf E Hk. exists (map (fun n => total_occ (Some n)) ns). split.
  - clear. induction ns; cbn; constructor; auto. apply total_occ_has.
  - rewrite (split_electrons _ _ _ _ _ _ HW Hd sd ns Hf E). eapply has_electrons_unique; [apply total_occ_has|exact Hk].
Qed.
(** Different determinants are split differently. *)
Theorem C50_split_injective : forall sd sd', fits sd (Z.to_nat nspin) -> fits sd' (Z.to_nat nspin) -> split_sd w sd = split_sd w sd' -> sd = sd'.
Proof.
  intros sd sd' Hf Hf' E. destruct (split_parts _ _ _ _ _ _ HW sd Hf) as (ns & E1 & _ & _ & B1).
  destruct (split_parts _ _ _ _ _ _ HW sd' Hf') as (ns' & E2 & _ & _ & B2).
  assert (ns = ns').
  { rewrite E, E2 in E1. apply Ok_inj in E1. clear - E1. revert ns' E1. induction ns as [|x ns IH]; intros [|y ns'] H; try discriminate; [reflexivity|]. injection H as -> H. f_equal. auto. }
  subst ns'. destruct (embedded_inv _ _ _ _ _ _ HW) as (_ & Hn & _ & _ & _ & _ & _ & _ & B & C & _). apply bit_ext. intros i.
  destruct (Nat.lt_ge_cases i (Z.to_nat nspin)) as [Hi|Hi]; [|rewrite (Hf i Hi), (Hf' i Hi); reflexivity].
  destruct (C (Z.of_nat i)) as (s & l & Hs & Hl); [lia|]. apply (Permutation_in _ (Permutation_sym (sorted_Z_perm l))) in Hl. apply In_nth_error in Hl. destruct Hl as (j & Hj).
  assert (X : bit sd i = true <-> bit sd' i = true).
  { assert (Y : forall x, (forall s l, nth_error L s = Some l -> forall j, bit (nth s ns 0%N) j = true <-> exists i, nth_error (sorted_Z l) j = Some (Z.of_nat i) /\ bit x i = true) -> bit x i = true <-> bit (nth s ns 0%N) j = true).
    { intros x Bx. rewrite (Bx s l Hs j). split; [eauto|]. intros (i' & Q & Qb). rewrite Hj in Q. injection Q as Q. apply Nat2Z.inj in Q. subst. exact Qb. }
    rewrite (Y sd B1), (Y sd' B2). tauto. }
  destruct (bit sd i), (bit sd' i); try reflexivity; [symmetry; apply X; reflexivity|apply X; reflexivity].
Qed.
Lemma em_rows : forall sd, fits sd (Z.to_nat nspin) -> forall ns, Forall2 (part_of sd) L ns -> (do l <- split_sd w sd; all_sds l) = Ok ns.
Proof.
  intros sd Hf ns P. destruct (split_parts _ _ _ _ _ _ HW sd Hf) as (ns' & E & P' & _). rewrite E. cbn [bind]. rewrite all_sds_some. f_equal. eapply parts_unique; eauto.
Qed.
Lemma parts_length : forall sd ns, Forall2 (part_of sd) L ns -> length ns = length wfns.
Proof.
  intros sd ns P. destruct (embedded_inv _ _ _ _ _ _ HW) as (_ & _ & _ & _ & _ & _ & _ & E & _). rewrite E. clear - P. induction P; cbn; congruence.
Qed.
(** The overlap is the product of the overlaps of the subsystems with their parts of the determinant. *)
Theorem C50_embedded_overlap : forall sd ns os, fits sd (Z.to_nat nspin) -> Forall2 (part_of sd) L ns ->
  Forall2 (fun nc o => get_olp (snd nc) (fst nc) = Ok o) (combine ns wfns) os -> em_overlap w sd = Ok (prodf (fun x => x) os).
Proof.
  intros sd ns os Hf P H. destruct (embedded_inv _ _ _ _ _ _ HW) as (_ & _ & _ & _ & _ & _ & E & _).
  unfold em_overlap. pose proof (em_rows sd Hf ns P) as R. destruct (split_sd w sd) as [l|]; cbn [bind] in R |- *; [|discriminate]. rewrite R. cbn [bind].
  unfold pr_overlap_at, pr_contrib. rewrite E. apply mapM_Forall2 in H. rewrite H. reflexivity.
Qed.
Theorem C50_embedded_derivative : forall Der, derivation Der -> forall sd ns os k c n d ps g,
  fits sd (Z.to_nat nspin) -> Forall2 (part_of sd) L ns -> NoDup (map c_id wfns) ->
  Forall2 (fun nc o => get_olp (snd nc) (fst nc) = Ok o) (combine ns wfns) os ->
  nth_error wfns k = Some c -> nth_error ns k = Some n -> get_dolp c n d = Ok g ->
  gradient Der (fun p x => get_olp (with_param c p x) n) (fun p => nth p (c_params c) 0) ps g ->
  exists g', em_overlap_deriv w sd (c_id c) d = Ok g' /\
    gradient Der (fun p x => em_overlap (em_swapped w k (with_param c p x)) sd) (fun p => nth p (c_params c) 0) ps g'.
Proof.
  intros Der HD sd ns os k c n d ps g Hf P ND H Hk Hn Hg G. destruct (embedded_inv _ _ _ _ _ _ HW) as (_ & _ & _ & _ & _ & _ & E & _).
  pose proof (em_rows sd Hf ns P) as R. apply mapM_Forall2 in H.
  destruct (deriv_at Der HD wfns ns os k c n d ps g ND H (parts_length sd ns P) Hk Hn Hg G) as (g' & E' & G').
  exists g'. split.
  - unfold em_overlap_deriv. destruct (split_sd w sd) as [l|]; cbn [bind] in R |- *; [|discriminate]. rewrite R. cbn [bind]. rewrite E. exact E'.
  - unfold gradient in *. clear - G' R E. induction G' as [|p q ps gs (f & F1 & F2) G' IH]; constructor; [|exact IH].
    exists f. split; [|exact F2]. intros x. rewrite <- F1. unfold em_overlap, em_swapped.
    assert (S : split_sd (mkem (em_nelec w) (em_nspin w) (em_dict w) (upd (em_wfns w) k (with_param c p x))) sd = split_sd w sd).
    { unfold split_sd. cbn [em_dict em_wfns]. f_equal. f_equal. generalize (with_param c p x). intros c'. clear. revert k. induction (em_wfns w) as [|a ws IH]; intros [|k]; cbn; try reflexivity. f_equal. apply IH. }
    rewrite S. destruct (split_sd w sd) as [l|]; cbn [bind] in R |- *; [|discriminate]. rewrite R. cbn [bind em_wfns]. rewrite E. reflexivity.
Qed.
Theorem C50_embedded_batch : forall sds, (forall sd, In sd sds -> fits sd (Z.to_nat nspin)) -> Forall batch_ok wfns ->
  (forall r, em_overlaps w sds = Ok r <-> mapM (em_overlap w) sds = Ok r) /\
  (forall k c d r, NoDup (map c_id wfns) -> nth_error wfns k = Some c ->
    (em_overlaps_deriv w sds (c_id c) d = Ok r <-> mapM (fun sd => em_overlap_deriv w sd (c_id c) d) sds = Ok r)).
Proof.
  intros sds Hf HB. destruct (embedded_inv _ _ _ _ _ _ HW) as (_ & _ & _ & _ & _ & _ & E & EL & _).
  assert (X : exists rows, mapM (fun sd => do l <- split_sd w sd; all_sds l) sds = Ok rows /\ (forall row, In row rows -> length row = length wfns) /\ length rows = length sds).
  { induction sds as [|sd sds IH]; [exists []; repeat split; intros ? []|]. destruct IH as (rows & R1 & R2 & R3); [intros; apply Hf; right; auto|].
    destruct (split_parts _ _ _ _ _ _ HW sd (Hf sd (or_introl eq_refl))) as (ns & Es & P & _). exists (ns :: rows). split; [|split].
    - cbn [mapM]. rewrite Es. cbn [bind]. rewrite all_sds_some. cbn [bind]. rewrite R1. reflexivity.
    - intros row [<-|Hr]; [eapply parts_length; exact P|auto].
    - cbn. congruence. }
  destruct X as (rows & R1 & R2 & R3). split.
  - intros r. unfold em_overlaps. rewrite R1. cbn [bind]. rewrite <- R3, E, batch_overlaps by auto.
    assert (F : mapM (em_overlap w) sds = mapM (fun sd => do row <- (do l <- split_sd w sd; all_sds l); pr_overlap_at wfns row) sds).
    { clear - E. induction sds as [|sd sds IH]; [reflexivity|]. cbn [mapM]. rewrite IH. f_equal. unfold em_overlap. rewrite E. destruct (split_sd w sd); reflexivity. }
    rewrite F, mapM_bind, R1. split; [intros Q; exists rows; auto|intros (rows' & Q & Q'); apply Ok_inj in Q; subst; exact Q'].
  - intros k c d r ND Hk. unfold em_overlaps_deriv. rewrite R1. cbn [bind]. rewrite <- R3, E, (batch_derivs _ _ k c) by auto.
    assert (F : mapM (fun sd => em_overlap_deriv w sd (c_id c) d) sds = mapM (fun sd => do row <- (do l <- split_sd w sd; all_sds l); pr_deriv_at wfns row (c_id c) d) sds).
    { clear - E. induction sds as [|sd sds IH]; [reflexivity|]. cbn [mapM]. rewrite IH. f_equal. unfold em_overlap_deriv. rewrite E. destruct (split_sd w sd); reflexivity. }
    rewrite F, mapM_bind, R1. split; [intros Q; exists rows; auto|intros (rows' & Q & Q'); apply Ok_inj in Q; subst; exact Q'].
Qed.
(** ** fixed numbers of electrons in the subsystems *)
Lemma fixed_rows : forall nelecs sd ns, fits sd (Z.to_nat nspin) -> (length L <= length nelecs)%nat -> Forall2 (part_of sd) L ns ->
  (do l <- fixed_split w nelecs sd; all_sds l) = Ok (map (fun s => if Z.eqb (nth s nelecs 0%Z) (Z.of_nat (total_occ (Some (nth s ns 0%N)))) then nth s ns 0%N else 0%N) (seq 0%nat (length L))).
Proof.
  intros nelecs sd ns Hf Hn P. destruct (fixed_split_parts _ _ _ _ _ _ HW nelecs sd Hf Hn) as (ns' & E & _ & F).
  pose proof (em_rows sd Hf ns P) as R. rewrite E in R. cbn [bind] in R. rewrite all_sds_some in R. apply Ok_inj in R. subst ns'. rewrite F. cbn [bind].
  rewrite <- (map_map (fun s => if Z.eqb (nth s nelecs 0%Z) (Z.of_nat (total_occ (Some (nth s ns 0%N)))) then nth s ns 0%N else 0%N) Some). apply all_sds_some.
Qed.
Lemma matched_row : forall nelecs ns, matched nelecs ns -> length ns = length L -> (length L <= length nelecs)%nat ->
  map (fun s => if Z.eqb (nth s nelecs 0%Z) (Z.of_nat (total_occ (Some (nth s ns 0%N)))) then nth s ns 0%N else 0%N) (seq 0%nat (length L)) = ns /\ existsb (N.eqb 0) ns = false.
Proof.
  intros nelecs ns M E Le. split.
  - apply (nth_ext _ _ 0%N 0%N); rewrite map_length, seq_length; [congruence|]. intros s Hs.
    set (h := fun s => if Z.eqb (nth s nelecs 0%Z) (Z.of_nat (total_occ (Some (nth s ns 0%N)))) then nth s ns 0%N else 0%N).
    rewrite (nth_indep _ 0%N (h 0%nat)) by (rewrite map_length, seq_length; auto). rewrite map_nth, seq_nth by auto. cbn [Nat.add]. unfold h.
    assert (Hs' : (s < length ns)%nat) by lia. destruct (M s (nth s ns 0%N) _ (nth_error_nth' ns 0%N Hs') (total_occ_has _)) as (A & _). apply nth_error_nth with (d := 0%Z) in A. rewrite A, Z.eqb_refl. reflexivity.
  - destruct (existsb (N.eqb 0) ns) eqn:X; [|reflexivity]. apply existsb_exists in X. destruct X as (n & Hn & Q). apply N.eqb_eq in Q. subst n.
    apply In_nth_error in Hn. destruct Hn as (s & Hs). destruct (M s 0%N _ Hs (total_occ_has 0%N)) as (_ & A). cbn in A. lia.
Qed.
Lemma unmatched_row : forall nelecs ns, ~ matched nelecs ns -> length ns = length L -> (length L <= length nelecs)%nat ->
  existsb (N.eqb 0) (map (fun s => if Z.eqb (nth s nelecs 0%Z) (Z.of_nat (total_occ (Some (nth s ns 0%N)))) then nth s ns 0%N else 0%N) (seq 0%nat (length L))) = true.
Proof.
  intros nelecs ns M E Le. destruct (existsb _ _) eqn:X; [reflexivity|]. exfalso. apply M. intros s n k Hs Hk.
  assert (Hlt : (s < length L)%nat) by (rewrite <- E; apply nth_error_Some; congruence).
  assert (k = total_occ (Some n)) by (eapply has_electrons_unique; [exact Hk|apply total_occ_has]). subst k.
  apply nth_error_nth with (d := 0%N) in Hs.
  assert (Y : N.eqb 0 (if Z.eqb (nth s nelecs 0%Z) (Z.of_nat (total_occ (Some (nth s ns 0%N)))) then nth s ns 0%N else 0%N) = false).
  { match goal with |- ?b = false => destruct b eqn:Q; [|reflexivity] end. exfalso.
    assert (Z : existsb (N.eqb 0) (map (fun s => if Z.eqb (nth s nelecs 0%Z) (Z.of_nat (total_occ (Some (nth s ns 0%N)))) then nth s ns 0%N else 0%N) (seq 0%nat (length L))) = true); [|congruence].
    apply existsb_exists. eexists. split; [|exact Q]. apply in_map_iff. exists s. split; [reflexivity|]. apply in_seq. lia. }
  rewrite Hs in Y. destruct (Z.eqb_spec (nth s nelecs 0%Z) (Z.of_nat (total_occ (Some n)))) as [A|A]; [|discriminate].
  split; [rewrite <- A; apply nth_error_nth'; lia|]. destruct (total_occ (Some n)) eqn:T; [|lia]. exfalso.
  apply N.eqb_neq in Y. apply Y. symmetry. apply bit_ext. intros i. rewrite bit_0. rewrite total_occ_length in T. destruct (bit n i) eqn:B; [|reflexivity].
  apply occ_indices_In in B. destruct (occ_indices (Some n)); [destruct B|discriminate].
Qed.
(** The overlap is the product of the overlaps of the subsystems if they have the fixed numbers of electrons, and zero otherwise. *)
Theorem C50_fixed_overlap : forall nelecs sd ns, fits sd (Z.to_nat nspin) -> (length L <= length nelecs)%nat -> Forall2 (part_of sd) L ns ->
  (matched nelecs ns -> fixed_overlap w nelecs sd = em_overlap w sd) /\ (~ matched nelecs ns -> fixed_overlap w nelecs sd = Ok 0).
Proof.
  intros nelecs sd ns Hf Hn P. pose proof (parts_length sd ns P) as Lp. destruct (embedded_inv _ _ _ _ _ _ HW) as (_ & _ & _ & _ & _ & _ & E & EL & _). rewrite EL in Lp.
  pose proof (fixed_rows nelecs sd ns Hf Hn P) as R. pose proof (em_rows sd Hf ns P) as R'. unfold fixed_overlap, em_overlap.
  destruct (fixed_split w nelecs sd) as [l|]; cbn [bind] in R |- *; [|discriminate]. rewrite R. cbn [bind].
  destruct (split_sd w sd) as [l'|]; cbn [bind] in R' |- *; [|discriminate]. rewrite R'. cbn [bind]. split; intros M.
  - destruct (matched_row nelecs ns M Lp Hn) as (-> & ->). reflexivity.
  - rewrite (unmatched_row nelecs ns M Lp Hn). reflexivity.
Qed.
Theorem C50_fixed_derivative : forall nelecs sd ns i d, fits sd (Z.to_nat nspin) -> (length L <= length nelecs)%nat -> Forall2 (part_of sd) L ns ->
  (matched nelecs ns -> In i (map c_id wfns) -> fixed_overlap_deriv w nelecs sd i d = em_overlap_deriv w sd i d) /\
  (~ matched nelecs ns -> forall g, fixed_overlap_deriv w nelecs sd i d = Ok g -> g = map (fun _ => 0) d).
Proof.
  intros nelecs sd ns i d Hf Hn P. pose proof (parts_length sd ns P) as Lp. destruct (embedded_inv _ _ _ _ _ _ HW) as (_ & _ & _ & _ & _ & _ & E & EL & _). rewrite EL in Lp.
  pose proof (fixed_rows nelecs sd ns Hf Hn P) as R. pose proof (em_rows sd Hf ns P) as R'. unfold fixed_overlap_deriv, em_overlap_deriv.
  destruct (fixed_split w nelecs sd) as [l|]; cbn [bind] in R |- *; [|discriminate]. rewrite R. cbn [bind].
  destruct (split_sd w sd) as [l'|]; cbn [bind] in R' |- *; [|discriminate]. rewrite R'. cbn [bind]. split; intros M.
  - intros Hi. destruct (matched_row nelecs ns M Lp Hn) as (-> & ->). rewrite E.
    assert (X : existsb (fun c => Nat.eqb (c_id c) i) wfns = true).
    { apply in_map_iff in Hi. destruct Hi as (c & <- & Hc). apply existsb_exists. exists c. rewrite Nat.eqb_refl. auto. }
    rewrite X. unfold pr_deriv_at. destruct (pr_contrib wfns ns); reflexivity.
  - intros g. rewrite (unmatched_row nelecs ns M Lp Hn). destruct (pr_contrib _ _); cbn [bind]; [|discriminate]. destruct (existsb _ _); [|discriminate].
    intros Q. apply Ok_inj in Q. auto.
Qed.
(** The methods for many determinants give the same values. *)
Lemma fixed_row_length : forall nelecs sd row, (do l <- fixed_split w nelecs sd; all_sds l) = Ok row -> length row = length (em_wfns w).
Proof.
  intros nelecs sd row H. destruct (fixed_split w nelecs sd) as [l|] eqn:F; cbn [bind] in H; [|discriminate]. apply mapM_length in H. rewrite H. clear H.
  unfold fixed_split in F. match type of F with bind ?r _ = _ => destruct r; cbn [bind] in F; [|discriminate] end.
  apply mapM_length in F. rewrite seq_length in F. exact F.
Qed.
Theorem C50_fixed_batch : forall nelecs sds, Forall batch_ok wfns ->
  (forall r, fixed_overlaps w nelecs sds = Ok r <-> mapM (fixed_overlap w nelecs) sds = Ok r) /\
  (forall k c d r, NoDup (map c_id wfns) -> nth_error wfns k = Some c ->
    mapM (fun sd => fixed_overlap_deriv w nelecs sd (c_id c) d) sds = Ok r -> fixed_overlaps_deriv w nelecs sds (c_id c) d = Ok r).
Proof.
  intros nelecs sds HB. destruct (embedded_inv _ _ _ _ _ _ HW) as (_ & _ & _ & _ & _ & _ & E & EL & _).
  set (R := fun sd => do l <- fixed_split w nelecs sd; all_sds l).
  assert (LR : forall rows, mapM R sds = Ok rows -> forall row, In row (filter no_zero rows) -> length row = length wfns).
  { intros rows Q row Hr. apply filter_In in Hr. destruct Hr as [Hr _]. apply In_nth_error in Hr. destruct Hr as (s & Hs).
    assert (Ls : (s < length sds)%nat) by (rewrite <- (mapM_length _ _ _ Q); apply nth_error_Some; congruence).
    destruct (mapM_nth _ _ _ s _ Q (nth_error_nth' sds 0%N Ls)) as (row' & E1 & E2). rewrite Hs in E1. injection E1 as <-. rewrite <- E. eapply fixed_row_length. exact E2. }
  split.
  - intros r. transitivity (exists rows, mapM R sds = Ok rows /\ mapM (fun row => if no_zero row then pr_overlap_at wfns row else Ok 0) rows = Ok r).
    + unfold fixed_overlaps. fold R. destruct (mapM R sds) as [rows|] eqn:Q; cbn [bind]; [|split; [discriminate|intros (rows & X & _); discriminate]].
      rewrite E. specialize (LR rows eq_refl). split.
      * destruct (pr_overlaps_at _ _ _) as [v|] eqn:V; cbn [bind]; [|discriminate]. intros X. apply Ok_inj in X. subst r. exists rows. split; [reflexivity|].
        apply mapM_scatter. exists v. split; [|reflexivity]. apply batch_overlaps; auto.
      * intros (rows' & X & Y). apply Ok_inj in X. subst rows'. apply mapM_scatter in Y. destruct Y as (v & V & ->). apply batch_overlaps in V; auto. rewrite V. reflexivity.
    + rewrite <- mapM_bind. assert (F : mapM (fun x => do y <- R x; (if no_zero y then pr_overlap_at wfns y else Ok 0)) sds = mapM (fixed_overlap w nelecs) sds); [|rewrite F; tauto].
      clear - E. induction sds as [|sd sds IH]; [reflexivity|]. cbn [mapM]. rewrite IH. f_equal. unfold fixed_overlap, R, no_zero. rewrite E.
      destruct (fixed_split w nelecs sd) as [l|]; cbn [bind]; [|reflexivity]. destruct (all_sds l) as [row|]; cbn [bind]; [|reflexivity]. destruct (existsb (N.eqb 0) row); reflexivity.
  - intros k c d r ND Hk H.
    assert (H' : mapM (fun sd => do row <- R sd; if no_zero row then pr_deriv_at wfns row (c_id c) d else Ok (map (fun _ => 0) d)) sds = Ok r).
    { apply mapM_Forall2. apply mapM_Forall2 in H. revert H. apply Forall2_impl'. intros sd g. unfold fixed_overlap_deriv, R, no_zero. rewrite E.
      destruct (fixed_split w nelecs sd) as [l|]; cbn [bind]; [|discriminate]. destruct (all_sds l) as [row|]; cbn [bind]; [|discriminate].
      destruct (pr_contrib wfns row); cbn [bind]; [|discriminate]. destruct (existsb (fun c0 => Nat.eqb (c_id c0) (c_id c)) wfns); [|discriminate].
      destruct (existsb (N.eqb 0) row); auto. }
    apply mapM_bind in H'. destruct H' as (rows & Q & V). unfold fixed_overlaps_deriv. fold R. rewrite Q. cbn [bind]. rewrite E.
    apply mapM_scatter in V. destruct V as (v & V & ->). apply (batch_derivs _ _ k c) in V; auto; [|exact (LR rows Q)]. rewrite V. reflexivity.
Qed.
End Embedded.
End Theorems.

(** The derivative with respect to the parameters of the combination ignores the requested indices. *)
Theorem C50_self_indices_refuted : exists (w : lincomb Z_ring) sd i o0 o1,
  ex_lc = Ok w /\ (0 <= i < Z.of_nat (length (lc_params w)))%Z /\ o0 <> o1 /\ lc_overlap_deriv w sd TSelf [i] = Ok [o0; o1].
Proof.
  destruct ex_lc as [w|e] eqn:E; [|vm_compute in E; discriminate]. exists w, 3%N, 1%Z, 15%Z, 35%Z. split; [reflexivity|].
  vm_compute in E. apply Ok_inj in E. subst w. split; [cbn; lia|]. split; [discriminate|]. vm_compute. reflexivity.
Qed.
(** The number of parameters given to a linear combination is not checked: one parameter multiplies all components,
    other numbers make the overlap fail. *)
Theorem C50_lincomb_params_refuted : exists w1 w3 : lincomb Z_ring,
  new_lincomb (K := Z_ring) 2 4 100 [exc 0 2 4 [3; 1]; exc 1 2 4 [5; 2]]%Z (Some [2]%Z) = Ok w1 /\ lc_overlap w1 3%N = Ok 100%Z /\
  new_lincomb (K := Z_ring) 2 4 100 [exc 0 2 4 [3; 1]; exc 1 2 4 [5; 2]]%Z (Some [1; 2; 3]%Z) = Ok w3 /\ lc_overlap w3 3%N = Err ValueError.
Proof. eexists. eexists. split; [vm_compute; reflexivity|]. split; [vm_compute; reflexivity|]. split; [vm_compute; reflexivity|]. vm_compute. reflexivity. Qed.
(** A linear combination of no wavefunctions is accepted if parameters are given. *)
Theorem C50_lincomb_empty_refuted : exists w : lincomb Z_ring, new_lincomb (K := Z_ring) 2 4 100 [] (Some []) = Ok w /\ lc_overlap w 3%N = Ok 0%Z.
Proof. eexists. split; vm_compute; reflexivity. Qed.
(** An embedding accepts the same wavefunction for two subsystems; the derivative is then that of one of the two factors
    only.  Here the overlap is the square of the parameter, and its derivative at 3 is 6, not 3. *)
Theorem C50_embedded_shared_refuted : exists w : Z -> embedded Z_ring,
  (forall x, new_embedded (K := Z_ring) 2 4 [[0; 2]; [1; 3]]%Z [exp1 0 x; exp1 0 x] true = Ok (w x)) /\
  (forall x, em_overlap (w x) 3%N = Ok (peval (K := Z_ring) [0; 0; 1]%Z x)) /\
  em_overlap_deriv (w 3%Z) 3%N 0 [0%Z] = Ok [3%Z] /\ pder (K := Z_ring) [0; 0; 1]%Z 3%Z = 6%Z.
Proof.
  exists (fun x => mkem 2 4 (dict_build [[0; 2]; [1; 3]]%Z) [exp1 0 x; exp1 0 x]). split; [intros x; reflexivity|]. split; [|split; vm_compute; reflexivity].
  intros x. unfold em_overlap.
  assert (E : split_sd (mkem (K := Z_ring) 2 4 (dict_build [[0; 2]; [1; 3]]%Z) [exp1 0 x; exp1 0 x]) 3%N = Ok [Some 1%N; Some 1%N]) by reflexivity.
  rewrite E. cbn [bind em_wfns]. unfold pr_overlap_at, pr_contrib. cbn. f_equal.
  change (x * (x * 1) = 0 + x * (0 + x * (1 + x * 0)))%Z. ring.
Qed.
(** With fixed numbers of electrons, a subsystem without electrons makes every overlap zero. *)
Theorem C50_fixed_empty_refuted : exists w : embedded Z_ring,
  new_embedded (K := Z_ring) 2 4 [[0; 2]; [1; 3]]%Z [exp1 0 2; exp1 1 3] true = Ok w /\
  em_overlap w 5%N = Ok 6%Z /\ split_sd w 5%N = Ok [Some 3%N; Some 0%N] /\ fixed_overlap w [2; 0]%Z 5%N = Ok 0%Z.
Proof. eexists. split; [vm_compute; reflexivity|]. split; [vm_compute; reflexivity|]. split; vm_compute; reflexivity. Qed.

(** ** examples *)
Example C50_lincomb_ex : match ex_lc with Ok w => lc_overlap w 3%N = Ok 490%Z /\ lc_overlap_deriv w 3%N (TWfn 1) [1; 0]%Z = Ok [110; 77]%Z | Err _ => False end.
Proof. vm_compute. split; reflexivity. Qed.
Example C50_lincomb_default_ex : match new_lincomb (K := Z_ring) 2 4 100 [exc 0 2 4 [3; 1]; exc 1 2 4 [5; 2]]%Z None with Ok w => lc_overlap w 3%N = Ok 15%Z | Err _ => False end.
Proof. vm_compute. reflexivity. Qed.
(** the component gradient hypothesis holds for the example component, in the order 1, 0 *)
Example C50_gradient_ex : let c := exc 1 2 4 [5; 2]%Z in get_dolp c 3%N [1; 0]%Z = Ok [10; 7]%Z /\
  gradient (K := Z_ring) poly_der (fun p x => get_olp (with_param c p x) 3%N) (fun p => nth p (c_params c) 0%Z) [1; 0] [10; 7]%Z.
Proof.
  split; [vm_compute; reflexivity|]. constructor; [|constructor; [|constructor]].
  - exists (fun x => 15 + 10 * x)%Z. split; [intros x; transitivity (Ok (5 * 3 + 2 * 5 * x)%Z); [reflexivity|apply (f_equal (@Ok Z)); ring]|]. exists [15; 10]%Z. split; [intros y; cbn [peval]; change (15 + 10 * y = 15 + y * (10 + y * 0))%Z; ring|reflexivity].
  - exists (fun x => 7 * x)%Z. split; [intros x; transitivity (Ok (x * 3 + 2 * x * 2)%Z); [reflexivity|apply (f_equal (@Ok Z)); ring]|]. exists [0; 7]%Z. split; [intros y; cbn [peval]; change (7 * y = 0 + y * (7 + y * 0))%Z; ring|reflexivity].
Qed.
Example C50_product_ex : let ws := [exc 0 2 4 [3; 1]; exb 1 2 4 [5; 2]]%Z in
  new_product ws = Ok ws /\ pr_overlap ws 3%N = Ok 525%Z /\ pr_overlap_deriv ws 3%N 1 [1; 0]%Z = Ok [150; 105]%Z /\
  pr_overlaps ws [3; 5]%N = Ok [525; 945]%Z /\ pr_overlaps_deriv ws [3; 5]%N 1 [1; 0]%Z = Ok [[150; 105]; [210; 189]]%Z.
Proof. repeat split; vm_compute; reflexivity. Qed.
Example C50_batch_ex : Forall batch_ok [exc 0 2 4 [3; 1]; exb 1 2 4 [5; 2]]%Z.
Proof. constructor; [exact I|]. constructor; [|constructor]. intros ps sds. split; [reflexivity|]. intros d. reflexivity. Qed.
(** six spin orbitals: the first subsystem has orbitals 0 and 3, the second 1, 2, 4, 5 (given in another order) *)
Example C50_embedded_ex : match ex_em with
  | Ok w => split_sd w 37%N = Ok [Some 1%N; Some 10%N] /\ em_overlap w 37%N = Ok 630%Z /\ em_overlap_deriv w 37%N 1 [0; 1]%Z = Ok [126; 90]%Z /\
            em_overlaps w [37; 7]%N = Ok [630; 315]%Z /\ split_sd w 64%N = Err KeyError /\
            fixed_overlap w [1; 2]%Z 37%N = Ok 630%Z /\ fixed_overlap w [2; 1]%Z 37%N = Ok 0%Z /\
            fixed_overlaps w [1; 2]%Z [37; 9; 7]%N = Ok [630; 0; 315]%Z /\ fixed_overlaps_deriv w [1; 2]%Z [37; 9; 7]%N 1 [0; 1]%Z = Ok [[126; 90]; [0; 0]; [63; 90]]%Z
  | Err _ => False
  end.
Proof. vm_compute. repeat split; reflexivity. Qed.

Print Assumptions C50_polynomials.
Print Assumptions C50_lincomb_constructor.
Print Assumptions C50_lincomb_overlap.
Print Assumptions C50_lincomb_default.
Print Assumptions C50_lincomb_derivative.
Print Assumptions C50_lincomb_self.
Print Assumptions C50_lincomb_errors.
Print Assumptions C50_product_constructor.
Print Assumptions C50_product_overlap.
Print Assumptions C50_product_derivative.
Print Assumptions C50_product_errors.
Print Assumptions C50_product_batch.
Print Assumptions C50_embedded_constructor.
Print Assumptions C50_split.
Print Assumptions C50_split_pairs.
Print Assumptions C50_split_outside.
Print Assumptions C50_split_electrons.
Print Assumptions C50_split_injective.
Print Assumptions C50_embedded_overlap.
Print Assumptions C50_embedded_derivative.
Print Assumptions C50_embedded_batch.
Print Assumptions C50_fixed_overlap.
Print Assumptions C50_fixed_derivative.
Print Assumptions C50_fixed_batch.
Print Assumptions C50_self_indices_refuted.
Print Assumptions C50_lincomb_params_refuted.
Print Assumptions C50_lincomb_empty_refuted.
Print Assumptions C50_embedded_shared_refuted.
Print Assumptions C50_fixed_empty_refuted.
