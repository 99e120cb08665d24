(** Derivatives of the coupled-cluster overlap *)
From Coq Require Import List ZArith NArith Arith Bool Lia Permutation Sorted.
From Verif Require Import Py BitSpec BitLemmas Slater SlaterBits SlaterBits2 SignSpec SignLemmas Graphs MatchSpec MathTools PermLemmas SdLemmas Combos
  GeneralLemmas BicliqueLemmas P_Slater1 P_Slater2 Fock FockLemmas FockInner Alg WfnCI CILemmas CC CCRows CCRows2 CCGen CCSpec CCFock CCExp CCLemmas CCMain.
Import ListNotations.
Local Open Scope nat_scope.

Definition inb (i : nat) (l : list nat) : bool := existsb (Nat.eqb i) l.
Definition without (i : nat) (l : list nat) : list nat := filter (fun j => negb (Nat.eqb i j)) l.
Lemma masked_eq : forall a b path ua ub, NoDup path -> a <> b -> (ua = true -> ~ In a path) -> (ub = true -> ~ In b path) ->
  masked a b ua ub path = without b (without a path).
Proof.
  intros a b. induction path as [|i path IH]; intros ua ub N Hab Ha Hb; [reflexivity|]. inversion N; subst. unfold without. cbn [masked filter].
  rewrite (Nat.eqb_sym i a), (Nat.eqb_sym i b). destruct (Nat.eqb_spec a i) as [->|Na].
  - destruct ua; [exfalso; apply Ha; auto; now left|]. cbn [negb andb]. apply IH; auto. intros E X. apply (Hb E). now right.
  - cbn [negb andb]. cbn [filter]. destruct (Nat.eqb_spec b i) as [->|Nb].
    + destruct ub; [exfalso; apply Hb; auto; now left|]. cbn [negb andb]. apply IH; auto. intros E X. apply (Ha E). now right.
    + cbn [negb andb]. f_equal. apply IH; auto; intros E X; [apply (Ha E)|apply (Hb E)]; now right.
Qed.
Lemma without_In : forall i j l, In j (without i l) <-> In j l /\ j <> i.
Proof. intros i j l. unfold without. rewrite filter_In, negb_true_iff, Nat.eqb_neq. intuition congruence. Qed.
Lemma without_NoDup : forall i l, NoDup l -> NoDup (without i l).
Proof. intros. now apply NoDup_filter. Qed.

Lemma without_absent : forall i l, ~ In i l -> without i l = l.
Proof.
  intros i l. unfold without. induction l as [|j l IH]; intros H; [reflexivity|]. cbn [filter]. destruct (Nat.eqb_spec i j) as [->|]; [exfalso; apply H; now left|].
  cbn [negb]. f_equal. apply IH. intros X. apply H. now right.
Qed.

Section Deriv.
Context {K : CRing}.
Local Open Scope cr_scope.
Add Ring K_ring58 : (rth K).
Lemma prod_upd : forall (P : list K) dd x l, NoDup l -> (dd < length P)%nat ->
  prodf (fun i => nth i (upd P dd x) 0) l = if inb dd l then x * prodf (fun i => nth i P 0) (without dd l) else prodf (fun i => nth i P 0) l.
Proof.
  intros P dd x l N Hd. unfold inb, without. induction l as [|i l IH]; [reflexivity|]. inversion N; subst. cbn [existsb filter]. rewrite prodf_cons, IH by auto.
  destruct (Nat.eqb_spec dd i) as [<-|Ne]; cbn [orb negb].
  - assert (X : existsb (Nat.eqb dd) l = false).
    { apply not_true_iff_false. intros X. apply existsb_mem in X. contradiction. }
    rewrite X, nth_upd_eq by auto. change (filter (fun j => negb (Nat.eqb dd j)) l) with (without dd l). now rewrite without_absent.
  - rewrite nth_upd_neq by auto. destruct (existsb (Nat.eqb dd) l); [|now rewrite prodf_cons]. rewrite prodf_cons. ring.
Qed.

Lemma get_multi_params : forall (w w' : cc K) a c m P, get_multi w a c = Ok (m, w') ->
  get_multi (with_params w P) a c = Ok (m, with_params w' P).
Proof.
  intros w w' a c m P H. unfold get_multi in *. cbn [with_params cc_combs cc_refresh cc_exops cc_ranks]. destruct (cc_combs w) as [combs|]; [|discriminate].
  destruct (dict_get combs (a ++ c)); [apply Ok_inj in H; apply pair_equal_spec in H as [-> <-]; reflexivity|].
  destruct (gen_exops _ _ _ _) as [m'|]; [|discriminate]. cbn [bind] in *. apply Ok_inj in H. apply pair_equal_spec in H as [-> <-]. reflexivity.
Qed.
Lemma ready_params : forall (w : cc K) ref P, ready w ref -> length P = length (cc_params w) -> ready (with_params w P) ref.
Proof. intros w ref P [] L. constructor; auto. cbn. now rewrite L. Qed.
Lemma table_params : forall (w : cc K) a c P, table_ok w a c -> table_ok (with_params w P) a c.
Proof. intros w a c P H. exact H. Qed.

Section One.
Variables (w : cc K) (ref sd : N).
Hypothesis R : ready w ref.
Let a := anns sd ref.
Let c := cres sd ref.
Hypothesis Lac : (length a <= length c)%nat.
Let d := cc_exops w.
Definition sign_of (r : row) : K := sgnr (match row_sign a c (map cat r) with Ok s => s | Err _ => 0%Z end).
Definition inds_of (r : row) : list nat := map (ind_of d) (map cat r).
Lemma inds_NoDup : forall r, row_of (cc_ranks w) a c r -> row_ok d r = true -> NoDup (inds_of r).
Proof.
  intros r Hr Hk. unfold inds_of. rewrite map_map. pose proof Hr as (Fr & P1 & _). rewrite Forall_forall in Fr.
  assert (Nr : NoDup r).
  { apply (NoDup_map_inv fst). apply concat_NoDup_blocks.
    - eapply Permutation_NoDup; [symmetry; exact P1|apply SS_NoDup, anns_SS].
    - apply Forall_forall. intros b Hb. apply in_map_iff in Hb as (p & <- & Hp). apply Fr in Hp as (_ & _ & _ & Hp). apply (r_pos _ _ R) in Hp.
      intros X. rewrite X in Hp. cbn in Hp. lia. }
  apply NoDup_map_inj; auto. intros p q Hp Hq E. unfold row_ok in Hk. rewrite forallb_forall in Hk.
  pose proof (Hk _ (in_map cat _ _ Hp)) as Kp. pose proof (Hk _ (in_map cat _ _ Hq)) as Kq. unfold known, ind_of in *.
  destruct (dict_get d (cat p)) as [i|] eqn:Ep; [|discriminate]. destruct (dict_get d (cat q)) as [j|] eqn:Eq; [|discriminate]. subst j.
  apply (r_dict w ref R) in Ep, Eq. unfold d in Ep, Eq. rewrite (r_exops _ _ R) in Ep, Eq. apply combine_seq_In in Ep as [_ Ep], Eq as [_ Eq].
  assert (Ec : cat p = cat q) by congruence. apply Fr in Hp as (_ & _ & Lp & _), Hq as (_ & _ & Lq & _).
  destruct (cat_halves p Lp) as (A1 & A2 & _), (cat_halves q Lq) as (B1 & B2 & _). rewrite Ec in A1, A2. destruct p, q. cbn in *. congruence.
Qed.
Definition rslope (P : list K) (dd : nat) (r : row) : K :=
  sign_of r * (if inb dd (inds_of r) then prodf (fun i => nth i P 0) (without dd (inds_of r)) else 0).
Definition rcurv (P : list K) (x y : nat) (r : row) : K :=
  if Nat.eqb x y then 0 else
  sign_of r * (if (inb x (inds_of r) && inb y (inds_of r))%bool then prodf (fun i => nth i P 0) (without y (without x (inds_of r))) else 0).
Lemma info_inds : forall r, fst (info d a c r) = inds_of r.
Proof. reflexivity. Qed.
Lemma info_sign : forall r, row_of (cc_ranks w) a c r -> (sgnr (decode (snd (info d a c r))) : K) = sign_of r.
Proof.
  intros r Hr. unfold info, sign_of. cbn [snd].
  destruct (row_sign_swaps (cc_ranks w) a c (anns_SS _ _) (cres_SS _ _) r Hr) as (k & -> & _). unfold pow_m1. now destruct (Nat.odd k).
Qed.
Lemma existsb_inb : forall dd l, existsb (Nat.eqb dd) l = inb dd l.
Proof. reflexivity. Qed.
Lemma slope_eq : forall w' P dd r, cc_params w' = P -> row_of (cc_ranks w) a c r -> row_slope w' dd (info d a c r) = rslope P dd r.
Proof.
  intros w' P dd r <- Hr. unfold row_slope, rslope. rewrite info_inds, info_sign by auto. rewrite existsb_inb. destruct (inb dd (inds_of r)); [reflexivity|ring].
Qed.
Lemma curv_eq : forall w' P x y r, cc_params w' = P -> row_of (cc_ranks w) a c r -> row_ok d r = true -> row_curv w' x y (info d a c r) = rcurv P x y r.
Proof.
  intros w' P x y r <- Hr Hk. pose proof (inds_NoDup r Hr Hk) as N. unfold row_curv, rcurv. rewrite info_inds, info_sign by auto. rewrite !existsb_inb.
  destruct (Nat.eqb_spec x y) as [->|Ne].
  - assert (C : Nat.ltb (count_occ Nat.eq_dec (inds_of r) y) 2 = true).
    { apply Nat.ltb_lt. pose proof (proj1 (NoDup_count_occ Nat.eq_dec (inds_of r)) N y). lia. }
    rewrite C. cbn [andb negb]. now rewrite andb_false_r.
  - cbn [andb negb]. rewrite andb_true_r. destruct (inb x (inds_of r) && inb y (inds_of r))%bool; [|ring]. rewrite masked_eq; auto; intros; discriminate.
Qed.

(** the rows of the determinant *)
Record formulas (rr : list row) (s : K) : Prop := mkformulas {
  f_value : forall P, length P = length (cc_params w) -> cc_overlap (with_params w P) sd = Ok (s * sumf (rval (with_params w P) a c) rr);
  f_slope : forall P, length P = length (cc_params w) -> exists w', cc_olp_deriv (with_params w P) sd =
     Ok (map (fun dd => s * sumf (rslope P dd) rr) (seq 0%nat (length P)), w');
  f_curv : forall P, length P = length (cc_params w) -> exists w', cc_olp_hessian (with_params w P) sd =
     Ok (map (fun x => map (fun y => s * sumf (rcurv P x y) rr) (seq 0%nat (length P))) (seq 0%nat (length P)), w');
  f_good : rows_good w ref sd rr }.
Lemma have_formulas : table_ok w a c -> sd <> ref -> exists rr s, formulas rr s.
Proof.
  intros T Hsd. destruct (table_rows w ref sd R Lac T) as (m & w1 & parts & E & Hp & Pm & Ep & G & _).
  fold a c in E, Pm. fold d in Pm, G. set (rr := filter (row_ok d) (flat_map (part_rows a c) (rev parts))) in *.
  destruct (diff_state ref sd) as (b & Eb). exists rr, (sgnr (sgn b)).
  assert (WT : forall P {A} (x : A) f scale, length P = length (cc_params w) ->
     with_table (with_params w P) sd x f scale = (do v <- f (with_params w1 P) m; Ok (scale (sgnr (sgn b)) v, with_params w1 P))).
  { intros P A x f scale L. destruct (with_table_eq (with_params w P) ref sd (ready_params w ref P R L) x f scale m (with_params w1 P) Hsd) as (b' & Eb' & ->).
    - now apply get_multi_params.
    - rewrite sign_excite_eq, Eb in Eb'. apply Ok_inj in Eb'. destruct b, b'; try reflexivity; discriminate. }
  assert (IB : forall P, length P = length (cc_params w) -> in_bounds (with_params w1 P) m = true).
  { intros P L. unfold in_bounds. apply forallb_forall. intros x Hx. apply (Permutation_in _ Pm) in Hx. apply in_map_iff in Hx as (r & <- & Hr).
    apply forallb_forall. intros i Hi. apply Nat.ltb_lt. cbn [with_params cc_params]. rewrite L. destruct (G r Hr) as [_ Hk]. apply (row_in_bounds w ref sd R r Hk i Hi). }
  constructor.
  - intros P L. unfold cc_overlap, cc_olp. rewrite WT by auto.
    rewrite (amplitudes_ok (with_params w P) ref sd (ready_params w ref P R L) Lac (with_params w1 P) m rr); auto.
  - intros P L. exists (with_params w1 P). unfold cc_olp_deriv. rewrite WT by auto. unfold amplitudes_deriv. rewrite IB by auto. cbn [bind with_params cc_params].
    rewrite map_map. do 2 f_equal. apply map_ext. intros dd. f_equal. rewrite (sumf_perm _ _ _ Pm), sumf_map. apply sumf_ext. intros r Hr. apply slope_eq; [reflexivity|now apply G].
  - intros P L. exists (with_params w1 P). unfold cc_olp_hessian. rewrite WT by auto. unfold amplitudes_hessian. rewrite IB by auto. cbn [bind with_params cc_params].
    rewrite map_map. do 2 f_equal. apply map_ext. intros x. rewrite map_map. apply map_ext. intros y. f_equal.
    rewrite (sumf_perm _ _ _ Pm), sumf_map. apply sumf_ext. intros r Hr. apply curv_eq; [reflexivity| |]; now apply G.
  - exact G.
Qed.
Lemma rval_upd : forall P dd x r, row_of (cc_ranks w) a c r -> row_ok d r = true -> (dd < length P)%nat ->
  rval (with_params w (upd P dd x)) a c r = rval (with_params w P) a c r + (x - nth dd P 0) * rslope P dd r.
Proof.
  intros P dd x r Hr Hk L. unfold rval, rslope. cbn [with_params cc_params cc_exops]. fold d. fold (sign_of r). fold (inds_of r).
  pose proof (inds_NoDup r Hr Hk) as N. rewrite (prod_upd P dd x) by auto. pose proof (prod_upd P dd (nth dd P 0) (inds_of r) N L) as X.
  rewrite BicliqueLemmas.upd_same in X by auto. rewrite X. destruct (inb dd (inds_of r)); ring.
Qed.
Lemma inb_without : forall x y l, x <> y -> inb y (without x l) = inb y l.
Proof.
  intros x y l N. unfold inb. apply eq_true_iff_eq. rewrite !existsb_mem, without_In. intuition congruence.
Qed.
Lemma rslope_upd : forall P x y v r, row_of (cc_ranks w) a c r -> row_ok d r = true -> (y < length P)%nat ->
  rslope (upd P y v) x r = rslope P x r + (v - nth y P 0) * rcurv P x y r.
Proof.
  intros P x y v r Hr Hk L. unfold rcurv, rslope. pose proof (inds_NoDup r Hr Hk) as N. destruct (inb x (inds_of r)) eqn:Ex; cbn [andb].
  2:{ destruct (Nat.eqb x y); ring. }
  pose proof (without_NoDup x _ N) as N'. rewrite (prod_upd P y v) by auto. pose proof (prod_upd P y (nth y P 0) _ N' L) as X.
  rewrite BicliqueLemmas.upd_same in X by auto. rewrite X. clear X. destruct (Nat.eqb_spec x y) as [->|Ne].
  - assert (X : inb y (without y (inds_of r)) = false).
    { apply not_true_iff_false. unfold inb. rewrite existsb_mem, without_In. tauto. }
    rewrite X. ring.
  - rewrite inb_without by auto. destruct (inb y (inds_of r)); ring.
Qed.
End One.
End Deriv.
Lemma filter_comm : forall {A} (p q : A -> bool) l, filter p (filter q l) = filter q (filter p l).
Proof. induction l as [|x l IH]; [reflexivity|]. cbn [filter]. destruct (q x) eqn:Q, (p x) eqn:P; cbn [filter]; rewrite ?P, ?Q, ?IH; reflexivity. Qed.
Lemma rcurv_sym : forall {K : CRing} (w : cc K) ref sd P x y r, rcurv w ref sd P x y r = rcurv w ref sd P y x r.
Proof.
  intros. unfold rcurv. rewrite (Nat.eqb_sym x y). destruct (Nat.eqb y x); [reflexivity|]. rewrite andb_comm. unfold without. now rewrite filter_comm.
Qed.
