(** Lemmas for C69: the overlap, and the derivatives of the overlap. *)
From Coq Require Import List ZArith NArith Arith Bool Lia Permutation.
From Verif Require Import Py BitSpec BitLemmas Slater SlaterBits Alg CILemmas JacobiSpec WfnCI EqnSpec EqnLemmas Rbm RbmSpec RbmLemmas.
From Verif Require BicliqueLemmas SlaterBits2.
Import ListNotations.
Local Open Scope nat_scope.

Lemma combine_self : forall {A C} (f : A -> C) l, combine (map f l) l = map (fun x => (f x, x)) l.
Proof. induction l as [|x l IH]; [reflexivity|]. cbn. now rewrite IH. Qed.
Lemma combine_firstn_r : forall {A C} (l : list A) (r : list C), combine l r = combine l (firstn (length l) r).
Proof. induction l as [|x l IH]; intros [|y r]; cbn; try reflexivity. now rewrite IH. Qed.

Section M.
Context {K : CField}.
Local Open Scope cr_scope.
Add Ring K_ring117 : (rth K).
Variable ex : K -> K.

Definition shaped (w : rbm K) : Prop := map (@length K) (rb_params w) = rb_sizes w /\ (forall o, In o (rb_orders w) -> (0 < o)%nat) /\ rb_sizes w <> [].
Definition zipped (w : rbm K) : list (nat * list K) := combine (rb_orders w) (rb_params w).
Definition xin (w : rbm K) (sd : N) (o : nat) : nat -> K := rb_input (rb_power (map (bit sd) (seq 0 (rb_n w))) o).
Definition pairs_of (w : rbm K) (sd : N) (zs : list (nat * list K)) : list ((nat * (nat -> K)) * (nat * list K)) := map (fun ol => ((rb_n w ^ fst ol, xin w sd (fst ol))%nat, ol)) zs.
Definition flin (w : rbm K) (sd : N) (zs : list (nat * list K)) : nat -> K :=
  fun j => psum (fun xl : (nat * (nat -> K)) * (nat * list K) => rb_contract (snd (snd xl)) (fst (fst xl)) (snd (fst xl)) j) (pairs_of w sd zs).
Definition fents (w : rbm K) (sd : N) (zs : list (nat * list K)) : list (entry K) := map (fun xl : (nat * (nat -> K)) * (nat * list K) => (fst xl, flin w sd zs, snd (snd xl))) (pairs_of w sd zs).
Definition v0 (w : rbm K) (sd : N) (zs : list (nat * list K)) : nat -> K := fun j => activation ex (flin w sd zs j).
Definition deeper (w : rbm K) : list (list K) := skipn (length (rb_orders w)) (rb_params w).

Lemma helper_ok : forall w sd, shaped w -> sd <> 0%N -> within (rb_n w) sd ->
  rb_helper ex w sd = Ok (fents w sd (zipped w) ++ deep_entries ex (rb_nbath w) (deeper w) (v0 w sd (zipped w)), deep_out ex (rb_nbath w) (deeper w) (v0 w sd (zipped w))).
Proof.
  intros w sd (Sh & Po & Ne) Hs Hw. unfold rb_helper. rewrite mask_ok by auto. cbn [bind]. destruct (Nat.eqb_spec (length (rb_sizes w)) 0) as [E|_]; [destruct (rb_sizes w); [congruence|discriminate]|].
  assert (E : existsb (Nat.eqb 0) (rb_orders w) = false). { destruct (existsb (Nat.eqb 0) (rb_orders w)) eqn:E; [|reflexivity]. apply existsb_exists in E as (o & Ho & E). apply Nat.eqb_eq in E. apply Po in Ho. lia. }
  rewrite E. cbv zeta. fold (zipped w). rewrite combine_self. rewrite (deep_fold ex). reflexivity.
Qed.
Lemma helper_err : forall w sd, ~ (sd <> 0%N /\ within (rb_n w) sd) -> rb_helper ex w sd = Err IndexError.
Proof. intros w sd H. unfold rb_helper. now rewrite mask_err. Qed.
Lemma flin_sum : forall w sd zs j, flin w sd zs j = sumf (fun ol => rb_contract (snd ol) (rb_n w ^ fst ol) (xin w sd (fst ol)) j) zs.
Proof. intros w sd zs j. unfold flin, pairs_of. rewrite psum_sumf, sumf_map. reflexivity. Qed.
Lemma fents_length : forall w sd zs, length (fents w sd zs) = length zs.
Proof. intros w sd zs. unfold fents, pairs_of. now rewrite !map_length. Qed.
Lemma shaped_length : forall w, shaped w -> length (rb_params w) = (length (rb_orders w) + (rb_layers w - 1))%nat.
Proof. intros w (Sh & _). assert (L : length (map (@length K) (rb_params w)) = length (rb_sizes w)) by now rewrite Sh. unfold rb_sizes in L. rewrite app_length, !map_length, repeat_length in L. exact L. Qed.
Lemma zipped_length : forall w, shaped w -> length (zipped w) = length (rb_orders w).
Proof. intros w H. unfold zipped. rewrite combine_length, (shaped_length w H). lia. Qed.

Lemma overlap_ok : forall w sd s, shaped w -> sd <> 0%N -> within (rb_n w) sd -> rb_scale w = Some s ->
  rb_overlap ex w sd = Ok (prodf (fun j => deep_out ex (rb_nbath w) (deeper w) (v0 w sd (zipped w)) j * s) (seq 0 (rb_nbath w))).
Proof. intros w sd s H1 H2 H3 H4. unfold rb_overlap. rewrite helper_ok by auto. cbn [bind snd]. rewrite H4, pprod_prodf. reflexivity. Qed.
Lemma dolp_ok : forall w sd s, shaped w -> sd <> 0%N -> within (rb_n w) sd -> rb_scale w = Some s -> (0 < rb_nbath w)%nat ->
  rb_dolp ex w sd = Ok (flat_map (fun g => rb_collect (rb_nbath w) g (fun y _ => rb_other_vals (rb_nbath w) s (deep_out ex (rb_nbath w) (deeper w) (v0 w sd (zipped w))) y))
    (all_grads ex (rb_nbath w) s (fents w sd (zipped w)) (deep_entries ex (rb_nbath w) (deeper w) (v0 w sd (zipped w))))).
Proof.
  intros w sd s H1 H2 H3 H4 H5. unfold rb_dolp. rewrite helper_ok by auto. cbn [bind fst snd]. rewrite H4. destruct (Nat.eqb_spec (rb_nbath w) 0); [lia|].
  replace (length (rb_orders w)) with (length (fents w sd (zipped w))) by (rewrite fents_length; now apply zipped_length). rewrite back_all. f_equal. apply join_all. intros g Hg. now apply (last_diagonal ex _ s _ _ g Hg).
Qed.

(** ** the network of the specification *)
Definition fblock (n B : nat) (f : nat * (nat -> list nat -> K)) : list K := flat_map (fun j => map (snd f j) (tuples n (fst f))) (seq 0 B).
Definition dblock (B : nat) (W : nat -> nat -> K) : list K := flat_map (fun j => map (W j) (seq 0 B)) (seq 0 B).
Lemma fblock_length : forall n B f, length (fblock n B f) = (B * n ^ fst f)%nat.
Proof. intros n B f. unfold fblock. now rewrite rows_length, tuples_length. Qed.
Lemma dblock_length : forall B W, length (dblock B W) = (B * B)%nat.
Proof. intros B W. unfold dblock. now rewrite rows_length, seq_length. Qed.
Lemma cut_concat : forall (L : list (list K)) rest, rb_cut (map (@length K) L) (concat L ++ rest) = Ok L.
Proof.
  induction L as [|b L IH]; intros rest; [reflexivity|]. cbn [map concat rb_cut]. rewrite <- app_assoc, app_length. destruct (Nat.ltb_spec (length b + length (concat L ++ rest)) (length b)); [lia|].
  rewrite skipn_app, skipn_all, Nat.sub_diag. cbn [skipn app]. rewrite IH. cbn [bind]. rewrite firstn_app, firstn_all, Nat.sub_diag. cbn [firstn]. now rewrite app_nil_r.
Qed.
Lemma cut_inv : forall sizes (l : list K) r, rb_cut sizes l = Ok r -> map (@length K) r = sizes /\ exists rest, l = concat r ++ rest.
Proof.
  induction sizes as [|n sizes IH]; intros l r H; cbn [rb_cut] in H; [apply Ok_inj in H; subst; split; [reflexivity|exists l; reflexivity]|].
  destruct (Nat.ltb_spec (length l) n); [discriminate|]. destruct (rb_cut sizes (skipn n l)) as [t|] eqn:E; [|discriminate]. cbn [bind] in H. apply Ok_inj in H. subst. apply IH in E as (E1 & rest & E2). split.
  - cbn. rewrite E1, firstn_length. f_equal. lia.
  - exists rest. cbn. rewrite <- app_assoc, <- E2. symmetry. apply firstn_skipn.
Qed.
Lemma cut_err : forall sizes (l : list K) e, rb_cut sizes l = Err e -> e = ValueError /\ (length l < fold_right plus 0 sizes)%nat.
Proof.
  induction sizes as [|n sizes IH]; intros l e H; cbn [rb_cut] in H; [discriminate|]. destruct (Nat.ltb_spec (length l) n); [inversion H; split; [reflexivity|cbn; lia]|].
  destruct (rb_cut sizes (skipn n l)) as [t|x] eqn:E; [discriminate|]. cbn [bind] in H. inversion H; subst. apply IH in E as (-> & E). split; [reflexivity|]. rewrite skipn_length in E. cbn. lia.
Qed.
Lemma nth_fblock : forall n B f j t d, (j < B)%nat -> (t < n ^ fst f)%nat -> nth (j * n ^ fst f + t) (fblock n B f) d = snd f j (nth t (tuples n (fst f)) []).
Proof.
  intros n B f j t d Hj Ht. unfold fblock. rewrite <- (nth_rows (fun j t => snd f j (nth t (tuples n (fst f)) [])) (n ^ fst f) B j t d Hj Ht). f_equal. apply flat_map_ext. intros z. rewrite <- tuples_length.
  rewrite <- (map_map (fun t => nth t (tuples n (fst f)) []) (snd f z)). f_equal. clear. induction (tuples n (fst f)) as [|T l IH]; [reflexivity|]. cbn [length seq map nth]. f_equal. rewrite <- seq_shift, map_map. exact IH.
Qed.
Lemma fcontract : forall w B sd f j, (0 < fst f)%nat -> (j < B)%nat ->
  rb_contract (fblock (rb_n w) B f) (rb_n w ^ fst f) (xin w sd (fst f)) j = sumf (fun T => snd f j T * occupied sd T) (tuples (rb_n w) (fst f)).
Proof.
  intros w B sd f j Hf Hj. unfold rb_contract, xin. erewrite sumf_ext.
  2:{ intros t Ht. apply in_seq in Ht. rewrite nth_fblock, input_occupied by (auto; lia). reflexivity. }
  rewrite <- tuples_length. rewrite <- (sumf_map (fun T => snd f j T * occupied sd T) (fun t => nth t (tuples (rb_n w) (fst f)) [])). f_equal.
  clear. induction (tuples (rb_n w) (fst f)) as [|T l IH]; [reflexivity|]. cbn [length seq map nth]. f_equal. rewrite <- seq_shift, map_map. exact IH.
Qed.
Lemma deep_net : forall B D (v u : nat -> K), (forall j, (j < B)%nat -> v j = u j) -> forall j, (j < B)%nat -> deep_out ex B (map (dblock B) D) v j = net_deep (activation ex) B D u j.
Proof.
  intros B. induction D as [|W D IH]; intros v u H j Hj; [now apply H|]. cbn [map deep_out net_deep]. apply IH; auto. intros i Hi. f_equal. unfold rb_contract. apply sumf_ext. intros k Hk. apply in_seq in Hk.
  rewrite H by lia. f_equal. unfold dblock. apply (nth_rows W); lia.
Qed.

(** ** derivatives *)
Variable Der : (K -> K) -> K -> K -> Prop.
Hypothesis C : calculus Der.
Hypothesis Dex : forall f x g, Der f x g -> Der (fun y => ex (f y)) x (ex (f x) * g).
Definition DV (B : nat) (v : K -> nat -> K) (x0 : K) (dv : nat -> K) : Prop := forall j, (j < B)%nat -> Der (fun x => v x j) x0 (dv j).
Lemma der_act : forall f x g, Der f x g -> Der (fun y => activation ex (f y)) x (activation_deriv ex (f x) * g).
Proof. intros f x g H. unfold activation, activation_deriv. eapply der_eq; [apply (cal_add Der C (fun _ => 1) (fun y => ex (f y))); [apply (cal_const Der C)|apply Dex; exact H]|]. ring. Qed.
Lemma tang_der : forall B Ws v x0 dv, DV B v x0 dv -> DV B (fun x => deep_out ex B Ws (v x)) x0 (tang ex B Ws (v x0) dv).
Proof.
  intros B. induction Ws as [|W Ws IH]; intros v x0 dv H; [exact H|]. cbn [deep_out tang]. apply (IH (fun x j => activation ex (rb_contract W B (v x) j))). intros j Hj.
  apply (der_act (fun x => rb_contract W B (v x) j)). unfold rb_contract. apply (der_sum Der C _ (fun x t => nth (j * B + t) W 0 * v x t) (fun t => nth (j * B + t) W 0 * dv t)). intros t Ht. apply in_seq in Ht. apply (der_scale Der C). apply H. lia.
Qed.
Fixpoint dprod {A} (F G : A -> K) (l : list A) : K := match l with [] => 0 | a :: l => G a * prodf F l + F a * dprod F G l end.
Lemma der_dprod : forall {A} (F : K -> A -> K) (G : A -> K) l x0, (forall a, In a l -> Der (fun x => F x a) x0 (G a)) -> Der (fun x => prodf (F x) l) x0 (dprod (F x0) G l).
Proof.
  intros A F G l x0. induction l as [|a l IH]; intros H; [exact (cal_const Der C 1 x0)|]. cbn [dprod]. apply (cal_mul Der C (fun x => F x a) (fun x => prodf (F x) l)); [apply H; now left|apply IH; intros; apply H; now right].
Qed.
Lemma dprod_sum : forall (F G : nat -> K) l, NoDup l -> dprod F G l = sumf (fun y => prodf F (filter (fun k => negb (Nat.eqb k y)) l) * G y) l.
Proof.
  intros F G. induction l as [|a l IH]; intros N; [reflexivity|]. inversion N as [|? ? Ha Nl]; subst. cbn [dprod]. rewrite sumf_cons. cbn [filter]. rewrite Nat.eqb_refl. cbn [negb]. rewrite IH by auto.
  assert (E : filter (fun k => negb (Nat.eqb k a)) l = l). { clear -Ha. induction l as [|b l IH]; [reflexivity|]. cbn. destruct (Nat.eqb_spec b a); [subst; exfalso; apply Ha; now left|]. cbn. f_equal. apply IH. intros H. apply Ha. now right. }
  rewrite E. rewrite <- sumf_mul_l. replace (prodf F l * G a) with (G a * prodf F l) by ring. f_equal. apply sumf_ext. intros y Hy. destruct (Nat.eqb_spec a y); [subst; tauto|]. cbn [negb]. rewrite prodf_cons. ring.
Qed.
Lemma others_perm : forall B i, (i < B)%nat -> Permutation (rb_others B i) (filter (fun k => negb (Nat.eqb k i)) (seq 0 B)).
Proof.
  intros B i H. apply NoDup_Permutation.
  - rewrite others_split by auto. apply SlaterBits2.NoDup_app_intro; try apply seq_NoDup. intros x H1 H2. apply in_seq in H1, H2. lia.
  - apply NoDup_filter, seq_NoDup.
  - intros x. rewrite others_split, in_app_iff, filter_In, !in_seq by auto. destruct (Nat.eqb_spec x i); cbn [negb]; split; intros; try (split; [lia|reflexivity]); intuition (try discriminate; lia).
Qed.
Lemma der_product : forall B (out : K -> nat -> K) x0 dout s, DV B out x0 dout ->
  Der (fun x => prodf (fun j => out x j * s) (seq 0 B)) x0 (sumf (fun y => rb_other_vals B s (out x0) y * (dout y * s)) (seq 0 B)).
Proof.
  intros B out x0 dout s H. eapply der_eq.
  - apply (der_dprod (fun x j => out x j * s) (fun j => dout j * s)). intros j Hj. apply in_seq in Hj. apply (cal_ext Der C (fun x => s * out x j)); [intros; ring|]. eapply der_eq; [apply (der_scale Der C); apply H; lia|ring].
  - cbn beta. rewrite dprod_sum by apply seq_NoDup. apply sumf_ext. intros y Hy. apply in_seq in Hy. f_equal. unfold rb_other_vals. rewrite pprod_prodf. symmetry. apply prodf_perm, others_perm. lia.
Qed.
Lemma contract_der : forall lay wd (a : nat -> K) z t j x0, (t < wd)%nat -> (z * wd + t < length lay)%nat ->
  Der (fun x => rb_contract (upd lay (z * wd + t) x) wd a j) x0 (if Nat.eqb j z then a t else 0).
Proof.
  intros lay wd a z t j x0 Ht Hl. unfold rb_contract. eapply der_eq.
  - apply (der_sum Der C _ (fun x i => nth (j * wd + i) (upd lay (z * wd + t) x) 0 * a i) (fun i => if (Nat.eqb j z && Nat.eqb i t)%bool then a i else 0)). intros i Hi. apply in_seq in Hi.
    destruct (Nat.eqb_spec j z) as [->|N]; cbn [andb].
    + destruct (Nat.eqb_spec i t) as [->|N].
      * apply (cal_ext Der C (fun x => a t * x)); [intros x; rewrite upd_same by auto; ring|]. eapply der_eq; [apply (der_scale Der C); apply (cal_id Der C)|ring].
      * apply (cal_ext Der C (fun x => nth (z * wd + i) lay 0 * a i)); [intros x; rewrite upd_other by lia; reflexivity|]. apply (cal_const Der C).
    + apply (cal_ext Der C (fun x => nth (j * wd + i) lay 0 * a i)); [intros x; rewrite upd_other by nia; reflexivity|]. apply (cal_const Der C).
  - destruct (Nat.eqb j z); cbn [andb]; [|apply sumf_zero; auto]. rewrite (sumf_single _ (seq 0 wd) t); [now rewrite Nat.eqb_refl|apply seq_NoDup|apply in_seq; lia|]. intros y _ N. destruct (Nat.eqb_spec y t); [congruence|reflexivity].
Qed.
Lemma back_middle : forall B s A e E, exists g1 g2, length g1 = length A /\ snd (back ex B s (A ++ e :: E)) = g1 ++ grad_of ex s (fst (back ex B s E)) e :: g2.
Proof.
  intros B s. induction A as [|a A IH]; intros e E; cbn [app back snd]; [exists [], (snd (back ex B s E)); split; reflexivity|].
  destruct (IH e E) as (g1 & g2 & L & X). rewrite X. exists (grad_of ex s (fst (back ex B s (A ++ e :: E))) a :: g1), g2. split; [cbn; now rewrite L|reflexivity].
Qed.
Lemma back_length : forall B s es, length (snd (back ex B s es)) = length es.
Proof. intros B s. induction es as [|e es IH]; [reflexivity|]. cbn. now rewrite IH. Qed.
End M.
