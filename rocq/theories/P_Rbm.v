(** C69: the feed-forward network fanpy/wfn/network/rbm.py *)
From Coq Require Import List ZArith NArith Arith Bool Lia Permutation.
From Verif Require Import Py BitSpec BitLemmas Slater SlaterBits Alg CILemmas JacobiSpec WfnCI EqnSpec EqnLemmas P_CI P_Creation Rbm RbmSpec RbmLemmas RbmMain RbmGrad RbmVec RbmEx.
From Verif Require SlaterBits2.
Import ListNotations.
Local Open Scope nat_scope.

Definition total (sizes : list nat) : nat := fold_right plus 0 sizes.
Lemma concat_total : forall {A} (L : list (list A)), length (concat L) = total (map (@length A) L).
Proof. induction L as [|b L IH]; [reflexivity|]. cbn. now rewrite app_length, IH. Qed.

Section C69.
Context {K : CField}.
Local Open Scope cr_scope.
Add Ring K_ring121 : (rth K).
Variable ex : K -> K.

(** ** construction *)
Lemma zeros_lengths : forall sz : list nat, map (@length K) (map (repeat 0) sz) = sz.
Proof. intros sz. rewrite map_map. rewrite <- (map_id sz) at 2. apply map_ext. intros k. apply repeat_length. Qed.
Lemma zeros_concat : forall sz : list nat, concat (map (repeat 0) sz) = repeat (0 : K) (total sz).
Proof. induction sz as [|k sz IH]; [reflexivity|]. cbn [map concat total fold_right]. rewrite IH. symmetry. apply repeat_app. Qed.
Lemma assign_array : forall (w : rbm K) l, (total (rb_sizes w) <= length l)%nat ->
  exists ps, rb_assign_params w (RArray l) = Ok (rb_store w ps) /\ map (@length K) ps = rb_sizes w /\ concat ps = firstn (total (rb_sizes w)) l.
Proof.
  intros w l H. cbn. destruct (rb_cut (rb_sizes w) l) as [ps|e] eqn:E.
  - exists ps. split; [reflexivity|]. apply cut_inv in E as (E1 & rest & E2). split; auto. subst l. rewrite <- E1, <- concat_total, firstn_app, firstn_all, Nat.sub_diag. cbn. now rewrite app_nil_r.
  - apply cut_err in E as (_ & E). unfold total in H. lia.
Qed.
(** Assigning an array: the number of weights it has to have at least; the weights are the first of it, the rest is ignored;
    nothing else changes. *)
Theorem C69_assign : forall (w : rbm K) l,
  ((total (rb_sizes w) <= length l)%nat -> exists u, rb_assign_params w (RArray l) = Ok u /\ rb_flat u = firstn (total (rb_sizes w)) l /\ u = rb_store w (rb_params u)) /\
  ((length l < total (rb_sizes w))%nat -> rb_assign_params w (RArray l) = Err ValueError).
Proof.
  intros w l. split; intros H.
  - destruct (assign_array w l H) as (ps & E1 & E2 & E3). exists (rb_store w ps). split; [exact E1|]. split; [exact E3|reflexivity].
  - cbn. destruct (rb_cut (rb_sizes w) l) as [ps|e] eqn:E; [|apply cut_err in E as (-> & _); reflexivity]. apply cut_inv in E as (E1 & rest & ->). rewrite app_length, concat_total, E1 in H. lia.
Qed.
(** nparams is the number of weights. *)
Theorem C69_nparams : forall w : rbm K, (0 < rb_layers w)%nat -> (0 <= rb_nspin w)%Z -> Z.of_nat (total (rb_sizes w)) = rb_nparams w.
Proof.
  intros w H Hn. unfold rb_nparams, rb_sizes, total. rewrite fold_right_app. assert (G : forall a k, fold_right plus a (repeat k (rb_layers w - 1)) = ((rb_layers w - 1) * k + a)%nat).
  { intros a k. induction (rb_layers w - 1)%nat as [|m IH]; [reflexivity|]. cbn [repeat fold_right Nat.mul]. rewrite IH. lia. }
  rewrite G. assert (F : forall a os, Z.of_nat (fold_right plus a (map (fun o => (rb_nbath w * rb_n w ^ o)%nat) os)) = (fold_right Z.add 0 (map (fun o => Z.of_nat (rb_nbath w) * rb_nspin w ^ Z.of_nat o) os) + Z.of_nat a)%Z).
  { intros a. induction os as [|o os IH]; [reflexivity|]. cbn [map fold_right]. rewrite Nat2Z.inj_add, IH, Nat2Z.inj_mul, Nat2Z.inj_pow. unfold rb_n. rewrite Z2Nat.id by auto. ring. }
  rewrite F. f_equal. rewrite Nat.add_0_r, !Nat2Z.inj_mul, Nat2Z.inj_sub by lia. ring.
Qed.
(** What is accepted, and the arrays that are kept.  Without parameters all weights are zero. *)
Theorem C69_constructor : forall ne ns B L os ps (w : rbm K), (forall l, ps <> RList l) -> new_rbm ne ns B L os ps = Ok w ->
  (0 < ne)%Z /\ (0 < ns)%Z /\ Z.Even ns /\ rb_nelec w = ne /\ rb_nspin w = ns /\ rb_nbath w = B /\ rb_orders w = os /\ rb_layers w = L /\ map (@length K) (rb_params w) = rb_sizes w /\
  match ps with RNone => rb_scale w = Some (finv (1 + 1)) /\ rb_flat w = repeat 0 (total (rb_sizes w)) | RArray l => rb_scale w = None /\ (total (rb_sizes w) <= length l)%nat /\ rb_flat w = firstn (total (rb_sizes w)) l | RList _ => True end.
Proof.
  intros ne ns B L os ps w Hp H. unfold new_rbm, assign_nelec, assign_nspin in H. destruct (Z.leb_spec ne 0); [discriminate|]. cbn [bind] in H. destruct (Z.leb_spec ns 0); [discriminate|]. destruct (Z.eqb_spec (ns mod 2) 1) as [|Ev]; [discriminate|]. cbn [bind] in H.
  assert (Ev' : Z.Even ns) by (exists (ns / 2)%Z; pose proof (Z.div_mod ns 2 ltac:(lia)); pose proof (Z.mod_pos_bound ns 2 ltac:(lia)); lia).
  destruct ps as [|l|l]; [| |now destruct (Hp l)].
  - cbn in H. apply Ok_inj in H. subst w. cbn. repeat split; auto.
    + apply zeros_lengths.
    + apply zeros_concat.
  - set (w0 := mkrbm ne ns B os L None None [] []) in H. destruct (Nat.lt_ge_cases (length l) (total (rb_sizes w0))) as [Lt|Ge]; [apply (proj2 (C69_assign w0 l)) in Lt; rewrite Lt in H; discriminate|].
    destruct (assign_array w0 l Ge) as (ps & E1 & E2 & E3). rewrite E1 in H. apply Ok_inj in H. subst w. cbn. repeat split; auto.
Qed.
Theorem C69_errors : forall ne ns B L os ps e, new_rbm (K := K) ne ns B L os ps = Err e -> e = ValueError /\
  ((ne <= 0)%Z \/ (ns <= 0)%Z \/ ~ Z.Even ns \/ exists l w, ps = RArray l /\ new_rbm (K := K) ne ns B L os RNone = Ok w /\ (length l < total (rb_sizes w))%nat).
Proof.
  intros ne ns B L os ps e H. unfold new_rbm, assign_nelec, assign_nspin in *. destruct (Z.leb_spec ne 0); [inversion H; auto|]. cbn [bind] in *. destruct (Z.leb_spec ns 0); [inversion H; auto|].
  destruct (Z.eqb_spec (ns mod 2) 1) as [Ev|Ev]; [inversion H; split; auto; right; right; left; intros [k Hk]; rewrite Hk, Z.mul_comm, Z.mod_mul in Ev by lia; discriminate|]. cbn [bind] in *. destruct ps as [|l|l]; try discriminate.
  set (w0 := mkrbm ne ns B os L None None [] []) in *. destruct (Nat.lt_ge_cases (length l) (total (rb_sizes w0))) as [Lt|Ge].
  - rewrite (proj2 (C69_assign w0 l) Lt) in H. inversion H. split; auto. do 3 right. eexists l, _. split; [reflexivity|]. split; [reflexivity|]. exact Lt.
  - destruct (assign_array w0 l Ge) as (ps & E1 & _). rewrite E1 in H. discriminate.
Qed.
(** The arrays have their shapes for every wavefunction that is made with the constructor, and afterwards. *)
Theorem C69_shaped : forall ne ns B L os ps (w : rbm K), (forall l, ps <> RList l) -> new_rbm ne ns B L os ps = Ok w -> (forall o, In o os -> (0 < o)%nat) -> (os <> [] \/ (1 < L)%nat) -> shaped w /\
  (forall ps' u, (forall l, ps' <> RList l) -> rb_assign_params w ps' = Ok u -> shaped u) /\ (forall root pspace u, rb_normalize ex root w pspace = Ok u -> shaped u).
Proof.
  intros ne ns B L os ps w Hp H Ho Hn. destruct (C69_constructor _ _ _ _ _ _ _ Hp H) as (_ & _ & _ & _ & _ & _ & E1 & E2 & E3 & _). assert (Sh : shaped w).
  { split; [exact E3|]. split; [rewrite E1; exact Ho|]. unfold rb_sizes. rewrite E1, E2. destruct Hn as [Hn|Hn]; [destruct os; [congruence|discriminate]|]. destruct (L - 1)%nat eqn:E; [lia|]. destruct os; discriminate. }
  split; [exact Sh|]. split.
  - intros ps' u Hp' A. destruct ps' as [|l|l]; [| |now destruct (Hp' l)].
    + cbn in A. apply Ok_inj in A. subst u. assert (T : rb_template w = None \/ rb_template w = Some (map (repeat 0) (rb_sizes w))).
      { clear -H Hp. unfold new_rbm in H. destruct (assign_nelec CIGeneral ne); [|discriminate]. cbn [bind] in H. destruct (assign_nspin ns); [|discriminate]. cbn [bind] in H. destruct ps as [|l|l]; [| |now destruct (Hp l)].
        - cbn in H. apply Ok_inj in H. subst w. right. reflexivity.
        - left. cbn in H. destruct (rb_cut _ l); [|discriminate]. cbn in H. apply Ok_inj in H. now subst w. }
      destruct T as [T|T]; rewrite T; cbn [rb_template rb_assign_template]; [|rewrite T]; (split; [apply zeros_lengths|split; [apply Sh|apply Sh]]).
    + destruct (Nat.lt_ge_cases (length l) (total (rb_sizes w))) as [Lt|Ge]; [rewrite (proj2 (C69_assign w l) Lt) in A; discriminate|]. destruct (assign_array w l Ge) as (p & F1 & F2 & _). rewrite F1 in A. apply Ok_inj in A. subst u. now apply store_shaped.
  - intros root pspace u N. unfold rb_normalize in N. destruct (rb_norm ex w _); [|discriminate]. cbn [bind] in N. destruct (rb_scale w); [|discriminate]. destruct (Nat.eqb _ 0); [discriminate|]. destruct (_ || _)%bool; [discriminate|]. apply Ok_inj in N. subst u. exact Sh.
Qed.

(** ** overlaps *)
Lemma weights_concat : forall n B F D, net_weights (K := K) n B F D = concat (map (fblock n B) F ++ map (dblock B) D).
Proof. intros n B F D. unfold net_weights. rewrite concat_app, !flat_map_concat_map. reflexivity. Qed.
Lemma weights_sizes : forall (w : rbm K) F D, map fst F = rb_orders w -> length D = (rb_layers w - 1)%nat -> map (@length K) (map (fblock (rb_n w) (rb_nbath w)) F ++ map (dblock (rb_nbath w)) D) = rb_sizes w.
Proof.
  intros w F D EF ED. rewrite map_app, !map_map. unfold rb_sizes. f_equal.
  - rewrite <- EF, map_map. apply map_ext. intros f. apply fblock_length.
  - rewrite <- ED. clear. induction D as [|W D IH]; [reflexivity|]. cbn [map length repeat]. now rewrite dblock_length, IH.
Qed.
Lemma combine_fblock : forall n B (F : first_weights (K := K)) rest, combine (map fst F) (map (fblock n B) F ++ rest) = map (fun f => (fst f, fblock n B f)) F.
Proof. intros n B F rest. induction F as [|f F IH]; [reflexivity|]. cbn. now rewrite IH. Qed.
Lemma net_overlap : forall (w : rbm K) s F D sd, shaped w -> rb_scale w = Some s -> map fst F = rb_orders w -> length D = (rb_layers w - 1)%nat -> sd <> 0%N -> within (rb_n w) sd ->
  rb_params w = map (fblock (rb_n w) (rb_nbath w)) F ++ map (dblock (rb_nbath w)) D -> rb_overlap ex w sd = Ok (net_value (fun x => 1 + ex x) (rb_n w) (rb_nbath w) s F D sd).
Proof.
  intros w s F D sd H Hs EF ED V1 V2 EP. rewrite (overlap_ok ex _ sd s) by auto. f_equal. unfold net_value.
  assert (LF : length (rb_orders w) = length (map (fblock (rb_n w) (rb_nbath w)) F)) by now rewrite <- EF, !map_length.
  assert (Ed : deeper w = map (dblock (rb_nbath w)) D). { unfold deeper. rewrite EP, LF, skipn_app, skipn_all, Nat.sub_diag. reflexivity. }
  assert (Ez : zipped w = map (fun f => (fst f, fblock (rb_n w) (rb_nbath w) f)) F). { unfold zipped. rewrite EP, <- EF. apply combine_fblock. }
  apply prodf_ext. intros j Hj. apply in_seq in Hj. rewrite Ed. rewrite (deep_net ex (rb_nbath w) D _ (net_first (fun x => 1 + ex x) (rb_n w) F sd)); [|clear j Hj; intros j Hj|lia].
  - change (net_deep (activation ex)) with (net_deep (fun x : K => 1 + ex x)). ring.
  - unfold v0, net_first, activation. do 2 f_equal. rewrite flin_sum, Ez, sumf_map. apply sumf_ext. intros f Hf. cbn [fst snd]. apply fcontract; auto. apply H. rewrite <- EF. now apply in_map.
Qed.
(** The overlap is the value of the network with the assigned weights: products of occupation numbers of each order are weighted,
    passed through x -> 1 + exp x and on through the further layers; the values of the last layer, scaled, are multiplied. *)
Theorem C69_overlap : forall (w : rbm K) s F D sd, shaped w -> rb_scale w = Some s -> map fst F = rb_orders w -> length D = (rb_layers w - 1)%nat -> sd <> 0%N -> within (rb_n w) sd ->
  exists u, rb_assign_params w (RArray (net_weights (rb_n w) (rb_nbath w) F D)) = Ok u /\ rb_flat u = net_weights (rb_n w) (rb_nbath w) F D /\
    rb_overlap ex u sd = Ok (net_value (fun x => 1 + ex x) (rb_n w) (rb_nbath w) s F D sd).
Proof.
  intros w s F D sd H Hs EF ED V1 V2. set (ps := map (fblock (rb_n w) (rb_nbath w)) F ++ map (dblock (rb_nbath w)) D). assert (Sz : map (@length K) ps = rb_sizes w) by now apply weights_sizes.
  exists (rb_store w ps). rewrite weights_concat. fold ps. split; [now apply store_assign|]. split; [reflexivity|].
  now apply (net_overlap (rb_store w ps) s F D sd (store_shaped w ps H Sz) Hs EF ED V1 V2 eq_refl).
Qed.
(** Every array of weights is that of a network. *)
Fixpoint rank (n : nat) (T : list nat) : nat := match T with [] => 0%nat | i :: T => (i * n ^ length T + rank n T)%nat end.
Lemma seq_rows : forall m B, flat_map (fun i => map (fun t => i * m + t)%nat (seq 0 m)) (seq 0 B) = seq 0 (B * m).
Proof.
  intros m B. induction B as [|B IH]; [reflexivity|]. rewrite seq_S, flat_map_app, IH. cbn [flat_map plus]. rewrite app_nil_r. replace (S B * m)%nat with (B * m + m)%nat by lia. rewrite seq_app. f_equal. cbn [plus].
  generalize (B * m)%nat. intros a. clear IH. assert (G : forall k b, map (fun t => a + t)%nat (seq b k) = seq (a + b) k). { induction k as [|k IHk]; intros b; [reflexivity|]. cbn [seq map]. rewrite IHk. do 2 f_equal. lia. }
  rewrite G. f_equal. lia.
Qed.
Lemma tuples_len : forall n o T, In T (tuples n o) -> length T = o.
Proof. intros n. induction o as [|o IH]; intros T H; cbn [tuples] in H; [destruct H as [<-|[]]; reflexivity|]. apply in_flat_map in H as (i & _ & H). apply in_map_iff in H as (T' & <- & H). cbn. now rewrite (IH T' H). Qed.
Lemma rank_tuples : forall n o, map (rank n) (tuples n o) = seq 0 (n ^ o).
Proof.
  intros n. induction o as [|o IH]; [reflexivity|]. cbn [tuples Nat.pow]. rewrite <- seq_rows, <- IH. rewrite !flat_map_concat_map, concat_map, map_map. f_equal. apply map_ext. intros i. rewrite !map_map. apply map_ext_in. intros T HT. cbn [rank]. now rewrite (tuples_len n o T HT).
Qed.
Lemma nth_all : forall (l : list K) B m, length l = (B * m)%nat -> flat_map (fun j => map (fun t => nth (j * m + t) l 0) (seq 0 m)) (seq 0 B) = l.
Proof.
  intros l B m H. transitivity (map (fun k => nth k l 0) (seq 0 (B * m))).
  - rewrite <- seq_rows. rewrite !flat_map_concat_map, concat_map, map_map. f_equal. apply map_ext. intros i. now rewrite map_map.
  - rewrite <- H. clear. induction l as [|x l IH]; [reflexivity|]. cbn [length seq map nth]. f_equal. rewrite <- seq_shift, map_map. exact IH.
Qed.
Lemma fblock_of : forall n B o (l : list K), length l = (B * n ^ o)%nat -> fblock n B (o, fun j T => nth (j * n ^ o + rank n T) l 0) = l.
Proof.
  intros n B o l H. unfold fblock. cbn [fst snd]. transitivity (flat_map (fun j => map (fun t => nth (j * n ^ o + t) l 0) (seq 0 (n ^ o))) (seq 0 B)); [|now apply nth_all]. apply flat_map_ext. intros j. rewrite <- rank_tuples, map_map. reflexivity.
Qed.
Lemma dblock_of : forall B (l : list K), length l = (B * B)%nat -> dblock B (fun j k => nth (j * B + k) l 0) = l.
Proof. intros B l H. unfold dblock. now apply nth_all. Qed.
Lemma shaped_net : forall w : rbm K, shaped w -> exists F D, map fst F = rb_orders w /\ length D = (rb_layers w - 1)%nat /\ rb_params w = map (fblock (rb_n w) (rb_nbath w)) F ++ map (dblock (rb_nbath w)) D.
Proof.
  intros w (Sh & _). unfold rb_sizes in Sh. revert Sh. generalize (rb_params w) (rb_orders w) (rb_layers w - 1)%nat. intros ps os. revert ps. induction os as [|o os IH]; intros ps m Sh.
  - exists []. cbn [map app] in *. revert ps Sh. induction m as [|m IHm]; intros [|p ps] Sh; cbn in Sh; try discriminate; [exists []; auto|]. injection Sh as S1 S2. destruct (IHm ps S2) as (D & _ & E1 & E2).
    exists ((fun j k => nth (j * rb_nbath w + k) p 0) :: D). cbn [length map]. rewrite dblock_of by auto. split; [reflexivity|]. split; [now rewrite E1|now rewrite <- E2].
  - destruct ps as [|p ps]; [discriminate|]. cbn in Sh. injection Sh as S1 S2. destruct (IH ps m S2) as (F & D & E1 & E2 & E3). exists ((o, fun j T => nth (j * rb_n w ^ o + rank (rb_n w) T) p 0) :: F), D. cbn [map fst app]. rewrite fblock_of by auto. split; [now rewrite E1|]. split; [auto|now rewrite <- E3].
Qed.
Theorem C69_network : forall (w : rbm K) s, shaped w -> rb_scale w = Some s ->
  exists F D, map fst F = rb_orders w /\ length D = (rb_layers w - 1)%nat /\ rb_flat w = net_weights (rb_n w) (rb_nbath w) F D /\
    forall sd, sd <> 0%N -> within (rb_n w) sd -> rb_overlap ex w sd = Ok (net_value (fun x => 1 + ex x) (rb_n w) (rb_nbath w) s F D sd).
Proof.
  intros w s H Hs. destruct (shaped_net w H) as (F & D & E1 & E2 & E3). exists F, D. split; [exact E1|]. split; [exact E2|]. split; [unfold rb_flat; now rewrite weights_concat, E3|]. intros sd V1 V2. now apply net_overlap.
Qed.
(** The vacuum and Slater determinants outside of the basis. *)
Theorem C69_other : forall (w : rbm K) sd ds, ~ (sd <> 0%N /\ within (rb_n w) sd) -> rb_overlap ex w sd = Err IndexError /\ rb_overlap_deriv ex w sd ds = Err IndexError.
Proof. intros w sd ds H. unfold rb_overlap, rb_overlap_deriv, rb_dolp. rewrite helper_err by auto. split; reflexivity. Qed.
(** The scale is set by the default parameters only: a wavefunction that is made with given parameters has no overlaps. *)
Theorem C69_scale_refuted : forall ne ns B L os l (w : rbm K) sd ds, new_rbm ne ns B L os (RArray l) = Ok w -> (forall o, In o os -> (0 < o)%nat) -> (os <> [] \/ (1 < L)%nat) -> sd <> 0%N -> within (rb_n w) sd ->
  rb_overlap ex w sd = Err AttributeError /\ rb_overlap_deriv ex w sd ds = Err AttributeError /\ forall root pspace, In sd pspace -> (forall x, In x pspace -> x <> 0%N /\ within (rb_n w) x) -> rb_normalize ex root w (Some pspace) = Err AttributeError.
Proof.
  intros ne ns B L os l w sd ds H Ho Hn V1 V2. assert (Sh : shaped w) by (apply (C69_shaped ne ns B L os (RArray l) w ltac:(discriminate) H Ho Hn)). destruct (C69_constructor _ _ _ _ _ (RArray l) _ ltac:(discriminate) H) as (_ & _ & _ & _ & _ & _ & _ & _ & _ & Sc & _).
  assert (O : forall x, x <> 0%N -> within (rb_n w) x -> rb_overlap ex w x = Err AttributeError) by (intros x X1 X2; unfold rb_overlap; rewrite helper_ok by auto; cbn [bind]; now rewrite Sc).
  split; [now apply O|]. split; [unfold rb_overlap_deriv, rb_dolp; rewrite helper_ok by auto; cbn [bind]; now rewrite Sc|]. intros root pspace I V. unfold rb_normalize, rb_norm. destruct pspace as [|x xs]; [destruct I|]. cbn [mapM]. destruct (V x (or_introl eq_refl)). rewrite O by auto. reflexivity.
Qed.

(** ** derivatives *)
Section Der.
Variable Der : (K -> K) -> K -> K -> Prop.
Hypothesis C : calculus Der.
Hypothesis Dex : forall f x g, Der f x g -> Der (fun y => ex (f y)) x (ex (f x) * g).
(** The derivatives of the overlap with respect to the weights, by position in the array, negative positions counting from the end. *)
Theorem C69_derivative : forall (w : rbm K) s sd ds, shaped w -> rb_scale w = Some s -> (0 < rb_nbath w)%nat -> sd <> 0%N -> within (rb_n w) sd ->
  (forall d, In d ds -> exists k, selects (length (rb_flat w)) d k) ->
  exists gs, rb_overlap_deriv ex w sd ds = Ok gs /\
    Forall2 (fun d g => forall k, selects (length (rb_flat w)) d k -> Der (fun x => okv (do u <- rb_assign_params w (RArray (upd (rb_flat w) k x)); rb_overlap ex u sd)) (nth k (rb_flat w) 0) g) ds gs.
Proof.
  intros w s sd ds H Hs HB V1 V2 Hd. unfold rb_overlap_deriv. rewrite (dolp_concat ex w sd s) by auto. cbn [bind]. unfold rb_select.
  assert (Lg : length (concat (grads_of ex w sd s)) = length (rb_flat w)) by (unfold rb_flat; rewrite !concat_total, grads_lengths by auto; symmetry; f_equal; apply H). rewrite Lg.
  induction ds as [|d ds IH]; [exists []; split; [reflexivity|constructor]|]. cbn [mapM]. destruct (Hd d (or_introl eq_refl)) as (k & Hk). pose proof (proj1 (np_index_ok _ _ _) Hk) as E. rewrite E. cbn [bind].
  destruct IH as (gs & E1 & E2); [intros; apply Hd; now right|]. rewrite E1. cbn [bind]. eexists. split; [reflexivity|]. constructor; [|exact E2]. intros k' Hk'. pose proof (proj1 (np_index_ok _ _ _) Hk') as E'. rewrite E in E'. apply Ok_inj in E'. subst k'.
  apply (deriv_ok ex Der C Dex); auto. destruct Hk; lia.
Qed.
End Der.
Theorem C69_derivative_outside : forall (w : rbm K) s sd ds1 d ds2, shaped w -> rb_scale w = Some s -> (0 < rb_nbath w)%nat -> sd <> 0%N -> within (rb_n w) sd ->
  (forall d, In d ds1 -> exists k, selects (length (rb_flat w)) d k) -> (forall k, ~ selects (length (rb_flat w)) d k) -> rb_overlap_deriv ex w sd (ds1 ++ d :: ds2) = Err IndexError.
Proof.
  intros w s sd ds1 d ds2 H Hs HB V1 V2 Hd Hn. unfold rb_overlap_deriv. rewrite (dolp_concat ex w sd s) by auto. cbn [bind]. unfold rb_select.
  assert (Lg : length (concat (grads_of ex w sd s)) = length (rb_flat w)) by (unfold rb_flat; rewrite !concat_total, grads_lengths by auto; symmetry; f_equal; apply H). rewrite Lg.
  induction ds1 as [|x ds IH]; cbn [app mapM].
  - destruct (np_index (length (rb_flat w)) d) as [i|e] eqn:E; [|unfold np_index in E; repeat match type of E with (if ?b then _ else _) = _ => destruct b end; try discriminate; inversion E; reflexivity].
    now apply np_index_ok, Hn in E.
  - destruct (Hd x (or_introl eq_refl)) as (k & Hk). rewrite (proj1 (np_index_ok _ _ _) Hk). cbn [bind]. rewrite IH by (intros; apply Hd; now right). reflexivity.
Qed.

(** ** many Slater determinants at once *)
Lemma mapM_all : forall {A E} (f : A -> res E) (g : A -> E) l, (forall a, In a l -> f a = Ok (g a)) -> mapM f l = Ok (map g l).
Proof. induction l as [|a l IH]; intros H; [reflexivity|]. cbn [mapM map]. rewrite (H a) by now left. cbn [bind]. rewrite IH by (intros; apply H; now right). reflexivity. Qed.
Lemma mapM_index : forall {A E} (f : A -> res E) (g : nat -> res E) l a, (forall s x, nth_error l s = Some x -> g (a + s)%nat = f x) -> mapM g (seq a (length l)) = mapM f l.
Proof.
  induction l as [|x l IH]; intros a H; [reflexivity|]. cbn [length seq mapM]. rewrite <- (H 0%nat x eq_refl). rewrite Nat.add_0_r. destruct (g a) as [y|e]; [|reflexivity]. cbn [bind]. rewrite (IH (S a)); [reflexivity|]. intros s z Hz. rewrite <- (H (S s) z Hz). f_equal. lia.
Qed.
Theorem C69_overlaps : forall (w : rbm K) sds, shaped w -> (forall sd, In sd sds -> sd <> 0%N /\ within (rb_n w) sd) ->
  (forall a b, In a sds -> In b sds -> length (occ_indices (Some a)) = length (occ_indices (Some b))) ->
  (forall a o b, rb_orders w = a ++ o :: b -> b <> [] -> o = 1%nat) -> rb_scale w <> None ->
  rb_overlaps ex w sds = mapM (rb_overlap ex w) sds /\ forall ds, (0 < rb_nbath w)%nat -> rb_overlaps_deriv ex w sds ds = mapM (fun sd => rb_overlap_deriv ex w sd ds) sds.
Proof.
  intros w sds H Hv He Ho Hs. unfold rb_overlaps, rb_overlaps_deriv. destruct (Nat.eqb_spec (length sds) 0) as [E|_]; [destruct sds; [split; reflexivity|discriminate]|].
  destruct (helper2_ok ex w sds H Hv He Ho) as (r2 & E2 & R). rewrite E2. cbn [bind]. destruct (rb_scale w) as [sc|] eqn:Sc; [|congruence]. split.
  - rewrite <- (mapM_index (rb_overlap ex w) (fun s => Ok (pprod (fun j => snd r2 j s * sc) (seq 0 (rb_nbath w)))) sds 0); [symmetry; now apply mapM_all|].
    intros s sd Hn. destruct (R s sd Hn) as (r & Er & _ & Eo). unfold rb_overlap. rewrite Er. cbn [bind plus]. rewrite Sc. f_equal. rewrite !pprod_prodf. apply prodf_ext. intros j _. now rewrite Eo.
  - intros ds HB. destruct (Nat.eqb_spec (rb_nbath w) 0); [lia|]. cbv zeta. apply mapM_index. intros s sd Hn. cbn [plus]. destruct (R s sd Hn) as (r & Er & Ee & Eo).
    destruct (Hv sd (nth_error_In _ _ Hn)) as (V1 & V2). unfold rb_overlap_deriv, rb_dolp. rewrite Er. cbn [bind]. rewrite Sc. destruct (Nat.eqb_spec (rb_nbath w) 0); [lia|]. cbv zeta. cbn [bind]. f_equal.
    rewrite helper_ok in Er by auto. apply Ok_inj in Er.
    rewrite <- !fold_left_rev_right, !rev_involutive. unfold enumerate.
    destruct (back_col ex s (rb_nbath w) (length (rb_orders w)) sc (fst r2) (fst r) 0 (fun y k _ => if Nat.eqb y k then 1 else 0) (fun y k => if Nat.eqb y k then 1 else 0) [] [] Ee) as (_ & G); [reflexivity|constructor|].
    rewrite (collect_cols s _ _ (rb_other_vals (rb_nbath w) sc (snd r)) _ _ (Forall2_rev _ _ _ G)).
    + subst r. cbn [fst snd] in *. pose proof (back_all ex (rb_nbath w) sc (fents w sd (zipped w)) (deep_entries ex (rb_nbath w) (deeper w) (v0 ex w sd (zipped w)))) as BA.
      rewrite fents_length, (zipped_length w H) in BA. rewrite <- !fold_left_rev_right, !rev_involutive in BA. unfold enumerate in BA. rewrite BA. symmetry. apply join_all. intros g Hg. now apply (last_diagonal ex _ sc _ _ g Hg).
    + intros y. unfold rb_other_vals. rewrite !pprod_prodf. apply prodf_ext. intros k _. now rewrite Eo.
Qed.
(** Slater determinants with different numbers of electrons cannot be evaluated at once. *)
Theorem C69_ragged_refuted : forall (w : rbm K) a b sds ds, length (occ_indices (Some a)) <> length (occ_indices (Some b)) -> In b sds ->
  rb_overlaps ex w (a :: sds) = Err ValueError /\ rb_overlaps_deriv ex w (a :: sds) ds = Err ValueError.
Proof.
  intros w a b sds ds N I. unfold rb_overlaps, rb_overlaps_deriv, rb_helper2, rb_rows. cbn [length Nat.eqb map hd].
  assert (E : forallb (fun r : list nat => Nat.eqb (length r) (length (occ_indices (Some a)))) (occ_indices (Some a) :: map (fun sd => occ_indices (Some sd)) sds) = false).
  { destruct (forallb _ _) eqn:E; [|reflexivity]. rewrite forallb_forall in E. specialize (E (occ_indices (Some b)) (or_intror (in_map _ _ _ I))). apply Nat.eqb_eq in E. congruence. }
  rewrite E. split; reflexivity.
Qed.
(** Neither can they if an order that is not the last is greater than one, although each alone can. *)
Theorem C69_axes_refuted : forall (w : rbm K) s a o b sds, shaped w -> rb_scale w = Some s -> rb_orders w = a ++ o :: b -> b <> [] -> (1 < o)%nat -> sds <> [] -> (forall sd, In sd sds -> sd <> 0%N /\ within (rb_n w) sd) ->
  (forall x y, In x sds -> In y sds -> length (occ_indices (Some x)) = length (occ_indices (Some y))) ->
  rb_overlaps ex w sds = Err IndexError /\ (forall ds, rb_overlaps_deriv ex w sds ds = Err IndexError) /\ exists l, mapM (rb_overlap ex w) sds = Ok l.
Proof.
  intros w s a o b sds H Hs Eo Nb Lo Ns Hv He. assert (E : rb_helper2 ex w sds = Err IndexError).
  { unfold rb_helper2, rb_rows. assert (Ef : forallb (fun r : list nat => Nat.eqb (length r) (length (hd [] (map (fun sd => occ_indices (Some sd)) sds)))) (map (fun sd => occ_indices (Some sd)) sds) = true).
    { apply forallb_forall. intros r Hr. apply in_map_iff in Hr as (sd & <- & Hr). apply Nat.eqb_eq. destruct sds as [|x sds]; [destruct Hr|]. cbn [map hd]. apply He; auto. now left. }
    rewrite Ef. cbn [bind]. rewrite mapM_masks by auto. cbn [bind].
    assert (L : length (rb_params w) = (length (a ++ o :: b) + (rb_layers w - 1))%nat) by (rewrite (shaped_length w H), Eo; reflexivity). rewrite Eo.
    assert (Z : exists za y zb, combine (a ++ o :: b) (rb_params w) = za ++ (o, y) :: zb /\ zb <> []).
    { revert L. generalize (rb_params w). clear -Nb. induction a as [|x a IH]; intros ps L; (destruct ps as [|p ps]; [cbn in L; lia|]).
      - exists [], p, (combine b ps). split; [reflexivity|]. destruct b as [|y b]; [congruence|]. destruct ps; [cbn in L; lia|]. discriminate.
      - destruct (IH ps) as (za & y & zb & E1 & E2); [cbn in L; lia|]. exists ((x, p) :: za), y, zb. cbn. rewrite E1. split; [reflexivity|exact E2]. }
    destruct Z as (za & y & zb & Ez & Nz). rewrite (first_err (rb_n w) _ za (o, y) zb _ Ez Nz Lo). reflexivity. }
  unfold rb_overlaps, rb_overlaps_deriv. destruct (Nat.eqb_spec (length sds) 0) as [E0|_]; [destruct sds; [congruence|discriminate]|]. rewrite E. split; [reflexivity|]. split; [reflexivity|].
  eexists. apply mapM_all. intros sd Hsd. destruct (Hv sd Hsd). apply (overlap_ok ex w sd s); auto.
Qed.

(** ** default parameters and normalization *)
(** With the default parameters the overlap with every Slater determinant of the basis is one; there is no dependence on the
    number of electrons, here nor later. *)
Theorem C69_default : forall ne ns B L os (w : rbm K) sd, new_rbm ne ns B L os RNone = Ok w -> (forall o, In o os -> (0 < o)%nat) -> (os <> [] \/ (1 < L)%nat) ->
  ex 0 = 1 -> 1 + 1 <> (0 : K) -> sd <> 0%N -> within (rb_n w) sd -> rb_overlap ex w sd = Ok 1.
Proof.
  intros ne ns B L os w sd H Ho Hn E0 N2 V1 V2. assert (Sh : shaped w) by (apply (C69_shaped ne ns B L os RNone w ltac:(discriminate) H Ho Hn)). destruct (C69_constructor _ _ _ _ _ RNone _ ltac:(discriminate) H) as (_ & _ & _ & _ & _ & EB & _ & _ & _ & Sc & Fl).
  rewrite (overlap_ok ex w sd _ Sh V1 V2 Sc). f_equal.
  assert (Pz : forall p, In p (rb_params w) -> forall k, nth k p 0 = (0 : K)).
  { intros p Ip k. assert (Ap : forall x, In x p -> x = 0). { intros x Hx. assert (I : In x (rb_flat w)) by (unfold rb_flat; apply in_concat; exists p; auto). rewrite Fl in I. now apply repeat_spec in I. }
    destruct (Nat.lt_ge_cases k (length p)); [apply Ap, nth_In; auto|now apply nth_overflow]. }
  assert (Cz : forall p wd x j, In p (rb_params w) -> rb_contract p wd x j = 0).
  { intros p wd x j Ip. unfold rb_contract. apply sumf_zero. intros t _. rewrite (Pz p Ip). ring. }
  assert (Vz : forall j, v0 ex w sd (zipped w) j = 1 + 1).
  { intros j. unfold v0, activation. rewrite flin_sum. rewrite sumf_zero; [now rewrite E0|]. intros [o p] Ip. cbn [fst snd]. apply Cz. unfold zipped in Ip. now apply in_combine_r in Ip. }
  assert (Dz : forall j, deep_out ex (rb_nbath w) (deeper w) (v0 ex w sd (zipped w)) j = 1 + 1).
  { assert (Id : forall p, In p (deeper w) -> In p (rb_params w)). { intros p Ip. unfold deeper in Ip. rewrite <- (firstn_skipn (length (rb_orders w)) (rb_params w)). apply in_app_iff. now right. }
    revert Id Vz. generalize (deeper w) (v0 ex w sd (zipped w)). clear -Cz E0. induction l as [|p l IH]; intros v Id Vz j; [apply Vz|]. cbn [deep_out]. apply IH; [intros; apply Id; now right|]. intros i. unfold activation. rewrite Cz by (apply Id; now left). now rewrite E0. }
  transitivity (prodf (fun _ : nat => 1 : K) (seq 0 (rb_nbath w))); [|clear; induction (seq 0 (rb_nbath w)) as [|a l IH]; [reflexivity|]; rewrite prodf_cons, IH; ring].
  apply prodf_ext. intros j _. rewrite Dz. transitivity (finv (c := K) (1 + 1) * (1 + 1)); [ring|]. apply f_inv. exact N2.
Qed.
(** The number of electrons does not restrict the Slater determinants: there is one with another number and a nonzero overlap. *)
Theorem C69_electrons_refuted : forall ne ns B L os (w : rbm K), new_rbm ne ns B L os RNone = Ok w -> (forall o, In o os -> (0 < o)%nat) -> (os <> [] \/ (1 < L)%nat) -> ex 0 = 1 -> 1 + 1 <> (0 : K) ->
  exists sd, Z.of_nat (length (occ_indices (Some sd))) <> rb_nelec w /\ rb_overlap ex w sd = Ok 1.
Proof.
  intros ne ns B L os w H Ho Hn E0 N2. destruct (C69_constructor _ _ _ _ _ RNone _ ltac:(discriminate) H) as (_ & Hns & (h & Hh) & _ & Ens & _). assert (N : (2 <= rb_n w)%nat) by (unfold rb_n; rewrite Ens; lia).
  assert (W : forall sd, sd = 1%N \/ sd = 3%N -> within (rb_n w) sd).
  { intros sd Hsd i Hi. destruct (Nat.lt_ge_cases i 2) as [|G]; [lia|]. exfalso. unfold bit in Hi. assert (Z : N.testbit sd (N.of_nat i) = false); [|congruence]. apply N.bits_above_log2. destruct Hsd as [-> | ->]; cbn; lia. }
  destruct (Z.eq_dec (rb_nelec w) 1) as [E|E].
  - exists 3%N. split; [rewrite E; cbn; lia|]. apply (C69_default ne ns B L os w 3%N H Ho Hn E0 N2); [discriminate|apply W; auto].
  - exists 1%N. split; [cbn; lia|]. apply (C69_default ne ns B L os w 1%N H Ho Hn E0 N2); [discriminate|apply W; auto].
Qed.

Lemma scale_overlap : forall (w : rbm K) s c sd, shaped w -> rb_scale w = Some s -> sd <> 0%N -> within (rb_n w) sd -> exists v, rb_overlap ex w sd = Ok v /\
  rb_overlap ex (mkrbm (rb_nelec w) (rb_nspin w) (rb_nbath w) (rb_orders w) (rb_layers w) (Some (s * c)) (rb_template w) (rb_params w) (rb_pspace w)) sd = Ok (prodf (fun _ : nat => c) (seq 0 (rb_nbath w)) * v).
Proof.
  intros w s c sd H Hs V1 V2. rewrite (overlap_ok ex w sd s) by auto. eexists. split; [reflexivity|]. rewrite (overlap_ok ex _ sd (s * c)) by auto. f_equal. cbn [rb_nbath rb_n]. change (deeper (mkrbm _ _ _ _ _ _ _ _ _)) with (deeper w). change (v0 ex (mkrbm _ _ _ _ _ _ _ _ _) sd (zipped (mkrbm _ _ _ _ _ _ _ _ _))) with (v0 ex w sd (zipped w)).
  rewrite <- prodf_mul. apply prodf_ext. intros j _. ring.
Qed.
(** After normalization the squares of the overlaps sum to one. *)
Theorem C69_normalize : forall (w : rbm K) s root pspace norm, shaped w -> rb_scale w = Some s -> (0 < rb_nbath w)%nat -> pspace <> [] -> (forall sd, In sd pspace -> sd <> 0%N /\ within (rb_n w) sd) ->
  rb_norm ex w pspace = Ok norm -> prodf (fun _ : nat => root norm (rb_nbath w) * root norm (rb_nbath w)) (seq 0 (rb_nbath w)) * norm = 1 ->
  exists u, rb_normalize ex root w (Some pspace) = Ok u /\ rb_flat u = rb_flat w /\ rb_norm ex u pspace = Ok 1 /\
    forall sd, In sd pspace -> exists v, rb_overlap ex w sd = Ok v /\ rb_overlap ex u sd = Ok (prodf (fun _ : nat => root norm (rb_nbath w)) (seq 0 (rb_nbath w)) * v).
Proof.
  intros w s root pspace norm H Hs HB Np Hv En Er. unfold rb_normalize. rewrite En. cbn [bind]. rewrite Hs. destruct (Nat.eqb_spec (length (rb_sizes w)) 0) as [E|_]; [destruct H as (_ & _ & H); destruct (rb_sizes w); [congruence|discriminate]|].
  destruct (Nat.eqb_spec (length pspace) 0) as [E|_]; [destruct pspace; [congruence|discriminate]|]. destruct (Nat.eqb_spec (rb_nbath w) 0); [lia|]. cbn [orb]. eexists. split; [reflexivity|]. split; [reflexivity|].
  set (u := mkrbm _ _ _ _ _ _ _ _ _). set (c := root norm (rb_nbath w)) in *. set (P := prodf (fun _ : nat => c) (seq 0 (rb_nbath w))).
  assert (O : forall sd, In sd pspace -> exists v, rb_overlap ex w sd = Ok v /\ rb_overlap ex u sd = Ok (P * v)) by (intros sd I; destruct (Hv sd I); apply (scale_overlap w s c sd); auto). split; [|exact O].
  assert (PP : P * P * norm = 1) by (rewrite <- Er; f_equal; unfold P; symmetry; apply prodf_mul).
  rewrite <- PP. clear PP Er Hv Np. clearbody P u. clear -O En. unfold rb_norm in *. revert norm En. induction pspace as [|sd l IH]; intros norm En.
  - cbn in *. apply Ok_inj in En. subst norm. f_equal. ring.
  - cbn [mapM] in *. destruct (O sd (or_introl eq_refl)) as (v & E1 & E2). rewrite E1, E2 in *. cbn [bind] in *. destruct (mapM (rb_overlap ex w) l) as [vs|] eqn:El; [|discriminate]. cbn [bind] in *. apply Ok_inj in En. subst norm.
    specialize (IH ltac:(intros; apply O; now right) _ eq_refl). destruct (mapM (rb_overlap ex u) l) as [us|]; [|discriminate]. cbn [bind] in *. apply Ok_inj in IH. f_equal. rewrite !psum_sumf in IH. rewrite !psum_sumf, !sumf_cons, IH. ring.
Qed.
(** normalize() of a new wavefunction divides by zero: the projection space that it sums over by default is empty. *)
Theorem C69_normalize_empty_refuted : forall ne ns B L os (w : rbm K) root, new_rbm ne ns B L os RNone = Ok w -> (os <> [] \/ (1 < L)%nat) -> rb_normalize ex root w None = Err ZeroDivisionError.
Proof.
  intros ne ns B L os w root H Hn. destruct (C69_constructor _ _ _ _ _ RNone _ ltac:(discriminate) H) as (_ & _ & _ & _ & _ & _ & E1 & E2 & _ & Sc & _). assert (Ep : rb_pspace w = []).
  { unfold new_rbm in H. destruct (assign_nelec CIGeneral ne); [|discriminate]. cbn [bind] in H. destruct (assign_nspin ns); [|discriminate]. cbn in H. apply Ok_inj in H. now subst w. }
  unfold rb_normalize. rewrite Ep. cbn [rb_norm mapM bind length]. rewrite Sc. destruct (Nat.eqb_spec (length (rb_sizes w)) 0) as [E|_]; [|reflexivity]. exfalso. unfold rb_sizes in E. rewrite app_length, map_length, repeat_length, E1, E2 in E. destruct Hn as [Hn|Hn]; [destruct os; [congruence|cbn in E; lia]|lia].
Qed.
(** Resetting the parameters does not undo the scale of a normalization. *)
Theorem C69_reset_refuted : forall (w : rbm K) root pspace u t, rb_template w = Some t -> rb_normalize ex root w pspace = Ok u ->
  exists v, rb_assign_params u RNone = Ok v /\ rb_params v = t /\ rb_scale v = rb_scale u /\ exists s norm, rb_scale w = Some s /\ rb_scale v = Some (s * root norm (rb_nbath w)).
Proof.
  intros w root pspace u t Ht N. unfold rb_normalize in N. destruct (rb_norm ex w _) as [norm|]; [|discriminate]. cbn [bind] in N. destruct (rb_scale w) as [s|]; [|discriminate]. destruct (Nat.eqb _ 0); [discriminate|]. destruct (_ || _)%bool; [discriminate|]. apply Ok_inj in N. subst u.
  cbn [rb_assign_params rb_template]. rewrite Ht. eexists. split; [reflexivity|]. cbn. split; [reflexivity|]. split; [reflexivity|]. exists s, norm. split; reflexivity.
Qed.
End C69.

(** ** real weights and the exponential function *)
From Coq Require Import Reals Lra.
From Verif Require Import EqnReal.
Local Open Scope R_scope.
Definition rexp : R_field -> R_field := exp.
(** norm ** (-0.5 / B) *)
Definition rroot (norm : R_field) (B : nat) : R_field := Rpower norm (- (1 / 2) / INR B).
Lemma rexp_der : forall f x g, real_der f x g -> real_der (fun y => rexp (f y)) x (rmul (rexp (f x)) g).
Proof. intros f x g H. exact (derivable_pt_lim_comp f exp x g (exp (f x)) H (derivable_pt_lim_exp (f x))). Qed.
Theorem C69_real : forall (w : rbm R_field) s sd ds, shaped w -> rb_scale w = Some s -> (0 < rb_nbath w)%nat -> sd <> 0%N -> within (rb_n w) sd -> (forall d, In d ds -> exists k, selects (length (rb_flat w)) d k) ->
  exists gs, rb_overlap_deriv rexp w sd ds = Ok gs /\
    Forall2 (fun d g => forall k, selects (length (rb_flat w)) d k -> derivable_pt_lim (fun x => okv (K := R_field) (do u <- rb_assign_params w (RArray (upd (rb_flat w) k x)); rb_overlap rexp u sd)) (nth k (rb_flat w) 0) g) ds gs.
Proof. exact (C69_derivative rexp real_der real_calculus rexp_der). Qed.
Lemma prodf_pos : forall {A} (f : A -> R_field) l, (forall a, In a l -> 0 < f a) -> 0 < prodf (K := R_field) f l.
Proof. intros A f. induction l as [|a l IH]; intros H; [exact Rlt_0_1|]. rewrite prodf_cons. apply Rmult_lt_0_compat; [apply H; now left|apply IH; intros; apply H; now right]. Qed.
Lemma deep_pos : forall B Ws (v : nat -> R_field), (forall j, 0 < v j) -> forall j, 0 < deep_out rexp B Ws v j.
Proof. intros B. induction Ws as [|W Ws IH]; intros v H j; [apply H|]. cbn [deep_out]. apply IH. intros i. unfold activation, rexp. cbn [radd rI R_field fring R_ring]. pose proof (exp_pos (rb_contract (K := R_field) W B v i)). lra. Qed.
(** All overlaps of a network with a positive scale are positive. *)
Theorem C69_positive : forall (w : rbm R_field) s sd, shaped w -> rb_scale w = Some s -> 0 < s -> sd <> 0%N -> within (rb_n w) sd -> exists v, rb_overlap rexp w sd = Ok v /\ 0 < v.
Proof.
  intros w s sd H Hs Ps V1 V2. rewrite (overlap_ok rexp w sd s) by auto. eexists. split; [reflexivity|]. apply prodf_pos. intros j _. apply Rmult_lt_0_compat; [|exact Ps]. apply deep_pos. intros i. unfold v0, activation, rexp. cbn [radd rI R_field fring R_ring]. pose proof (exp_pos (flin w sd (zipped w) i)). lra.
Qed.
Lemma prodf_const_pow : forall (c : R_field) B, prodf (K := R_field) (fun _ : nat => c) (seq 0 B) = c ^ B.
Proof. intros c B. generalize 0%nat. induction B as [|B IH]; intros a; [reflexivity|]. cbn [seq]. rewrite prodf_cons, IH. reflexivity. Qed.
Theorem C69_normalize_real : forall (w : rbm R_field) s pspace, shaped w -> rb_scale w = Some s -> 0 < s -> (0 < rb_nbath w)%nat -> pspace <> [] -> (forall sd, In sd pspace -> sd <> 0%N /\ within (rb_n w) sd) ->
  exists u c, rb_normalize rexp rroot w (Some pspace) = Ok u /\ rb_flat u = rb_flat w /\ rb_norm rexp u pspace = Ok 1 /\ 0 < c /\ forall sd, In sd pspace -> exists v, rb_overlap rexp w sd = Ok v /\ rb_overlap rexp u sd = Ok (c * v).
Proof.
  intros w s pspace H Hs Ps HB Np Hv. assert (N : exists norm, rb_norm rexp w pspace = Ok norm /\ 0 < norm).
  { unfold rb_norm. assert (G : forall l, (forall sd, In sd l -> sd <> 0%N /\ within (rb_n w) sd) -> exists vs, mapM (rb_overlap rexp w) l = Ok vs /\ length vs = length l /\ forall v, In v vs -> 0 < v).
    { induction l as [|sd l IH]; intros V; [exists []; repeat split; intros v []|]. destruct (V sd (or_introl eq_refl)) as (V1 & V2). destruct (C69_positive w s sd H Hs Ps V1 V2) as (v & E & Pv). destruct IH as (vs & E1 & E2 & E3); [intros; apply V; now right|].
      exists (v :: vs). cbn [mapM]. rewrite E. cbn [bind]. rewrite E1. split; [reflexivity|]. split; [exact (f_equal S E2)|]. intros x [<-|Hx]; auto. }
    destruct (G pspace Hv) as (vs & E1 & E2 & E3). rewrite E1. cbn [bind]. eexists. split; [reflexivity|]. rewrite psum_sumf. assert (Nv : vs <> []) by (intros ->; destruct pspace; [congruence|discriminate]).
    clear -E3 Nv. induction vs as [|v vs IH]; [congruence|]. rewrite sumf_cons. cbn [radd rmul R_field fring R_ring]. assert (0 < v * v) by (apply Rmult_lt_0_compat; apply E3; now left).
    destruct vs as [|x vs]; [cbn [sumf map fold_right]; unfold sumf; cbn; lra|]. assert (0 < sumf (K := R_field) (fun x : R_field => rmul x x) (x :: vs)) by (apply IH; [intros; apply E3; now right|discriminate]). cbn [rmul R_field fring R_ring] in *. lra. }
  destruct N as (norm & En & Pn). assert (PB : 0 < INR (rb_nbath w)) by (now apply lt_0_INR).
  destruct (C69_normalize rexp w s rroot pspace norm H Hs HB Np Hv En) as (u & E1 & E2 & E3 & E4).
  - rewrite (prodf_const_pow (rroot norm (rb_nbath w) * rroot norm (rb_nbath w))). unfold rroot. rewrite <- Rpower_plus, <- Rpower_pow by apply exp_pos. rewrite Rpower_mult.
    replace ((- (1 / 2) / INR (rb_nbath w) + - (1 / 2) / INR (rb_nbath w)) * INR (rb_nbath w)) with (- (1)) by (field; lra). cbn [rmul rI R_field fring R_ring]. rewrite Rpower_Ropp, Rpower_1 by auto. apply Rinv_l. lra.
  - exists u, (prodf (K := R_field) (fun _ : nat => rroot norm (rb_nbath w)) (seq 0 (rb_nbath w))). split; [exact E1|]. split; [exact E2|]. split; [exact E3|]. split; [apply prodf_pos; intros; apply exp_pos|exact E4].
Qed.

Local Open Scope Z_scope.
Print Assumptions C69_assign.
Print Assumptions C69_nparams.
Print Assumptions C69_constructor.
Print Assumptions C69_errors.
Print Assumptions C69_shaped.
Print Assumptions C69_overlap.
Print Assumptions C69_network.
Print Assumptions C69_other.
Print Assumptions C69_scale_refuted.
Print Assumptions C69_derivative.
Print Assumptions C69_derivative_outside.
Print Assumptions C69_overlaps.
Print Assumptions C69_ragged_refuted.
Print Assumptions C69_axes_refuted.
Print Assumptions C69_default.
Print Assumptions C69_electrons_refuted.
Print Assumptions C69_normalize.
Print Assumptions C69_normalize_empty_refuted.
Print Assumptions C69_reset_refuted.
Print Assumptions C69_real.
Print Assumptions C69_positive.
Print Assumptions C69_normalize_real.

(** Two units, one layer: the eight weights determine the overlap; a ninth is ignored and seven are refused. *)
Example C69_example_overlap : rb_val 2 4 2 1 [1%nat] 8 3 = Ok (841, 1024%positive) /\ rb_val 2 4 2 1 [1%nat] 9 3 = Ok (841, 1024%positive) /\ rb_val 2 4 2 1 [1%nat] 7 3 = Err ValueError.
Proof. vm_compute. repeat split. Qed.
(** Two layers, orders one and two: 44 weights. *)
Example C69_example_deep : rb_val 2 4 2 2 [1%nat; 2%nat] 44 5 = Ok (132471551253397693, 64%positive) /\ rb_val 2 4 2 2 [1%nat; 2%nat] 44 0 = Err IndexError /\ rb_val 2 4 2 2 [1%nat; 2%nat] 44 16 = Err IndexError.
Proof. vm_compute. repeat split. Qed.
Example C69_example_grad : rb_grad 2 4 2 2 [1%nat; 2%nat] 44 5 [0; 8; 40; -1; 43] = Ok [(670438513525548113577, 64%positive); (670438513525548113577, 64%positive); (16029057517166814681, 32%positive); (37224505511587583529, 16%positive); (37224505511587583529, 16%positive)] /\
  rb_grad 2 4 2 2 [1%nat; 2%nat] 44 5 [0; 44] = Err IndexError.
Proof. vm_compute. repeat split. Qed.
Example C69_example_overlaps : rb_vals 2 4 2 2 [1%nat; 2%nat] 44 [5; 3; 6]%N = Ok [(132471551253397693, 64%positive); (51509329, 67108864%positive); (57896881, 67108864%positive)] /\
  rb_vals 2 4 2 2 [2%nat; 1%nat] 44 [5]%N = Err IndexError /\ rb_val 2 4 2 2 [2%nat; 1%nat] 44 5 = Ok (417824612441675149, 64%positive) /\ rb_vals 2 4 2 2 [1%nat; 2%nat] 44 [5; 1]%N = Err ValueError.
Proof. vm_compute. repeat split. Qed.
Example C69_example_grads : rb_grads 2 4 2 2 [1%nat; 2%nat] 44 [5; 3; 6]%N [0; 8; 40; -1] =
  Ok [[(670438513525548113577, 64%positive); (670438513525548113577, 64%positive); (16029057517166814681, 32%positive); (37224505511587583529, 16%positive)];
      [(6036668001, 1073741824%positive); (6036668001, 1073741824%positive); (641257773, 1073741824%positive); (641257773, 1073741824%positive)];
      [(0, 1%positive); (0, 1%positive); (1416712101, 1073741824%positive); (1416712101, 1073741824%positive)]].
Proof. vm_compute. reflexivity. Qed.
Example C69_example_default : rb_default 2 4 2 3 [1%nat; 2%nat] 7 = Ok (1, 1%positive) /\ rb_given (rb_weights 8) 3 = Err AttributeError.
Proof. vm_compute. repeat split. Qed.
