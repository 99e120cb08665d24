(** Property C65: geminals with a rank-two coefficient matrix (APr2G) *)
From Coq Require Import List ZArith NArith Arith Bool Lia Permutation Sorted Ring_theory.
From Verif Require Import Py Slater BitSpec BitLemmas SlaterBits Combos Alg MathTools SdLemmas PermSpec PermLemmas RyserLemmas BorchardtLemmas
  HamLemmas BicliqueLemmas BicliqueMain Graphs WfnCI CILemmas Geminal GemPairs GemSpec GemMain GemSchemes GemOlp GemWf GemFinal P_Permanent MpsLemmas EqnSpec EqnLemmas
  Cache CacheSpec CacheLemmas WfnCached P_Cache MatchSpec MatchLemmas P_CI P_Geminal Rank2 Rank2Spec Rank2Lemmas Rank2Main Rank2Values Rank2Ex.
Import ListNotations.
Local Open Scope nat_scope.

Section C65.
Context {K : CField}.
Local Open Scope cr_scope.
Add Ring K_ring103 : (rth K).
Implicit Types (small : K -> bool) (lstsq : list (list K) -> list K -> list K) (far : K -> nat -> bool).
(** Which arrays of parameters the constructor accepts, and the attributes of the result. *)
Theorem C65_constructor : forall small lstsq far nelec nspin ngem o l (w : gem K),
  new_r2 small lstsq far nelec nspin ngem o (RArray l) = Ok w <->
  (0 < nelec /\ nelec mod 2 = 0 /\ 0 < nspin /\ nspin mod 2 = 0)%Z /\
  exists n pairs, n = match ngem with None => (nelec / 2)%Z | Some n => n end /\ (nelec / 2 <= n)%Z /\
    assign_orbpairs GAPIG nspin o = Ok pairs /\ w = mkgem GAPIG nelec nspin (Z.to_nat n) pairs l /\
    (forall x y, In x (firstn (Z.to_nat n) l) -> In y (firstn (length pairs) (skipn (Z.to_nat n) l)) -> small (x - y) = false).
Proof.
  intros small lstsq far nelec nspin ngem o l w. unfold new_r2, gem_assign_nelec, assign_nspin, gem_assign_ngem.
  pose proof (Z.mod_pos_bound nspin 2 ltac:(lia)) as Bm.
  destruct (Z.leb_spec nelec 0) as [H1|H1]; cbn [bind]; [split; [discriminate|intros ((?&_)&_); lia]|].
  destruct (Z.eqb_spec (nelec mod 2) 0) as [H2|H2]; cbn [bind negb]; [|split; [discriminate|intros ((_&?&_)&_); lia]].
  destruct (Z.leb_spec nspin 0) as [H3|H3]; cbn [bind]; [split; [discriminate|intros ((_&_&?&_)&_); lia]|].
  destruct (Z.eqb_spec (nspin mod 2) 1) as [H4|H4]; cbn [bind]; [split; [discriminate|intros ((_&_&_&?)&_); lia]|].
  set (n := match ngem with None => (nelec / 2)%Z | Some n => n end).
  destruct (Z.ltb_spec n (nelec / 2)) as [H5|H5]; cbn [bind]; [split; [discriminate|intros (_ & n' & q & -> & ? & _); lia]|].
  destruct (assign_orbpairs GAPIG nspin o) as [pairs|] eqn:Ep; cbn [bind]; [|split; [discriminate|intros (_ & n' & q & _ & _ & ? & _); discriminate]].
  set (w0 := mkgem GAPIG nelec nspin (Z.to_nat n) pairs l).
  change (r2_assign small lstsq far (mkgem GAPIG nelec nspin (Z.to_nat n) pairs []) (RArray l)) with (w0, if r2_singular small w0 then Err ValueError else Ok tt).
  assert (S : r2_singular small w0 = false <-> forall x y, In x (firstn (Z.to_nat n) l) -> In y (firstn (length pairs) (skipn (Z.to_nat n) l)) -> small (x - y) = false).
  { unfold r2_singular, r2_lambdas, r2_epsilons, norbpair, w0. cbn [gm_ngem gm_pairs gm_params]. split.
    - intros S x y Hx Hy. destruct (small (x - y)) eqn:Es; auto. exfalso. rewrite <- not_true_iff_false in S. apply S. apply existsb_exists. exists x. split; auto. apply existsb_exists. exists y. auto.
    - intros S. apply not_true_iff_false. intros T. apply existsb_exists in T as (x & Hx & T). apply existsb_exists in T as (y & Hy & T). rewrite (S x y) in T by auto. discriminate. }
  destruct (r2_singular small w0) eqn:Es; cbn [bind].
  - split; [discriminate|]. intros (_ & n' & q & -> & _ & E & _ & C). injection E as <-. apply S in C. discriminate.
  - split.
    + intros E. injection E as <-. split; [repeat split; auto; lia|]. exists n, pairs. repeat split; auto. now apply S.
    + intros (_ & n' & q & -> & _ & E & -> & C). injection E as <-. reflexivity.
Qed.
(** Parameters of another geminal wavefunction are refused. *)
Theorem C65_copy : forall small lstsq far nelec nspin ngem o (w : gem K), new_r2 small lstsq far nelec nspin ngem o RGem <> Ok w.
Proof.
  intros small lstsq far nelec nspin ngem o w. unfold new_r2. destruct (gem_assign_nelec nelec); [|discriminate]. cbn [bind]. destruct (assign_nspin nspin); [|discriminate]. cbn [bind].
  destruct (gem_assign_ngem _ _); [|discriminate]. cbn [bind]. destruct (assign_orbpairs _ _ _); discriminate.
Qed.
(** The matrix of coefficients. *)
Theorem C65_fullrank : forall w : gem K, length (gm_params w) = (gm_ngem w + norbpair w + norbpair w)%nat ->
  r2_fullrank w = Ok (map (fun i => map (rank2 (gm_ngem w) (norbpair w) (gm_params w) i) (seq 0 (norbpair w))) (seq 0 (gm_ngem w))).
Proof.
  intros w L. unfold r2_fullrank.
  assert (Lz : length (r2_zetas w) = norbpair w) by (unfold r2_zetas; rewrite skipn_length; lia).
  assert (Le : length (r2_epsilons w) = norbpair w) by (unfold r2_epsilons; rewrite firstn_length, skipn_length; lia).
  assert (Ll : length (r2_lambdas w) = gm_ngem w) by (unfold r2_lambdas; rewrite firstn_length; lia).
  unfold broadcast. rewrite Lz, Le, Nat.eqb_refl. cbn [bind]. f_equal.
  transitivity (map (fun l => map (fun j => bget (r2_zetas w) j * finv (l - bget (r2_epsilons w) j)) (seq 0 (norbpair w))) (map (fun i => nth i (r2_lambdas w) 0) (seq 0 (gm_ngem w)))).
  { f_equal. rewrite <- Ll. clear. induction (r2_lambdas w) as [|x l IH]; [reflexivity|]. cbn [length seq map nth]. f_equal. rewrite <- seq_shift, map_map. exact IH. }
  rewrite map_map. apply map_ext_in. intros i Hi. apply in_seq in Hi. apply map_ext_in. intros j Hj. apply in_seq in Hj.
  assert (B : forall l : list K, length l = norbpair w -> bget l j = nth j l 0).
  { intros l Hl. unfold bget. destruct (Nat.eqb_spec (length l) 1); [replace j with 0%nat by lia|]; reflexivity. }
  rewrite !B by auto. unfold rank2. rewrite zet_nth, eps_nth, lam_nth by lia. reflexivity.
Qed.
Lemma flat_concat : forall ngem norb (p : list K), concat (map (fun i => map (rank2 ngem norb p i) (seq 0 norb)) (seq 0 ngem)) = full_params ngem norb p.
Proof. intros. unfold full_params. now rewrite flat_map_concat_map. Qed.
(** The overlaps are those of the APIG wavefunction with the full matrix, errors included. *)
Theorem C65_apig : forall small lstsq far nelec nspin ngem o ps (w : gem K), char_zero K ->
  new_r2 small lstsq far nelec nspin ngem o ps = Ok w -> admissible (gm_ngem w) (norbpair w) (gm_params w) ->
  exists M g, r2_fullrank w = Ok M /\ new_gem GAPIG nelec nspin ngem o (PArray (concat M)) = Ok g /\ forall sd, r2_overlap w sd = gem_overlap g sd.
Proof.
  intros small lstsq far nelec nspin ngem o ps w Ch E A. destruct (new_r2_inv _ _ _ _ _ _ _ _ _ E) as (_ & _ & _ & _ & G).
  eexists _, (full w). split; [apply C65_fullrank, (ad_len _ _ _ A)|]. rewrite flat_concat. split; [exact G|]. intros sd.
  unfold r2_overlap, gem_overlap. change (gem_schemes (full w) sd) with (gem_schemes w sd).
  destruct (gem_schemes w sd) as [L|] eqn:Es; [|reflexivity]. cbn [bind]. apply r2_loop_full; auto; [eapply new_gem_wf; eauto|].
  intros q Hq. pose proof (scheme_facts _ _ _ _ _ _ (full w) sd L G Es q Hq) as (S1 & S2 & _). auto.
Qed.
(** The overlap is the coefficient of the determinant in the antisymmetrised product of the geminals. *)
Theorem C65_overlap : forall small lstsq far nelec nspin ngem o ps (w : gem K) C sd h, char_zero K ->
  new_r2 small lstsq far nelec nspin ngem o ps = Ok w -> admissible (gm_ngem w) (norbpair w) (gm_params w) ->
  (forall r i p, (r < gm_ngem w)%nat -> nth_error (gm_pairs w) i = Some p -> C r p = rank2 (gm_ngem w) (norbpair w) (gm_params w) r i) ->
  nelec = Z.of_nat (2 * h) -> has_electrons sd (2 * h) ->
  r2_overlap w sd = Ok ((if Nat.odd h then ropp 1 else 1) * antisymmetrised (gm_pairs w) C (gm_ngem w) h sd).
Proof.
  intros small lstsq far nelec nspin ngem o ps w C sd h Ch E A HC Hn He. destruct (new_r2_inv _ _ _ _ _ _ _ _ _ E) as (_ & _ & _ & _ & G).
  transitivity (gem_overlap (full w) sd).
  - destruct (C65_apig _ _ _ _ _ _ _ _ _ Ch E A) as (M & g & EM & Eg & V). rewrite V. rewrite C65_fullrank in EM by apply (ad_len _ _ _ A). injection EM as <-. rewrite flat_concat, G in Eg. now injection Eg as <-.
  - apply (C43_overlap GAPIG _ _ _ _ _ (full w) C sd h Ch G); auto. intros r i p Hr Hp. change (gm_pairs (full w)) with (gm_pairs w) in *. rewrite (HC r i p) by auto.
    symmetry. apply full_entry; auto. apply nth_error_Some. congruence.
Qed.
(** A determinant with another number of electrons is refused. *)
Theorem C65_electrons : forall small lstsq far nelec nspin ngem o ps (w : gem K) sd k ds, new_r2 small lstsq far nelec nspin ngem o ps = Ok w ->
  has_electrons sd k -> nelec <> Z.of_nat k -> r2_overlap w sd = Err ValueError /\ r2_overlap_deriv w sd ds = Err ValueError.
Proof.
  intros small lstsq far nelec nspin ngem o ps w sd k ds E He Nk. destruct (new_r2_inv _ _ _ _ _ _ _ _ _ E) as (Ec & En & _). apply zocc_length in He.
  assert (X : gem_schemes w sd = Err ValueError).
  { unfold gem_schemes. rewrite Ec. cbn [schemes]. unfold apig_schemes. rewrite He, En. destruct (Z.eqb_spec (Z.of_nat k) nelec); [congruence|reflexivity]. }
  unfold r2_overlap, r2_overlap_deriv, r2_dolp. rewrite X. split; reflexivity.
Qed.
(** the schemes of a determinant with the right number of electrons *)
Lemma r2_schemes : forall small lstsq far nelec nspin ngem o ps (w : gem K) sd h, char_zero K ->
  new_r2 small lstsq far nelec nspin ngem o ps = Ok w -> nelec = Z.of_nat (2 * h) -> has_electrons sd (2 * h) ->
  exists L, gem_schemes w sd = Ok L /\ nice_list L /\ (forall q, In q L -> incl (fst q) (gm_pairs w)) /\ (forall q, In q L -> fst q <> [] -> length (fst q) = h).
Proof.
  intros small lstsq far nelec nspin ngem o ps w sd h Ch E Hn He. destruct (new_r2_inv _ _ _ _ _ _ _ _ _ E) as (_ & _ & _ & _ & G).
  pose proof (new_gem_wf _ _ _ _ _ _ _ G) as W.
  set (C := fun (r : nat) (p : Z * Z) => match pair_index p (gm_pairs w) with Some i => rank2 (gm_ngem w) (norbpair w) (gm_params w) r i | None => 0 end).
  assert (HC : coefficients (full w) C).
  { intros r i p Hr Hp. unfold C. change (gm_pairs (full w)) with (gm_pairs w) in *. assert (X : pair_index p (gm_pairs w) = Some i) by (apply pair_index_spec; auto; apply (wf_nodup _ W)). rewrite X. symmetry. apply full_entry; auto. apply nth_error_Some. congruence. }
  pose proof (C43_overlap GAPIG _ _ _ _ _ (full w) C sd h Ch G HC Hn He (or_introl eq_refl)) as V.
  unfold gem_overlap in V. change (gem_schemes (full w) sd) with (gem_schemes w sd) in V. destruct (gem_schemes w sd) as [L|] eqn:Es; [|discriminate]. cbn [bind] in V.
  exists L. split; auto. pose proof (scheme_facts _ _ _ _ _ _ (full w) sd L G Es) as SF.
  assert (NL : nice_list L). { intros q Hq. destruct (SF q Hq) as (S1 & S2 & _). auto. }
  split; auto. split.
  - intros q Hq. apply (olp_loop_good (full w) L 0 _ W NL V q Hq).
  - intros q Hq Nq. destruct (SF q Hq) as (_ & _ & P). apply P, Permutation_length in Nq. rewrite flat_length in Nq. apply zocc_length in He. lia.
Qed.
(** The derivatives.  Parameter k is lambda_k for k below the number of geminals, and the derivatives with respect to the
    lambdas after the first h = nelec / 2 are excepted; for one pair of electrons there has to be one geminal. *)
Theorem C65_derivative : forall Der, calculus Der -> local Der -> forall small lstsq far nelec nspin ngem o ps (w : gem K) sd h, char_zero K ->
  new_r2 small lstsq far nelec nspin ngem o ps = Ok w -> admissible (gm_ngem w) (norbpair w) (gm_params w) ->
  nelec = Z.of_nat (2 * h) -> has_electrons sd (2 * h) -> (h = 1%nat -> gm_ngem w = 1%nat) ->
  exists D, length D = length (gm_params w) /\
    (forall k, (k < length (gm_params w))%nat -> ~ (h <= k < gm_ngem w)%nat ->
       Der (fun x => okv (r2_overlap (with_entry w k x) sd)) (nth k (gm_params w) 0) (nth k D 0)) /\
    (forall ds ks, Forall2 (selects (length (gm_params w))) ds ks -> r2_overlap_deriv w sd ds = Ok (map (fun k => nth k D 0) ks)) /\
    (forall ds d, In d ds -> ~ (- Z.of_nat (length (gm_params w)) <= d < Z.of_nat (length (gm_params w)))%Z -> r2_overlap_deriv w sd ds = Err IndexError).
Proof.
  intros Der cal loc small lstsq far nelec nspin ngem o ps w sd h Ch E A Hn He H1.
  destruct (r2_schemes _ _ _ _ _ _ _ _ _ _ _ Ch E Hn He) as (L & Es & NL & IL & LL).
  destruct (new_r2_inv _ _ _ _ _ _ _ _ _ E) as (_ & En & _ & (h' & Hh & Eh & Hg) & G). pose proof (new_gem_wf _ _ _ _ _ _ _ G) as W. assert (h' = h) by lia. subst h'.
  destruct (r2_dloop_value w W A h L (zeros (length (gm_params w)))) as (D & ED & LD & VD); auto.
  { congruence. }
  { intros q Hq Nq. rewrite (LL q Hq Nq). unfold minor_ok. split; [intros X; lia|auto]. }
  { apply repeat_length. }
  unfold zeros in LD. rewrite repeat_length in LD. exists D. split; [auto|]. split.
  - intros k Hk Nk. rewrite VD by auto. eapply der_eq.
    + apply (cal_ext Der cal (fun x => okv (r2_olp_loop (with_entry w k x) L 0))).
      * intros x. unfold r2_overlap. change (gem_schemes (with_entry w k x) sd) with (gem_schemes w sd). rewrite Es. reflexivity.
      * apply (r2_derivative Der cal loc w h L k); auto.
    + unfold zeros. rewrite nth_repeat. ring.
  - unfold r2_overlap_deriv, r2_dolp. rewrite Es. cbn [bind]. rewrite ED. cbn [bind]. split.
    + intros ds ks F. induction F as [|d k ds ks H F IH]; cbn [mapM map]; auto. apply np_index_ok in H. rewrite H. cbn [bind]. rewrite IH. reflexivity.
    + intros ds d Hd Nd. set (f := fun d => _). destruct (mapM f ds) as [l|e] eqn:Em.
      * destruct (mapM_all f ds l Em d Hd) as [y Ey]. unfold f in Ey. destruct (np_index (length (gm_params w)) d) eqn:Eni; [|discriminate].
        apply np_index_ok in Eni as (Q & [B|B]); lia.
      * apply mapM_kind in Em as (x & _ & Ex). unfold f, np_index in Ex. destruct (_ && _)%bool; cbn in Ex; congruence.
Qed.
(** Findings.  With more geminals than pairs of electrons, what is returned as derivative with respect to lambda_k, k from
    nelec / 2, is the derivative with respect to a zeta ([deriv < self.npair] where self.ngem is meant). *)
Theorem C65_extra_refuted : forall small lstsq far nelec nspin ngem o ps (w : gem K) sd h k, char_zero K ->
  new_r2 small lstsq far nelec nspin ngem o ps = Ok w -> admissible (gm_ngem w) (norbpair w) (gm_params w) ->
  nelec = Z.of_nat (2 * h) -> has_electrons sd (2 * h) -> (2 <= h <= k)%nat -> (k < gm_ngem w)%nat ->
  r2_overlap_deriv w sd [Z.of_nat k] = r2_overlap_deriv w sd [Z.of_nat (gm_ngem w + norbpair w) + (Z.of_nat k - Z.of_nat (gm_ngem w)) mod Z.of_nat (norbpair w)]%Z.
Proof.
  intros small lstsq far nelec nspin ngem o ps w sd h k Ch E A Hn He Hk Kg.
  destruct (r2_schemes _ _ _ _ _ _ _ _ _ _ _ Ch E Hn He) as (L & Es & NL & IL & LL).
  destruct (new_r2_inv _ _ _ _ _ _ _ _ _ E) as (_ & En & Ens & (h' & Hh & Eh & Hg) & G). pose proof (new_gem_wf _ _ _ _ _ _ _ G) as W. assert (h' = h) by lia. subst h'.
  destruct (r2_dloop_value w W A h L (zeros (length (gm_params w)))) as (D & ED & LD & VD); auto.
  { congruence. }
  { intros q Hq Nq. rewrite (LL q Hq Nq). unfold minor_ok. lia. }
  { apply repeat_length. }
  unfold zeros in LD. rewrite repeat_length in LD. pose proof (ad_len _ _ _ A) as Lp.
  assert (Nb : (0 < norbpair w)%nat).
  { pose proof (new_gem_inv _ _ _ _ _ _ _ G) as (_ & _ & _ & _ & (c & Hc & Ec) & Eo & _). change (gm_pairs (full w)) with (gm_pairs w) in Eo. unfold norbpair.
    destruct (gm_pairs w); [|cbn; lia]. exfalso. cbn [assign_orbpairs] in Eo. unfold apig_assign_orbpairs in Eo. destruct (base_assign_orbpairs _ _) as [l|]; [|discriminate]. cbn [bind] in Eo.
    destruct (negb (no_dup _)); [discriminate|]. destruct (Z.eqb_spec (Z.of_nat (length (pair_orbs l))) nspin) as [X|X]; [|discriminate]. cbn [negb] in Eo. injection Eo as ->. cbn in X. lia. }
  pose proof (Z.mod_pos_bound (Z.of_nat k - Z.of_nat (gm_ngem w)) (Z.of_nat (norbpair w)) ltac:(lia)) as Bm.
  set (m := ((Z.of_nat k - Z.of_nat (gm_ngem w)) mod Z.of_nat (norbpair w))%Z) in *.
  set (k' := (gm_ngem w + norbpair w + Z.to_nat m)%nat). replace (Z.of_nat (gm_ngem w + norbpair w) + m)%Z with (Z.of_nat k') by lia.
  unfold r2_overlap_deriv, r2_dolp. rewrite Es. cbn [bind]. rewrite ED. cbn [bind mapM].
  assert (N1 : np_index (length (gm_params w)) (Z.of_nat k) = Ok k) by (apply np_index_ok; unfold selects; lia).
  assert (N2 : np_index (length (gm_params w)) (Z.of_nat k') = Ok k') by (apply np_index_ok; unfold selects; lia).
  rewrite N1, N2. cbn [bind]. rewrite !VD by lia.
  assert (T : target w h k = k'). { unfold target. rewrite (proj2 (Nat.leb_le h k)), (proj2 (Nat.ltb_lt k (gm_ngem w))) by lia. reflexivity. }
  assert (T' : target w h k' = k') by (apply target_same; lia).
  unfold zeros. rewrite !nth_repeat. rewrite (sumf_ext (r2_dterm w h k) (r2_dterm w h k')); [reflexivity|]. intros q _. unfold r2_dterm. now rewrite T, T'.
Qed.
(** Two electrons and more than one geminal: the overlap exists and its derivatives are refused. *)
Theorem C65_single_refuted : forall small lstsq far nspin ngem o ps (w : gem K) sd v ds, new_r2 small lstsq far 2 nspin ngem o ps = Ok w -> (2 <= gm_ngem w)%nat ->
  has_electrons sd 2 -> r2_overlap w sd = Ok v -> v <> 0 -> r2_overlap_deriv w sd ds = Err IndexError.
Proof.
  intros small lstsq far nspin ngem o ps w sd v ds E Hg He EV Nz. apply zocc_length in He.
  destruct (new_r2_inv _ _ _ _ _ _ _ _ _ E) as (_ & En & _ & _ & G). pose proof (new_gem_wf _ _ _ _ _ _ _ G) as W.
  unfold r2_overlap in EV. unfold r2_overlap_deriv, r2_dolp. destruct (gem_schemes w sd) as [L|] eqn:Es; [|discriminate]. cbn [bind] in *.
  pose proof (scheme_facts _ _ _ _ _ _ (full w) sd L G Es) as SF. clear E Es.
  assert (X : forall val out, r2_olp_loop w L val = Ok v -> r2_dolp_loop w L out = Err IndexError \/ v = val).
  { clear EV. induction L as [|[q s] L IH]; intros val out EV; cbn [r2_olp_loop r2_dolp_loop] in *.
    - right. now injection EV.
    - assert (SF' : forall p, In p L -> NoDup (fst p) /\ (forall q, In q (fst p) -> (fst q < snd q)%Z) /\ (fst p <> [] -> Permutation (flat (fst p)) (zocc sd))) by (intros p Hp; apply SF; now right).
      destruct q as [|q1 q]; [now apply IH|]. left. destruct (SF _ (or_introl eq_refl)) as (Nq & Sq & P). cbn [fst] in P, Sq, Nq. assert (Y : q1 :: q <> []) by discriminate.
      apply P, Permutation_length in Y. rewrite flat_length, He in Y. destruct q; cbn in Y; [|lia].
      destruct (cols_of w [q1]) as [cols|] eqn:Ec; [|discriminate]. cbn [bind] in *.
      destruct (scheme_cols w W [q1] cols Sq Nq Ec) as (Hc & Lc & _). destruct cols as [|c [|? ?]]; cbn [length] in Lc; try discriminate.
      destruct (r2_compute w [c] None) as [x|] eqn:E0; [|discriminate]. clear EV.
      assert (Lp : (0 < length (gm_params w))%nat).
      { unfold r2_compute, r2_perm, pick in E0. destruct (mapM (at_ (r2_lambdas w)) (seq 0 (gm_ngem w))) as [ls|] eqn:El; [|discriminate].
        destruct (mapM_all _ _ _ El 0%nat) as [y Ey]; [apply in_seq; lia|]. unfold at_, r2_lambdas in Ey. destruct (gm_params w); [rewrite firstn_nil in Ey; discriminate|cbn; lia]. }
      enough (Z0 : r2_fill w [c] s (r2_indices w [c]) out = Err IndexError) by (rewrite Z0; reflexivity).
      assert (C0 : r2_compute w [c] (Some (Z.of_nat 0)) = Err IndexError).
      { unfold r2_compute. replace ((0 <=? Z.of_nat 0) && (Z.of_nat 0 <? Z.of_nat (length (gm_params w))))%Z with true by (symmetry; apply andb_true_iff; split; [apply Z.leb_le|apply Z.ltb_lt]; lia).
        cbn [negb]. rewrite En. cbn [Z.of_nat Z.to_nat r2_row_loop]. change (((0 <=? 0) && (0 <? 2 / 2))%Z) with true. cbn iota. cbn [r2_row_loop].
        change (other 0 (seq 0 (gm_ngem w))) with (without 0 (seq 0 (gm_ngem w))). change (other c [c]) with (without c [c]).
        assert (L1 : S (length (without 0%nat (seq 0 (gm_ngem w)))) = gm_ngem w) by (rewrite without_length; [apply seq_length|apply in_seq; lia|apply seq_NoDup]).
        rewrite without_cons_eq by (intros []). rewrite seq_length. rewrite (proj2 (Nat.eqb_neq (length (without 0%nat (seq 0 (gm_ngem w)))) (gm_ngem w))) by lia. cbn [orb length Nat.eqb].
        assert (At : forall l i, (exists y : K, at_ l i = Ok y) \/ at_ l i = Err IndexError) by (intros l i; unfold at_; destruct (nth_error l i); eauto).
        destruct (At (r2_zetas w) c) as [[z ->]| ->]; [|reflexivity]. cbn [bind]. destruct (At (r2_lambdas w) 0%nat) as [[l ->]| ->]; [|reflexivity]. cbn [bind].
        destruct (At (r2_epsilons w) c) as [[e ->]| ->]; [|reflexivity]. cbn [bind].
        enough (Z1 : forall d, r2_minor w (without 0 (seq 0 (gm_ngem w))) [] d = Err IndexError) by (rewrite Z1; reflexivity).
        intros d. unfold r2_minor. rewrite (proj2 (Nat.eqb_neq (length (without 0%nat (seq 0 (gm_ngem w)))) 0)) by lia. cbn [andb length Nat.eqb]. unfold r2_perm.
        destruct (pick (r2_lambdas w) (without 0 (seq 0 (gm_ngem w)))) as [ls|e'] eqn:Ep.
        - cbn [bind pick mapM length Nat.eqb]. rewrite orb_true_r. reflexivity.
        - unfold pick in Ep. apply mapM_kind in Ep as (y & _ & Ey). destruct (At (r2_lambdas w) y) as [[z' Q]|Q]; rewrite Q in Ey; [discriminate|]. injection Ey as <-. reflexivity. }
      unfold r2_indices. destruct (gm_ngem w) as [|g] eqn:Eg; [lia|]. cbn [seq app r2_fill]. unfold at_ at 1. destruct (nth_error out 0%nat) as [y|]; [|reflexivity]. cbn [bind].
      rewrite C0. reflexivity. }
  destruct (X 0 (zeros (length (gm_params w))) EV) as [Y|Y]; [now rewrite Y|contradiction].
Qed.
End C65.

Print Assumptions C65_constructor.
Print Assumptions C65_copy.
Print Assumptions C65_fullrank.
Print Assumptions C65_apig.
Print Assumptions C65_overlap.
Print Assumptions C65_electrons.
Print Assumptions C65_derivative.
Print Assumptions C65_extra_refuted.
Print Assumptions C65_single_refuted.
