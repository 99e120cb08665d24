(** C49: matrix product states. *)
From Coq Require Import List ZArith NArith Arith Bool Lia.
From Verif Require Import Py Slater BitSpec BitLemmas SlaterBits2 Alg WfnCI P_Slater1 P_CI Py Mps MpsSpec MpsLemmas MpsMat MpsGrad MpsDefault MpsEx.
Import ListNotations.
Local Open Scope nat_scope.

(** what the constructor makes of its arguments *)
Theorem C49_constructor : forall (R : CRing) nelec nspin dim (P : list R) scale,
  ((0 < nelec)%Z /\ (0 < nspin)%Z /\ Z.Even nspin /\ (match dim with Some d => 0 < d | None => True end)%Z ->
   exists w, new_mps nelec nspin dim (MPArray P) scale = Ok w /\ mp_K w = Z.to_nat (nspin / 2) /\
     mp_dim w = Z.to_nat (match dim with Some d => d | None => nspin end) /\ mp_params w = P) /\
  (~ ((0 < nelec)%Z /\ (0 < nspin)%Z /\ Z.Even nspin /\ (match dim with Some d => 0 < d | None => True end)%Z) ->
   new_mps nelec nspin dim (MPArray P) scale = Err ValueError).
Proof.
  intros R nelec nspin dim P scale. unfold new_mps, assign_nelec, assign_nspin, assign_dimension.
  assert (Ev : (nspin mod 2 = 1)%Z <-> ~ Z.Even nspin).
  { split.
    - intros E [k ->]. rewrite Z.mul_comm, Z.mod_mul in E by lia. discriminate.
    - intros H. pose proof (Z.mod_pos_bound nspin 2 ltac:(lia)). destruct (Z.eq_dec (nspin mod 2) 0) as [E|]; [|lia].
      exfalso. apply H. exists (nspin / 2)%Z. rewrite (Z.div_mod nspin 2) at 1 by lia. lia. }
  split.
  - intros (H1 & H2 & H3 & H4). destruct (Z.leb_spec nelec 0); [lia|]. cbn [bind]. destruct (Z.leb_spec nspin 0); [lia|].
    destruct (Z.eqb_spec (nspin mod 2) 1); [tauto|]. cbn [bind]. destruct dim as [d|].
    + destruct (Z.leb_spec d 0); [lia|]. cbn [bind]. eexists. split; [reflexivity|]. auto.
    + destruct (Z.leb_spec nspin 0); [lia|]. cbn [bind]. eexists. split; [reflexivity|]. auto.
  - intros H. destruct (Z.leb_spec nelec 0) as [|L1]; [reflexivity|]. cbn [bind]. destruct (Z.leb_spec nspin 0) as [|L2]; [reflexivity|].
    destruct (Z.eqb_spec (nspin mod 2) 1) as [|Ne]; [reflexivity|]. cbn [bind].
    assert (Z.Even nspin) by (pose proof (Zeven_ex_iff nspin) as Q; destruct (Z.Even_or_Odd nspin) as [|[k Hk]]; auto; exfalso; apply Ne; rewrite Hk, Z.add_comm, Z.mul_comm, Z.mod_add by lia; reflexivity).
    destruct dim as [d|].
    + destruct (Z.leb_spec d 0); [reflexivity|]. exfalso. apply H. auto.
    + exfalso. apply H. auto.
Qed.
Print Assumptions C49_constructor.

(** the parameters are exactly the entries of the tensors: every list of the right length is such a list, each matrix
    is read back in place, and nothing else is *)
Theorem C49_matrix : forall (R : CRing) (w : mps R), 2 <= mp_K w ->
  (forall P : list R, length P = nparams (mp_K w) (mp_dim w) <-> exists T, P = flatten (mp_K w) (mp_dim w) T) /\
  (forall T, mp_params w = flatten (mp_K w) (mp_dim w) T -> forall i, i < mp_K w ->
     get_matrix w (Z.of_nat i) =
       Ok (flat_map (fun n => flat_map (fun r => map (fun c => T i n r c) (seq 0 (ncols (mp_K w) (mp_dim w) i))) (seq 0 (nrows (mp_dim w) i))) (seq 0 4),
           (4, nrows (mp_dim w) i, ncols (mp_K w) (mp_dim w) i))) /\
  (forall z, ~ (0 <= z < Z.of_nat (mp_K w))%Z -> get_matrix w z = Err ValueError).
Proof.
  intros R w HK. split; [|split].
  - intros P. split.
    + intros E. eexists. apply (flatten_all _ _ P HK E).
    + intros (T & ->). apply flatten_length; auto.
  - intros T E i Hi. assert (HP : length (mp_params w) = nparams (mp_K w) (mp_dim w)) by (rewrite E; apply flatten_length; auto).
    unfold get_matrix. pose proof (msize_end (mp_K w) (mp_dim w) i HK Hi) as B.
    rewrite indices_ok, shape_ok by auto. cbn [bind fst snd size3]. rewrite slice_length by lia.
    unfold msize at 1. rewrite Nat.mul_assoc, Nat.eqb_refl. f_equal. f_equal. apply (nth_ext _ _ (@rO R) (@rO R)).
    + rewrite slice_length by lia. rewrite flat3_length. reflexivity.
    + intros p Hp. rewrite slice_length in Hp by lia. rewrite slice_nth by auto. unfold msize in Hp. rewrite E.
      destruct (inner_split _ _ _ Hp) as (n & r & c & Hn & Hr & Hc & -> & _). rewrite (flat3_nth (T i)) by auto.
      apply (flatten_nth _ _ T i n r c HK). repeat split; auto.
  - intros z Hz. unfold get_matrix, matrix_indices, matrix_shape. replace ((0 <=? z)%Z && (z <? Z.of_nat (mp_K w))%Z)%bool with false; [reflexivity|].
    symmetry. apply andb_false_iff. rewrite Z.leb_gt, Z.ltb_ge. lia.
Qed.
Print Assumptions C49_matrix.

(** decompose_index tells which entry of which tensor a parameter is *)
Theorem C49_decompose : forall K D p i n r c, 2 <= K -> 1 <= D ->
  (decompose_index K D p = Ok (Z.of_nat i, n, r, c) <->
   (0 <= p < Z.of_nat (nparams K D))%Z /\ valid_entry K D i n r c /\
   forall T : nat -> nat -> nat -> nat -> Z_ring, nth (Z.to_nat p) (flatten K D T) 0%Z = T i n r c).
Proof.
  intros K D p i n r c HK HD.
  assert (OK : forall i n r c, valid_entry K D i n r c -> decompose_index K D (Z.of_nat (mpos K D i n r c)) = Ok (Z.of_nat i, n, r, c)).
  { clear - HK HD. intros i n r c V. pose proof V as (Hi & Hn & Hr & Hc). apply decompose_pos; auto. }
  split.
  - intros E. assert (B : (0 <= p < Z.of_nat (nparams K D))%Z).
    { destruct (Z.le_gt_cases 0 p), (Z.lt_ge_cases p (Z.of_nat (nparams K D))); auto; exfalso; rewrite decompose_out in E by (auto; lia); discriminate. }
    split; [exact B|]. destruct (mpos_surj K D (Z.to_nat p) HK ltac:(lia)) as (i' & n' & r' & c' & V & Ep).
    rewrite <- (Z2Nat.id p) in E by lia. rewrite Ep, (OK _ _ _ _ V) in E. injection E as E <- <- <-. apply Nat2Z.inj in E. subst i'.
    split; [exact V|]. intros T. rewrite Ep. apply (flatten_nth (R := Z_ring)); auto.
  - intros (B & V & H). destruct (mpos_surj K D (Z.to_nat p) HK ltac:(lia)) as (i' & n' & r' & c' & V' & Ep).
    rewrite <- (Z2Nat.id p) by lia. rewrite Ep in *. rewrite (OK _ _ _ _ V').
    assert (F : forall T : nat -> nat -> nat -> nat -> Z_ring, T i' n' r' c' = T i n r c).
    { intros T. rewrite <- H. symmetry. apply (flatten_nth (R := Z_ring)); auto. }
    pose proof (F (fun a _ _ _ => Z.of_nat a)) as F1. pose proof (F (fun _ a _ _ => Z.of_nat a)) as F2.
    pose proof (F (fun _ _ a _ => Z.of_nat a)) as F3. pose proof (F (fun _ _ _ a => Z.of_nat a)) as F4.
    apply Nat2Z.inj in F1, F2, F3, F4. subst. reflexivity.
Qed.
Print Assumptions C49_decompose.

Theorem C49_decompose_outside : forall K D p, 2 <= K -> 1 <= D -> ~ (0 <= p < Z.of_nat (nparams K D))%Z -> decompose_index K D p = Err ValueError.
Proof. intros. apply decompose_out; auto; lia. Qed.
Print Assumptions C49_decompose_outside.

(** occupation numbers 0, 1, 2, 3 for empty, alpha, beta, both *)
Theorem C49_occupation : forall (R : CRing) (w : mps R) sd, 1 <= mp_K w ->
  (fits sd (2 * mp_K w) -> occupation_indices w sd = Ok (map (occupation (mp_K w) sd) (seq 0 (mp_K w)))) /\
  (~ fits sd (2 * mp_K w) -> occupation_indices w sd = Err IndexError).
Proof.
  intros R w sd HK. split; [apply occupation_fits; auto|]. intros F.
  destruct (filter (fun i => Nat.leb (2 * mp_K w) i) (occ_indices (Some sd))) as [|i t] eqn:E.
  - exfalso. apply F. intros i Hi. destruct (bit sd i) eqn:B; auto. assert (X : In i []) by (rewrite <- E; apply filter_In; split; [apply SlaterBits.occ_indices_In; auto|apply Nat.leb_le; auto]). destruct X.
  - assert (X : In i (i :: t)) by (left; reflexivity). rewrite <- E in X. apply filter_In in X. destruct X as [X Y].
    apply SlaterBits.occ_indices_In in X. apply Nat.leb_le in Y. apply (occupation_outside w HK sd i); auto.
Qed.
Print Assumptions C49_occupation.

Section Overlap.
Context {R : CRing}.
Local Open Scope cr_scope.
Add Ring K_ring64 : (rth R).
Variable w : mps R.
Hypothesis HK : (2 <= mp_K w)%nat.
Hypothesis HD : (1 <= mp_dim w)%nat.

(** the overlap is the sum over all bond indices of the products of the picked entries *)
Theorem C49_overlap : forall T sd, mp_params w = flatten (mp_K w) (mp_dim w) T ->
  (fits sd (2 * mp_K w) -> mps_overlap w sd = Ok (contraction (mp_K w) (mp_dim w) T sd)) /\
  (~ fits sd (2 * mp_K w) -> mps_overlap w sd = Err IndexError).
Proof.
  intros T sd E. assert (HP : length (mp_params w) = nparams (mp_K w) (mp_dim w)) by (rewrite E; apply flatten_length; auto).
  split; intros F.
  - unfold mps_overlap. set (ns := map (occupation (mp_K w) sd) (seq 0%nat (mp_K w))).
    assert (Hn : length ns = mp_K w) by (unfold ns; rewrite map_length, seq_length; reflexivity).
    assert (H4 : forall i, (i < mp_K w)%nat -> nth i ns 0%nat = occupation (mp_K w) sd i) by (intros; unfold ns; apply nth_map_seq; auto).
    rewrite (olp_chain w HK HD HP ns Hn); [|intros i Hi; rewrite H4 by auto; apply occupation_lt|apply occupation_fits; auto; lia].
    f_equal. rewrite (chain_paths w HK HD HP ns Hn). unfold contraction. apply sumf_ext. intros bs Hbs. unfold amplitude.
    replace (S (mp_K w - 1)) with (mp_K w) by lia. apply prodf_ext. intros i Hi. apply in_seq in Hi. cbn [Nat.add].
    unfold fac, ent. rewrite H4 by lia. rewrite E. apply flatten_nth; auto.
    apply bonds_valid; auto; lia.
  - unfold mps_overlap, mps_olp. rewrite (proj2 (C49_occupation R w sd ltac:(lia)) F). reflexivity.
Qed.

Hypothesis HP : length (mp_params w) = nparams (mp_K w) (mp_dim w).
(** every requested component is the slope of the overlap along that parameter *)
Theorem C49_derivative : forall sd ds ps, fits sd (2 * mp_K w) -> Forall2 (selects (length (mp_params w))) ds ps ->
  exists o gs, mps_overlap w sd = Ok o /\ mps_overlap_deriv w sd ds = Ok gs /\
    Forall2 (fun p g => forall x,
      mps_overlap (mkmps (mp_nelec w) (mp_nspin w) (mp_dim w) (upd (mp_params w) p x)) sd = Ok (o + (x - nth p (mp_params w) 0) * g)) ps gs.
Proof.
  intros sd ds ps F S.
  set (ns := map (occupation (mp_K w) sd) (seq 0%nat (mp_K w))).
  assert (Hn : length ns = mp_K w) by (unfold ns; rewrite map_length, seq_length; reflexivity).
  assert (H4 : forall i, (i < mp_K w)%nat -> (nth i ns 0 < 4)%nat) by (intros; unfold ns; rewrite nth_map_seq by auto; apply occupation_lt).
  assert (Ho : occupation_indices w sd = Ok ns) by (apply occupation_fits; auto; lia).
  destruct (gradient_ok w HK HD HP ns Hn H4 sd Ho) as (out & Eo & Lo & No).
  exists (chain w ns 0 (mp_K w - 1) 0%nat 0%nat), (map (fun p => nth p out 0) ps).
  split; [apply (olp_chain w HK HD HP ns Hn H4); auto|]. split.
  - unfold mps_overlap_deriv. rewrite Eo. cbn [bind]. clear - S. induction S as [|d p ds ps H S IH]; cbn [mapM map]; [reflexivity|].
    apply np_index_ok in H. rewrite H. cbn [bind]. rewrite IH. reflexivity.
  - induction S as [|d p ds ps H S IH]; cbn [map]; constructor; auto. destruct H as [Hp _]. rewrite HP in Hp.
    destruct (mpos_surj _ _ p HK Hp) as (i & n & r & c & V & ->). intros x. unfold mps_overlap.
    change (mkmps (mp_nelec w) (mp_nspin w) (mp_dim w) (upd (mp_params w) (mpos (mp_K w) (mp_dim w) i n r c) x)) with (with_par w (mpos (mp_K w) (mp_dim w) i n r c) x).
    set (w' := with_par w (mpos (mp_K w) (mp_dim w) i n r c) x).
    assert (HP' : length (mp_params w') = nparams (mp_K w') (mp_dim w')) by (cbn; rewrite BicliqueLemmas.upd_length; exact HP).
    rewrite (olp_chain w' HK HD HP' ns Hn H4 sd Ho). f_equal. change (mp_K w') with (mp_K w).
    unfold w'. rewrite (slope_chain w HK HD HP ns Hn H4) by auto. rewrite (No _ _ _ _ V). reflexivity.
Qed.
Theorem C49_derivative_outside : forall sd ds, fits sd (2 * mp_K w) ->
  (exists d, In d ds /\ forall i, ~ selects (length (mp_params w)) d i) -> mps_overlap_deriv w sd ds = Err IndexError.
Proof.
  intros sd ds F X.
  set (ns := map (occupation (mp_K w) sd) (seq 0%nat (mp_K w))).
  assert (Hn : length ns = mp_K w) by (unfold ns; rewrite map_length, seq_length; reflexivity).
  assert (H4 : forall i, (i < mp_K w)%nat -> (nth i ns 0 < 4)%nat) by (intros; unfold ns; rewrite nth_map_seq by auto; apply occupation_lt).
  assert (Ho : occupation_indices w sd = Ok ns) by (apply occupation_fits; auto; lia).
  destruct (gradient_ok w HK HD HP ns Hn H4 sd Ho) as (out & Eo & _ & _).
  unfold mps_overlap_deriv. rewrite Eo. cbn [bind]. clear - X. destruct X as (d & Hd & Hs). induction ds as [|d' ds IH]; [destruct Hd|]. cbn [mapM].
  destruct (np_index (length (mp_params w)) d') as [i|e] eqn:E.
  - cbn [bind]. destruct Hd as [->|Hd]; [apply np_index_ok in E; now apply Hs in E|]. now rewrite IH.
  - unfold np_index in E. destruct (_ && _)%bool; [discriminate|]. injection E as <-. reflexivity.
Qed.
(** _olp_deriv, which get_overlap does not use, gives the same number where the occupation of the parameter is
    that of the determinant *)
Theorem C49_olp_deriv : forall sd d p i n r c, fits sd (2 * mp_K w) -> decompose_index (mp_K w) (mp_dim w) d = Ok (Z.of_nat i, n, r, c) ->
  p = Z.to_nat d -> n = occupation (mp_K w) sd i -> exists g, mps_olp_deriv w sd d = Ok g /\ mps_overlap_deriv w sd [d] = Ok [g].
Proof.
  intros sd d p i n r c F E -> En. pose proof E as E'. apply C49_decompose in E'; auto. destruct E' as (Hd & V & _). pose proof V as (Hi & _ & Hr & Hc).
  set (ns := map (occupation (mp_K w) sd) (seq 0%nat (mp_K w))).
  assert (Hn : length ns = mp_K w) by (unfold ns; rewrite map_length, seq_length; reflexivity).
  assert (H4 : forall i, (i < mp_K w)%nat -> (nth i ns 0 < 4)%nat) by (intros; unfold ns; rewrite nth_map_seq by auto; apply occupation_lt).
  assert (Ho : occupation_indices w sd = Ok ns) by (apply occupation_fits; auto; lia).
  assert (Ed : d = Z.of_nat (mpos (mp_K w) (mp_dim w) i n r c)).
  { destruct (mpos_surj (mp_K w) (mp_dim w) (Z.to_nat d) HK ltac:(lia)) as (i' & n' & r' & c' & V' & Q).
    rewrite <- (Z2Nat.id d) in E by lia. rewrite Q, decompose_pos in E by auto. injection E as E <- <- <-. apply Nat2Z.inj in E. subst i'. lia. }
  exists (lvec w ns i r * rvec w ns i c). split.
  - unfold mps_olp_deriv. rewrite E. cbn [bind]. rewrite Ho. cbn [bind]. rewrite Hn, Nat2Z.id.
    unfold lvec, rvec. unfold nrows in Hr. unfold ncols in Hc. revert Hr Hc.
    destruct (Nat.ltb_spec i (mp_K w - 1)), (Nat.ltb_spec 0 i), (Nat.eqb_spec i 0), (Nat.eqb_spec (S i) (mp_K w)); intros Hr Hc; try lia;
      rewrite ?(right_ok w HK HD HP ns Hn H4), ?(left_ok w HK HD HP ns Hn H4) by lia; cbn [bind]; destruct (Nat.leb_spec (mp_K w) 1); try lia; f_equal.
    + unfold matf. cbn [seq map hd]. rewrite !nth_map_seq by lia. reflexivity.
    + unfold matf. cbn [seq map hd]. rewrite !nth_map_seq by lia. reflexivity.
    + unfold matf. cbn [seq map hd]. rewrite !nth_map_seq by lia. reflexivity.
  - destruct (gradient_ok w HK HD HP ns Hn H4 sd Ho) as (out & Eo & Lo & No). unfold mps_overlap_deriv. rewrite Eo. cbn [bind mapM].
    assert (S : selects (length (mp_params w)) d (mpos (mp_K w) (mp_dim w) i n r c)) by (split; [rewrite HP; apply mpos_lt; auto|left; exact Ed]).
    apply np_index_ok in S. rewrite S. cbn [bind]. rewrite (No _ _ _ _ V). unfold gent. unfold ns at 1. rewrite nth_map_seq by auto. rewrite <- En, Nat.eqb_refl. reflexivity.
Qed.
End Overlap.
Print Assumptions C49_overlap.
Print Assumptions C49_derivative.
Print Assumptions C49_derivative_outside.
Print Assumptions C49_olp_deriv.

(** the default parameters: the ground determinant has overlap dimension * scale^nspatial, every other has overlap 0 *)
Theorem C49_default : forall (R : CRing) nelec nspin dim scale (w : mps R), new_mps nelec nspin dim MPNone scale = Ok w -> 2 <= mp_K w ->
  exists g, ground nelec nspin = Ok g /\ length (mp_params w) = nparams (mp_K w) (mp_dim w) /\
    (mps_overlap w g = Ok (nat_r (mp_dim w) * rpow scale (mp_K w))%cr) /\
    (forall sd, fits sd (2 * mp_K w) -> sd <> g -> mps_overlap w sd = Ok 0%cr).
Proof.
  intros R nelec nspin dim scale w New HK. unfold new_mps, assign_nelec, assign_nspin, assign_dimension in New.
  destruct (Z.leb_spec nelec 0) as [|H1]; [discriminate|]. cbn [bind] in New. destruct (Z.leb_spec nspin 0) as [|H2]; [discriminate|].
  destruct (Z.eqb_spec (nspin mod 2) 1) as [|H3]; [discriminate|]. cbn [bind] in New.
  set (dd := match dim with None => nspin | Some d => d end) in *. destruct (Z.leb_spec dd 0) as [|H4]; [discriminate|]. cbn [bind] in New.
  unfold mps_assign_params in New. cbn [bind mp_nelec mp_nspin mp_dim] in New.
  set (w0 := mkmps nelec nspin (Z.to_nat dd) (@nil R)) in *.
  destruct (default_params w0 scale) as [P|] eqn:EP; [|discriminate]. cbn [bind] in New. injection New as <-.
  assert (HK0 : 2 <= mp_K w0) by exact HK.
  assert (EG : exists g, ground nelec nspin = Ok g).
  { unfold default_params in EP. change (mp_nelec w0) with nelec in EP. change (mp_nspin w0) with nspin in EP. destruct (ground nelec nspin) as [g|]; [exists g; reflexivity|].
    destruct (matrix_shape (mp_K w0) (mp_dim w0) 0); [|discriminate]. cbn [bind] in EP. destruct (if Nat.leb (mp_K w0) 2 then Ok tt else _); [|discriminate]. cbn [bind] in EP.
    destruct (matrix_shape (mp_K w0) (mp_dim w0) (Z.of_nat (mp_K w0) - 1)); discriminate. }
  destruct EG as (g & EG). exists g. split; [exact EG|].
  assert (Fg : fits g (2 * mp_K w0)).
  { destruct (proj2 (proj2 (P_Slater1.C04_ground nelec nspin)) g EG) as (_ & Q & _). destruct (ground_value _ _ _ EG) as (_ & [k Ek] & _).
    unfold mp_K. cbn [mp_nspin w0]. replace (2 * Z.to_nat (nspin / 2)) with (Z.to_nat nspin); [exact Q|]. rewrite Ek, Z.mul_comm, Z.div_mul by lia. lia. }
  rewrite (default_ok w0 scale g HK0 EG Fg) in EP. apply Py.Ok_inj in EP.
  set (w := mkmps nelec nspin (Z.to_nat dd) P) in *.
  assert (HKw : 2 <= mp_K w) by exact HK. clear HK. rename HKw into HK.
  assert (HP : length (mp_params w) = nparams (mp_K w) (mp_dim w)) by (cbn [mp_params w]; rewrite <- EP; apply flatten_length; auto).
  split; [exact HP|].
  assert (HD : 1 <= mp_dim w) by (cbn; lia).
  assert (Main : forall sd, fits sd (2 * mp_K w) -> mps_overlap w sd = Ok (if N.eqb sd g then nat_r (mp_dim w) * rpow scale (mp_K w) else 0)%cr).
  { intros sd F. set (ns := map (occupation (mp_K w) sd) (seq 0 (mp_K w))).
    assert (Hn : length ns = mp_K w) by (unfold ns; rewrite map_length, seq_length; reflexivity).
    assert (H5 : forall i, i < mp_K w -> nth i ns 0 = occupation (mp_K w) sd i) by (intros; unfold ns; apply nth_map_seq; auto).
    assert (H6 : forall i, i < mp_K w -> nth i ns 0 < 4) by (intros; rewrite H5 by auto; apply occupation_lt).
    unfold mps_overlap. rewrite (olp_chain w HK HD HP ns Hn H6) by (apply occupation_fits; auto; lia). f_equal.
    rewrite (default_full w HK (occupation (mp_K w) g) scale); auto.
    - replace (good (occupation (mp_K w) g) ns (mp_K w - 1)) with (N.eqb sd g); [reflexivity|]. apply eq_true_iff_eq. rewrite N.eqb_eq. unfold good.
      rewrite forallb_forall. replace (S (mp_K w - 1)) with (mp_K w) by (unfold w in *; lia). split.
      + intros -> j Hj. apply in_seq in Hj. apply Nat.eqb_eq. apply H5. lia.
      + intros H. apply (occupation_inj (mp_K w)); auto. intros i Hi. rewrite <- H5 by auto. apply Nat.eqb_eq. apply H. apply in_seq. lia.
    - intros i n r c V. unfold ent. cbn [mp_params w]. rewrite <- EP. apply flatten_nth; auto. }
  split.
  - rewrite Main by auto. rewrite N.eqb_refl. reflexivity.
  - intros sd F Ne. rewrite Main by auto. destruct (N.eqb_spec sd g); [congruence|reflexivity].
Qed.
Print Assumptions C49_default.

(** a molecule with one spatial orbital: the derivative always fails, and so does the overlap unless the dimension is 1 *)
Theorem C49_single_orbital_refuted :
  (forall (R : CRing) (w : mps R) sd ds x, mp_K w = 1 -> mps_overlap_deriv w sd ds <> Ok x) /\
  (forall (R : CRing) (w : mps R) sd x, mp_K w = 1 -> mp_dim w <> 1 -> mps_overlap w sd <> Ok x) /\
  (exists w, ex_single = Ok w /\ mp_K w = 1 /\ mp_dim w = 2).
Proof.
  split; [|split].
  - intros R w sd ds x HK. unfold mps_overlap_deriv, mps_gradient. destruct (occupation_indices w sd) as [ns|] eqn:E; [|discriminate]. cbn [bind].
    rewrite HK. cbn [seq fold_left bind]. unfold mps_block. rewrite E. cbn [bind].
    assert (L : length ns = 1).
    { unfold occupation_indices in E. destruct (split_spin _ _); [|discriminate]. cbn [bind] in E. destruct (forallb _ _); [|discriminate].
      apply Py.Ok_inj in E. rewrite <- E, map_length, seq_length. exact HK. }
    rewrite L. cbn. discriminate.
  - intros R w sd x HK HD. unfold mps_overlap, mps_olp. destruct (occupation_indices w sd) as [ns|] eqn:E; [|discriminate]. cbn [bind].
    destruct ns as [|n [|m t]].
    + discriminate.
    + destruct (selected w 0 n) as [m0|] eqn:S; [|discriminate]. cbn [bind length Nat.sub seq fold_left]. unfold selected in S.
      destruct (get_matrix w (Z.of_nat 0)) as [[blk [[a b] c]]|] eqn:G; [|discriminate]. cbn [bind] in S. apply Py.Ok_inj in S.
      unfold get_matrix, matrix_indices, matrix_shape in G. rewrite HK in G. cbn [Z.of_nat Z.leb Z.ltb Z.eqb Z.compare andb negb bind fst snd Pos.of_succ_nat] in G.
      destruct (Nat.eqb_spec (length (slice (mp_params w) 0 (size3 (4, 1, mp_dim w)))) (size3 (4, 1, mp_dim w))) as [L|]; [|discriminate].
      apply Py.Ok_inj in G. injection G as <- <- <- <-. rewrite <- S. cbn [seq map].
      assert (Q : length (slice (slice (mp_params w) 0 (size3 (4, 1, mp_dim w))) ((n * 1 + 0) * mp_dim w) ((n * 1 + 0) * mp_dim w + mp_dim w)) <> 1 \/ 4 <= n).
      { destruct (Nat.lt_ge_cases n 4); [left|right; auto]. rewrite slice_length; [auto|]. rewrite L. cbn [size3]. nia. }
      destruct Q as [Q|Q].
      * cbn [bind]. match goal with |- item [?r] <> _ => assert (Q' : length r <> 1) by exact Q; destruct r as [|y [|z l]]; cbn [item]; try discriminate; cbn in Q'; lia end.
      * exfalso. unfold occupation_indices in E. destruct (split_spin _ _); [|discriminate]. cbn [bind] in E. destruct (forallb _ _); [|discriminate].
        apply Py.Ok_inj in E. rewrite HK in E. cbn [seq map] in E. injection E as E. destruct (negb _), (negb _) in E; lia.
    + exfalso. unfold occupation_indices in E. destruct (split_spin _ _); [|discriminate]. cbn [bind] in E. destruct (forallb _ _); [|discriminate].
      apply Py.Ok_inj in E. rewrite HK in E. cbn [seq map] in E. discriminate.
  - unfold ex_single. eexists. split; [reflexivity|]. split; reflexivity.
Qed.
Print Assumptions C49_single_orbital_refuted.

(** the number of given parameters is not checked *)
Theorem C49_size_refuted : exists w, ex_short = Ok w /\ length (mp_params w) <> nparams (mp_K w) (mp_dim w) /\ mps_overlap w 5 = Err ValueError.
Proof. eexists. split; [reflexivity|]. split; [cbn; lia|reflexivity]. Qed.
Print Assumptions C49_size_refuted.

(** _olp_deriv ignores the occupation: a parameter that the determinant does not use gets a non-zero derivative *)
Theorem C49_olp_deriv_refuted : exists g, olp_deriv_of ex_mps 13 0 = Ok g /\ deriv_of ex_mps 13 [0%Z] = Ok [0%Z] /\ g <> 0%Z.
Proof. eexists. split; [vm_compute; reflexivity|]. split; [vm_compute; reflexivity|]. vm_compute. discriminate. Qed.
Print Assumptions C49_olp_deriv_refuted.

Example C49_ex : (exists w, ex_mps = Ok w /\ mp_K w = 3 /\ mp_dim w = 2 /\ mp_params w = flatten 3 2 ex_tensor) /\
  overlap_of ex_mps 13 = Ok (contraction (R := Z_ring) 3 2 ex_tensor 13) /\ overlap_of ex_mps 13 = Ok 2758557%Z /\
  decompose_index 3 2 29 = Ok (2%Z, 2%nat, 1%nat, 0%nat) /\ decompose_index 3 2 19 = Ok (1%Z, 2%nat, 1%nat, 1%nat) /\ overlap_of ex_mps 64 = Err IndexError.
Proof. split; [eexists; repeat split; reflexivity|]. vm_compute. repeat split; reflexivity. Qed.
Example C49_default_ex : overlap_of ex_default 9 = Ok 1%Z /\ overlap_of ex_default 10 = Ok 0%Z.
Proof. vm_compute. split; reflexivity. Qed.
Example C49_deriv_ex : exists a b c, deriv_of ex_mps 13 [(-5)%Z; 0%Z; 10%Z; 6%Z] = Ok [a; 0%Z; b; c] /\ a <> 0%Z.
Proof. do 3 eexists. split; [vm_compute; reflexivity|]. vm_compute. discriminate. Qed.
