(** The model of get_overlap and _olp_deriv has these values, for C64 *)
From Coq Require Import List ZArith NArith Arith Bool Lia Permutation Sorted.
From Verif Require Import Py BitSpec BitLemmas Fock FockLemmas Combos Slater SlaterBits SlaterBits2 SignLemmas Alg MathTools PermLemmas DetLemmas CILemmas Composite OrbSpec OrbLemmas OrbMain WedgeLemmas
  Jacobi JacobiSpec Nonorth NonorthSpec NonorthLemmas NonorthMain.
Import ListNotations.

Lemma occ_length : forall sd k, has_electrons sd k -> length (occ_indices (Some sd)) = k.
Proof.
  intros sd k (l & D & H & <-). apply Permutation_length, NoDup_Permutation; auto; [apply increasing_NoDup, occ_indices_increasing|]. intros i. now rewrite occ_indices_In, H.
Qed.
Section L.
Context {K : CRing}.
Local Open Scope cr_scope.
Add Ring K_ring92 : (rth K).
(** the state of a constructed instance *)
Definition valid (w : nonorth K) (t : orbtype) : Prop :=
  n_orbtype w = Some t /\ transforms t (n_nspin w) (c_nspin (n_wfn w)) (n_params w) /\ (0 < n_nspin w)%Z /\ Z.Even (n_nspin w).
Lemma valid_half : forall w t, valid w t -> (0 < n_nspin w / 2)%Z /\ (n_ns w + n_ns w)%nat = Z.to_nat (n_nspin w).
Proof.
  intros w t (_ & _ & H & [k E]). unfold n_ns. rewrite E in *. rewrite Z.mul_comm, Z.div_mul by lia. lia.
Qed.
(** matrix of the beta orbitals *)
Definition beta_of (t : orbtype) : nat := match t with Restricted => 0 | _ => 1 end.
Lemma valid_blocks : forall w t, valid w t -> t <> Generalized -> c_nspin (n_wfn w) = n_nspin w ->
  exists ma mb, n_mat w 0 = Ok ma /\ n_mat w (beta_of t) = Ok mb /\ m_rows ma = n_ns w /\ m_cols ma = n_ns w /\ m_rows mb = n_ns w /\ m_cols mb = n_ns w /\
    spin_matrix t (n_ns w) (n_ns w) (entries (n_params w)) = blocks (n_ns w) (n_ns w) (m_at ma) (m_at mb) /\ n_wns w = n_ns w /\
    (t = Restricted -> ma = mb).
Proof.
  intros w t (_ & T & _) G E. unfold n_wns, n_ns, n_mat, entries in *. rewrite E in *. destruct t; [| |congruence]; cbn [transforms beta_of] in *.
  - destruct (n_params w) as [|m [|? ?]]; try contradiction. destruct T as [T1 T2]. exists m, m. repeat split; auto.
  - destruct (n_params w) as [|m [|m' [|? ?]]]; try contradiction. destruct T as [[T1 T2] [T3 T4]]. exists m, m'. repeat split; auto. discriminate.
Qed.
Lemma valid_general : forall w, valid w Generalized ->
  exists m, n_params w = [m] /\ n_mat w 0 = Ok m /\ m_rows m = Z.to_nat (n_nspin w) /\ m_cols m = Z.to_nat (c_nspin (n_wfn w)).
Proof.
  intros w (_ & T & _). unfold n_mat. cbn [transforms] in T. destruct (n_params w) as [|m [|? ?]]; try contradiction. destruct T as [T1 T2]. exists m. auto.
Qed.
Lemma spatial_In : forall w : nonorth K, forall i, (0 < n_nspin w)%Z -> Z.Even (n_nspin w) -> (i < n_ns w)%nat -> (i + n_ns w < Z.to_nat (n_nspin w))%nat.
Proof. intros w i H [k E] L. unfold n_ns in *. rewrite E in *. rewrite Z.mul_comm, Z.div_mul in * by lia. lia. Qed.

(** overlaps *)
Lemma olp_general : forall w f sd, valid w Generalized -> overlaps_of (n_wfn w) (Z.to_nat (n_nelec w)) f -> within (Z.to_nat (n_nspin w)) sd -> has_electrons sd (Z.to_nat (n_nelec w)) ->
  n_olp w sd = Ok (linsf (seq 0 (Z.to_nat (c_nspin (n_wfn w)))) (map (spin_matrix Generalized (n_ns w) (n_wns w) (entries (n_params w))) (occ_indices (Some sd))) f 0%N).
Proof.
  intros w f sd V F W El. destruct (valid_general w V) as (m & Ep & Em & R1 & R2). destruct V as (O & _). unfold n_olp. rewrite O, Ep, Em. cbn [spin_matrix entries map].
  rewrite linsf_minors; [|apply increasing_seq|apply zero_bits]. rewrite map_length. pose proof (occ_length _ _ El) as Lo. rewrite Lo.
  apply sumM_ok. intros s Hs. apply sub_perm in Hs as (Ds & Ls & Is); [|apply increasing_seq].
  assert (B : forall i, In i s -> (i < Z.to_nat (c_nspin (n_wfn w)))%nat) by (intros i Hi; apply Is, in_seq in Hi; lia).
  rewrite (n_at_ok w f _ s F) by auto. cbn [bind]. rewrite minor_ok.
  - cbn [bind]. f_equal. ring.
  - intros i Hi. apply occ_indices_In, W in Hi. lia.
  - intros j Hj. apply B in Hj. lia.
  - congruence.
Qed.
Lemma olp_blocks : forall w t f k sd, valid w t -> t <> Generalized -> c_nspin (n_wfn w) = n_nspin w -> overlaps_of (n_wfn w) k f -> within (Z.to_nat (n_nspin w)) sd -> has_electrons sd k ->
  n_olp w sd = Ok (linsf (seq 0 (Z.to_nat (c_nspin (n_wfn w)))) (map (spin_matrix t (n_ns w) (n_wns w) (entries (n_params w))) (occ_indices (Some sd))) f 0%N).
Proof.
  intros w t f k sd V G E F W El. destruct (valid_blocks w t V G E) as (ma & mb & Ea & Eb & R1 & R2 & R3 & R4 & S & Ew & _). destruct (valid_half w t V) as [H2 Hn].
  rewrite Ew, S, E, <- Hn. destruct (split_rows sd (n_nspin w) H2) as (al & be & Es & Eo & Ha & Hb). fold (n_ns w) in Eo, Ha, Hb. rewrite Eo.
  assert (Ha' : forall i, In i (occ_indices (Some al)) -> (i < n_ns w)%nat) by (intros i Hi; apply Ha in Hi; tauto).
  assert (Hb' : forall i, In i (occ_indices (Some be)) -> (i < n_ns w)%nat) by (intros i Hi; apply Hb, W in Hi; lia).
  assert (Lk : (length (occ_indices (Some al)) + length (occ_indices (Some be)))%nat = k) by (rewrite <- (occ_length _ _ El), Eo, app_length, shifted_length; reflexivity).
  rewrite linsf_block_rows by auto. unfold n_olp. destruct V as (O & _). rewrite O.
  assert (Common : (do ab <- split_spin sd (n_nspin w / 2);
    sumM (fun acols => do ma0 <- n_mat w 0; do a <- minor1 ma0 (occ_indices (Some (fst ab))) acols;
      sumM (fun bcols => do v <- n_at w (acols ++ shifted (n_ns w) bcols); do mb0 <- n_mat w (beta_of t); do b <- minor1 mb0 (occ_indices (Some (snd ab))) bcols; Ok (v * a * b))
        (combinations (seq 0 (n_wns w)) (length (occ_indices (Some (snd ab)))))) (combinations (seq 0 (n_wns w)) (length (occ_indices (Some (fst ab)))))) =
    Ok (block_sum (n_ns w) (m_at ma) (m_at mb) (occ_indices (Some al)) (occ_indices (Some be)) f)); [|destruct t; [exact Common|exact Common|congruence]].
  rewrite Es. cbn [bind fst snd]. rewrite Ew, Ea, Eb. cbn [bind]. unfold block_sum. apply sumM_ok. intros s Hs. apply sub_perm in Hs as (Ds & Ls & Is); [|apply increasing_seq].
  assert (Bs : forall i, In i s -> (i < n_ns w)%nat) by (intros i Hi; apply Is, in_seq in Hi; lia).
  rewrite minor1_ok; [|intros i Hi; rewrite R1; auto|intros i Hi; rewrite R2; auto|congruence]. cbn [bind]. apply sumM_ok.
  intros u Hu. apply sub_perm in Hu as (Du & Lu & Iu); [|apply increasing_seq]. assert (Bu : forall i, In i u -> (i < n_ns w)%nat) by (intros i Hi; apply Iu, in_seq in Hi; lia).
  rewrite (n_at_ok w f k).
  - cbn [bind]. rewrite minor1_ok; [|intros i Hi; rewrite R3; auto|intros i Hi; rewrite R4; auto|congruence]. cbn [bind]. f_equal. ring.
  - exact F.
  - now apply both_NoDup.
  - rewrite app_length, shifted_length. congruence.
  - intros i Hi. rewrite E. apply in_app_iff in Hi as [Hi|Hi]; [apply Bs in Hi; lia|]. apply shifted_In in Hi as (j & Hj & ->). apply Bu in Hj. lia.
Qed.
(** both cases *)
Definition sized (w : nonorth K) (t : orbtype) (k : nat) : Prop :=
  match t with Generalized => k = Z.to_nat (n_nelec w) | _ => c_nspin (n_wfn w) = n_nspin w end.
Lemma olp_value : forall w t f k sd, valid w t -> sized w t k -> overlaps_of (n_wfn w) k f -> within (Z.to_nat (n_nspin w)) sd -> has_electrons sd k ->
  n_olp w sd = Ok (linsf (seq 0 (Z.to_nat (c_nspin (n_wfn w)))) (map (spin_matrix t (n_ns w) (n_wns w) (entries (n_params w))) (occ_indices (Some sd))) f 0%N).
Proof.
  intros w t f k sd V S F W El. destruct t; cbn [sized] in S.
  - now apply (olp_blocks w Restricted f k).
  - now apply (olp_blocks w Unrestricted f k).
  - subst k. now apply olp_general.
Qed.

(** * derivatives *)
(** the slope with respect to an entry: the row is taken out and the column is created *)
Definition slope (cols : list nat) (C : nat -> nat -> K) (l1 l2 : list nat) (c : nat) (f : N -> K) : K :=
  m1pow (length l1) * linsf cols (map C (l1 ++ l2)) (opf (Cre c) f) 0%N.
Lemma place_ok : forall (w : nonorth K) t r c m m', n_mat w 0 = Ok m -> n_mat w t = Ok m' -> m_rows m' = m_rows m -> m_cols m' = m_cols m -> (r < m_rows m)%nat -> (c < m_cols m)%nat ->
  n_place w (number (n_params w) t r c) = Ok (t, r, c).
Proof.
  intros w t r c m m' E0 Et R C Hr Hc. unfold n_place. rewrite E0. cbn [bind].
  assert (En : number (n_params w) t r c = (t * (m_rows m * m_cols m) + (r * m_cols m + c))%nat) by (unfold number, n_mat in *; destruct (n_params w); [discriminate|]; apply Ok_inj in E0; now subst).
  rewrite En. assert (S : (r * m_cols m + c < m_rows m * m_cols m)%nat) by nia. destruct (Nat.eqb_spec (m_rows m * m_cols m) 0); [lia|].
  rewrite Nat.div_add_l, Nat.div_small by lia. rewrite Nat.add_0_r, Et. cbn [bind]. rewrite C. destruct (Nat.eqb_spec (m_cols m) 0); [lia|].
  rewrite Nat.add_comm, Nat.mod_add, Nat.mod_small by lia. rewrite Nat.div_add_l, Nat.div_small, Nat.add_0_r by lia.
  rewrite Nat.add_comm, Nat.mod_add, Nat.mod_small by lia. reflexivity.
Qed.
Lemma dolp_general : forall w f k sd r c m, valid w Generalized -> n_mat w 0 = Ok m -> overlaps_of (n_wfn w) k f -> within (Z.to_nat (n_nspin w)) sd -> has_electrons sd k ->
  bit sd r = true -> (c < m_cols m)%nat -> exists l1 l2, occ_indices (Some sd) = l1 ++ r :: l2 /\
  deriv_generalized w sd r c = Ok (slope (seq 0 (Z.to_nat (c_nspin (n_wfn w)))) (m_at m) l1 l2 c f).
Proof.
  intros w f k sd r c m V Em F W El B Hc. destruct (valid_general w V) as (m' & Ep & Em' & R1 & R2). rewrite Em in Em'. apply Ok_inj in Em'. subst m'.
  destruct (occ_taken sd r B) as (l1 & l2 & Eo & Et & H1 & H2). exists l1, l2. split; [exact Eo|]. unfold deriv_generalized. rewrite Et, Em, below_taken by auto. unfold slope.
  rewrite linsf_minors; [|apply increasing_seq|apply zero_bits]. rewrite map_length.
  rewrite (sumf_ext _ (fun s => if existsb (Nat.eqb c) s then 0 else detR (map (m_at m) (l1 ++ l2)) s * (below_sign s c * f (adds 0 (c :: s))))).
  2:{ intros s Hs. apply sub_perm in Hs as (Ds & _); [|apply increasing_seq]. rewrite opf_zero by auto. destruct (existsb _ s); [ring|]. reflexivity. }
  rewrite sumf_without. fold (others (Z.to_nat (c_nspin (n_wfn w))) c). rewrite <- sumf_mul_l. apply sumM_ok. intros s Hs.
  apply sub_perm in Hs as (Ds & Ls & Is); [|apply others_increasing]. rewrite (n_at_ok w f k).
  - cbn [bind]. rewrite minor_ok; [cbn [bind]; f_equal; ring| | |congruence].
    + intros i Hi. assert (I : In i (occ_indices (Some sd))) by (rewrite Eo; apply in_app_iff in Hi as [?|?]; apply in_app_iff; [now left|right; now right]). apply occ_indices_In, W in I. lia.
    + intros i Hi. apply Is, others_In in Hi. lia.
  - exact F.
  - constructor; auto. intros X. apply Is, others_In in X. lia.
  - cbn [length]. rewrite Ls, <- (occ_length _ _ El), Eo, !app_length. cbn [length]. lia.
  - intros i [<-|Hi]; [lia|]. apply Is, others_In in Hi. lia.
Qed.
(** the loop over the beta columns if no sign is taken there *)
Lemma beta_loop_ok : forall (w : nonorth K) (first : bool) col mb brows ac (x sg : K) l (g : list nat -> K) (b : list nat -> K),
  (forall u, In u l -> n_at w (ac ++ shifted (n_ns w) u ++ [if first then col else (col + n_ns w)%nat]) = Ok (g u)) ->
  (forall u, In u l -> minor1 mb brows u = Ok (b u)) ->
  beta_loop w 0 first col (Ok mb) brows ac x sg l = Ok (sumf (fun u => g u * sg * x * b u) l).
Proof.
  intros w first col mb brows ac x sg l g b. induction l as [|u l IH]; intros Hg Hb; [reflexivity|]. cbn [beta_loop]. rewrite Hg by now left. cbn [bind Nat.eqb].
  pose proof (Hb u (or_introl eq_refl)) as Hu. unfold minor1 in Hu. rewrite sumf_cons.
  rewrite IH by (intros; solve [apply Hg; now right | apply Hb; now right]).
  destruct u as [|y u]; [apply Ok_inj in Hu; rewrite <- Hu; reflexivity|]. rewrite Hu. reflexivity.
Qed.
(** the alpha orbital is differentiated *)
Lemma deriv_one_alpha : forall w t f k sd r c al be ma mb, valid w t -> t <> Generalized -> c_nspin (n_wfn w) = n_nspin w -> overlaps_of (n_wfn w) k f -> within (Z.to_nat (n_nspin w)) sd -> has_electrons sd k ->
  n_mat w 0 = Ok ma -> n_mat w (beta_of t) = Ok mb ->
  split_spin sd (n_nspin w / 2) = Ok (al, be) -> bit sd r = true -> (r < n_ns w)%nat -> (c < n_ns w)%nat ->
  exists l1 l2, occ_indices (Some sd) = l1 ++ r :: l2 /\
  deriv_one w (Some t) 0 al be r c = Ok (slope (seq 0 (n_ns w + n_ns w)) (blocks (n_ns w) (n_ns w) (m_at ma) (m_at mb)) l1 l2 c f).
Proof.
  intros w t f k sd r c al be ma mb V G E F W El Ea Eb Es B Hr Hc. destruct (valid_blocks w t V G E) as (ma' & mb' & Ea' & Eb' & R1 & R2 & R3 & R4 & _ & Ew & _).
  rewrite Ea in Ea'. rewrite Eb in Eb'. apply Ok_inj in Ea', Eb'. subst ma' mb'. destruct (valid_half w t V) as [H2 Hn].
  destruct (split_rows sd (n_nspin w) H2) as (al' & be' & Es' & Eo & Ha & Hb). rewrite Es in Es'. apply Ok_inj in Es'. injection Es' as <- <-. fold (n_ns w) in Eo, Ha, Hb.
  assert (Ba : bit al r = true) by (apply occ_indices_In, Ha; auto).
  destruct (occ_taken al r Ba) as (l1 & l2 & Eoa & Eta & L1 & L2). exists l1, (l2 ++ shifted (n_ns w) (occ_indices (Some be))).
  split; [rewrite Eo, Eoa, <- app_assoc; reflexivity|].
  assert (Ha' : forall i, In i (l1 ++ l2) -> (i < n_ns w)%nat).
  { intros i Hi. assert (X : In i (occ_indices (Some al))) by (rewrite Eoa; apply in_app_iff in Hi as [?|?]; apply in_app_iff; [now left|right; now right]). apply Ha in X. tauto. }
  assert (Hb' : forall i, In i (occ_indices (Some be)) -> (i < n_ns w)%nat) by (intros i Hi; apply Hb, W in Hi; lia).
  assert (Lk : (S (length (l1 ++ l2)) + length (occ_indices (Some be)))%nat = k).
  { rewrite <- (occ_length _ _ El), Eo, Eoa, !app_length, shifted_length. cbn [length]. lia. }
  unfold slope. rewrite app_assoc, linsf_block_rows by auto. rewrite block_sum_alpha by auto.
  assert (Fi : (match Some t with Some Restricted => occ (Some al) r | Some Unrestricted => Nat.eqb 0 0 | _ => false end) = true).
  { destruct t; [rewrite occ_bit; exact Ba|reflexivity|congruence]. }
  unfold deriv_one. rewrite Fi. cbn [Nat.eqb]. rewrite Ew, Eta, Ea. rewrite below_taken by auto.
  replace (n_mat w (match Some t with Some Restricted => 0%nat | _ => 1%nat end)) with (n_mat w (beta_of t)) by (destruct t; reflexivity). rewrite Eb.
  rewrite <- sumf_mul_l. apply sumM_ok. intros s Hs. apply sub_perm in Hs as (Ds & Ls & Is); [|apply others_increasing].
  assert (Bs : forall i, In i s -> (i < n_ns w)%nat /\ i <> c) by (intros i Hi; now apply others_In, Is).
  cbn [bind]. rewrite minor1_ok; [|intros i Hi; rewrite R1; auto|intros i Hi; rewrite R2; apply Bs; auto|congruence]. cbn [bind].
  rewrite (beta_loop_ok w true c mb (occ_indices (Some be)) s _ _ _ (fun u => f (adds 0 (s ++ shifted (n_ns w) u ++ [c]))) (fun u => detR (map (m_at mb) (occ_indices (Some be))) u)).
  - f_equal. rewrite <- sumf_mul_l. apply sumf_ext. intros u _. ring.
  - intros u Hu. apply sub_perm in Hu as (Du & Lu & Iu); [|apply increasing_seq]. assert (Bu : forall i, In i u -> (i < n_ns w)%nat) by (intros i Hi; apply Iu, in_seq in Hi; lia).
    apply (n_at_ok w f k); auto.
    + rewrite app_assoc. apply (Permutation_NoDup (Permutation_cons_append _ c)). constructor; [|apply both_NoDup; auto; apply Bs].
      rewrite in_app_iff, shifted_In. intros [X|(j & _ & X)]; [apply Bs in X; tauto|lia].
    + rewrite !app_length, shifted_length. cbn [length]. lia.
    + rewrite E, <- Hn. intros i Hi. rewrite !in_app_iff, shifted_In in Hi. destruct Hi as [Hi|[(j & Hj & ->)|[<-|[]]]]; [apply Bs in Hi; lia|apply Bu in Hj; lia|lia].
  - intros u Hu. apply sub_perm in Hu as (Du & Lu & Iu); [|apply increasing_seq]. assert (Bu : forall i, In i u -> (i < n_ns w)%nat) by (intros i Hi; apply Iu, in_seq in Hi; lia).
    apply minor1_ok; [intros i Hi; rewrite R3; auto|intros i Hi; rewrite R4; auto|congruence].
Qed.
End L.
