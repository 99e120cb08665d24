(** All derivatives that are asked for exist, for C64 *)
From Coq Require Import List ZArith NArith Arith Bool Lia Permutation Sorted.
From Verif Require Import Py BitSpec BitLemmas Fock FockLemmas Combos Slater SlaterBits SlaterBits2 SignLemmas Alg MathTools PermLemmas DetLemmas CILemmas Composite OrbSpec OrbLemmas OrbMain WedgeLemmas
  Jacobi JacobiSpec Nonorth NonorthSpec NonorthLemmas NonorthMain NonorthValues NonorthValues2.
Import ListNotations.
Section L.
Context {K : CRing}.
Local Open Scope cr_scope.
Add Ring K_ring94 : (rth K).
Section W.
Variables (w : nonorth K) (o : orbtype) (f : N -> K) (k : nat) (sd al be : N) (ma mb : matrix K).
Hypothesis V : valid w o.
Hypothesis G : o <> Generalized.
Hypothesis E : c_nspin (n_wfn w) = n_nspin w.
Hypothesis F : overlaps_of (n_wfn w) k f.
Hypothesis W : within (Z.to_nat (n_nspin w)) sd.
Hypothesis El : has_electrons sd k.
Hypothesis Ea : n_mat w 0 = Ok ma.
Hypothesis Eb : n_mat w (beta_of o) = Ok mb.
Hypothesis Es : split_spin sd (n_nspin w / 2) = Ok (al, be).
Lemma facts : m_rows ma = n_ns w /\ m_cols ma = n_ns w /\ m_rows mb = n_ns w /\ m_cols mb = n_ns w /\ n_wns w = n_ns w /\ (n_ns w + n_ns w)%nat = Z.to_nat (n_nspin w) /\
  (forall i, bit al i = true -> (i < n_ns w)%nat) /\ (forall i, bit be i = true -> (i < n_ns w)%nat) /\
  (length (occ_indices (Some al)) + length (occ_indices (Some be)))%nat = k /\ (forall i, (i < n_ns w)%nat -> bit al i = bit sd i) /\ (forall i, bit be i = bit sd (i + n_ns w)%nat).
Proof.
  destruct (valid_blocks w o V G E) as (ma' & mb' & Ea' & Eb' & R1 & R2 & R3 & R4 & _ & Ew & _).
  rewrite Ea in Ea'. rewrite Eb in Eb'. apply Ok_inj in Ea', Eb'. subst ma' mb'. destruct (valid_half w o V) as [H2 Hn].
  destruct (split_rows sd (n_nspin w) H2) as (al' & be' & Es' & Eo & Ha & Hb). rewrite Es in Es'. apply Ok_inj in Es'. injection Es' as <- <-. fold (n_ns w) in Eo, Ha, Hb.
  repeat split; auto.
  - intros i B. apply occ_indices_In, Ha in B. tauto.
  - intros i B. apply occ_indices_In, Hb, W in B. lia.
  - rewrite <- (occ_length _ _ El), Eo, app_length, shifted_length. reflexivity.
  - intros i Hi. apply eq_true_iff_eq. rewrite <- occ_indices_In, Ha. tauto.
  - intros i. apply eq_true_iff_eq. rewrite <- occ_indices_In. apply Hb.
Qed.
Lemma taken_bound : forall n r i, (forall i, bit n i = true -> (i < n_ns w)%nat) -> bit n r = true -> In i (occ_indices (annihilate (Some n) [r])) -> (i < n_ns w)%nat.
Proof.
  intros n r i H B Hi. destruct (occ_taken n r B) as (l1 & l2 & Eo & Et & _). rewrite Et in Hi. apply H. apply occ_indices_In. rewrite Eo. apply in_app_iff in Hi as [?|?]; apply in_app_iff; [now left|right; now right].
Qed.
Lemma taken_length : forall n r, bit n r = true -> S (length (occ_indices (annihilate (Some n) [r]))) = length (occ_indices (Some n)).
Proof. intros n r B. destruct (occ_taken n r B) as (l1 & l2 & Eo & Et & _). rewrite Eo, Et, !app_length. cbn [length]. lia. Qed.
Lemma occ_bound : forall n i, (forall i, bit n i = true -> (i < n_ns w)%nat) -> In i (occ_indices (Some n)) -> (i < n_ns w)%nat.
Proof. intros n i H Hi. now apply H, occ_indices_In. Qed.
Lemma mixed_some : forall s u extra, NoDup s -> NoDup u -> NoDup extra -> (forall i, In i s -> (i < n_ns w)%nat) -> (forall i, In i u -> (i < n_ns w)%nat) ->
  (forall i, In i extra -> (i < n_ns w + n_ns w)%nat /\ ~ In i s /\ ~ In i (shifted (n_ns w) u)) -> (length s + length u + length extra)%nat = k ->
  exists v, n_at w (extra ++ s ++ shifted (n_ns w) u) = Ok v.
Proof.
  intros s u extra Ds Du De Hs Hu He L. destruct facts as (_ & _ & _ & _ & _ & Hn & _). exists (f (adds 0 (extra ++ s ++ shifted (n_ns w) u))). apply (n_at_ok w f k); auto.
  - apply BicliqueLemmas.NoDup_app_iff. repeat split; auto; [now apply both_NoDup|]. intros i Hi Hj. apply He in Hi as (_ & Hi1 & Hi2). apply in_app_iff in Hj. tauto.
  - rewrite !app_length, shifted_length. lia.
  - intros i Hi. rewrite E, <- Hn. rewrite !in_app_iff, shifted_In in Hi. destruct Hi as [Hi|[Hi|(j & Hj & ->)]]; [apply He in Hi; lia|apply Hs in Hi; lia|apply Hu in Hj; lia].
Qed.
Lemma deriv_one_some : forall t r c, let first := match o with Restricted => occ (Some al) r | _ => Nat.eqb t 0 end in
  bit (if first then al else be) r = true -> (r < n_ns w)%nat -> (c < n_ns w)%nat -> exists v, deriv_one w (Some o) t al be r c = Ok v.
Proof.
  intros t r c first B Hr Hc. destruct facts as (R1 & R2 & R3 & R4 & Ew & Hn & Ba & Bb & Lk & _).
  unfold deriv_one. replace (match Some o with Some Restricted => occ (Some al) r | Some Unrestricted => Nat.eqb t 0 | _ => false end) with first by (unfold first; destruct o; [reflexivity|reflexivity|congruence]).
  replace (n_mat w (match Some o with Some Restricted => 0%nat | _ => 1%nat end)) with (n_mat w (beta_of o)) by (destruct o; reflexivity). rewrite Eb, Ea, Ew.
  clearbody first. set (arows := if first then occ_indices (annihilate (Some al) [r]) else occ_indices (Some al)). set (brows := if first then occ_indices (Some be) else occ_indices (annihilate (Some be) [r])).
  assert (Ha : forall i, In i arows -> (i < n_ns w)%nat) by (intros i; unfold arows; destruct first; [now apply taken_bound|now apply occ_bound]).
  assert (Hb : forall i, In i brows -> (i < n_ns w)%nat) by (intros i; unfold brows; destruct first; [now apply occ_bound|now apply taken_bound]).
  assert (L : (length arows + length brows + 1)%nat = k) by (unfold arows, brows; destruct first; pose proof (taken_length _ _ B); lia).
  clearbody arows brows.
  apply sumM_some. intros s Hs. assert (Is : NoDup s /\ length s = length arows /\ (forall i, In i s -> (i < n_ns w)%nat /\ (first = true -> i <> c))).
  { destruct first; apply sub_perm in Hs as (D & Ls & Is); try apply others_increasing; try apply increasing_seq; repeat split; auto; try discriminate; apply Is in H; [apply others_In in H; lia|apply others_In in H; intros; lia|apply in_seq in H; lia]. }
  destruct Is as (Ds & Ls & Is). cbn [bind]. rewrite minor1_ok; [|intros i Hi; rewrite R1; auto|intros i Hi; rewrite R2; apply Is; auto|congruence]. cbn [bind].
  assert (Iu : forall u, In u (combinations (if first then seq 0 (n_ns w) else others (n_ns w) c) (length brows)) -> NoDup u /\ length u = length brows /\ (forall i, In i u -> (i < n_ns w)%nat /\ (first = false -> i <> c))).
  { intros u Hu. destruct first; apply sub_perm in Hu as (D & Lu & Iu); try apply others_increasing; try apply increasing_seq; repeat split; auto; try discriminate; apply Iu in H; [apply in_seq in H; lia|apply others_In in H; lia|apply others_In in H; intros; lia]. }
  apply beta_loop_some; intros u Hu; apply Iu in Hu as (Du & Lu & Hu).
  - destruct (mixed_some s u [if first then c else (c + n_ns w)%nat]) as [v Ev]; auto.
    + constructor; [intros []|constructor].
    + intros i Hi; now apply Is.
    + intros i Hi; now apply Hu.
    + intros i [<-|[]]. rewrite shifted_In. destruct first.
      * split; [lia|]. split; [intros X; apply Is in X; destruct X as [_ X]; now apply X|]. intros (j & _ & X). lia.
      * split; [lia|]. split; [intros X; apply Is in X; lia|]. intros (j & X & Y). apply Hu in X as [_ X]. apply X; auto. lia.
    + cbn [length]. lia.
    + exists v. rewrite <- Ev. unfold n_at. replace (s ++ shifted (n_ns w) u ++ [if first then c else (c + n_ns w)%nat]) with ((s ++ shifted (n_ns w) u) ++ [if first then c else (c + n_ns w)%nat]) by (now rewrite app_assoc).
      assert (Dn : NoDup ((if first then c else (c + n_ns w)%nat) :: s ++ shifted (n_ns w) u)).
      { constructor; [|apply both_NoDup; auto; intros i Hi; now apply Is]. rewrite in_app_iff, shifted_In. destruct first.
        - intros [X|(j & _ & X)]; [apply Is in X; destruct X as [_ X]; now apply X|lia].
        - intros [X|(j & X & Y)]; [apply Is in X; lia|]. apply Hu in X as [_ X]. apply X; auto. lia. }
      rewrite create_adds by (apply (Permutation_NoDup (Permutation_cons_append _ _)); exact Dn). cbn [app]. rewrite create_adds by exact Dn.
      now rewrite (adds_perm 0 _ _ (Permutation_cons_append (s ++ shifted (n_ns w) u) (if first then c else (c + n_ns w)%nat))).
  - rewrite minor1_ok; [eauto|intros i Hi; rewrite R3; auto|intros i Hi; rewrite R4; apply Hu; auto|congruence].
Qed.
Lemma deriv_both_some : forall r c, o = Restricted -> bit al r = true -> bit be r = true -> (r < n_ns w)%nat -> (c < n_ns w)%nat -> exists v, deriv_both w al be r c = Ok v.
Proof.
  intros r c O B1 B2 Hr Hc. destruct facts as (R1 & R2 & _ & _ & Ew & Hn & Ba & Bb & Lk & _).
  unfold deriv_both. rewrite Ea, Ew. cbn [bind].
  assert (Ha : forall i, In i (occ_indices (annihilate (Some al) [r])) -> (i < n_ns w)%nat) by (intros i; now apply taken_bound).
  assert (Hb : forall i, In i (occ_indices (annihilate (Some be) [r])) -> (i < n_ns w)%nat) by (intros i; now apply taken_bound).
  pose proof (taken_length _ _ B1) as T1. pose proof (taken_length _ _ B2) as T2.
  set (a := occ_indices (annihilate (Some al) [r])) in *. set (b := occ_indices (annihilate (Some be) [r])) in *. clearbody a b.
  assert (Cs : forall l u, In u (combinations (others (n_ns w) c) l) -> NoDup u /\ length u = l /\ (forall i, In i u -> (i < n_ns w)%nat) /\ ~ In c u).
  { intros l u Hu. apply sub_perm in Hu as (D & Lu & Iu); [|apply others_increasing]. repeat split; auto; [intros i Hi; apply Iu, others_In in Hi; tauto|]. intros X. apply Iu, others_In in X. tauto. }
  assert (M1 : forall l cs, (forall i, In i l -> (i < n_ns w)%nat) -> (forall i, In i cs -> (i < n_ns w)%nat) -> length l = length cs -> exists v, minor1 ma l cs = Ok v).
  { intros l cs H1 H2 H3. rewrite minor1_ok; [eauto|intros i Hi; rewrite R1; auto|intros i Hi; rewrite R2; auto|auto]. }
  assert (M0 : forall l cs, (forall i, In i l -> (i < n_ns w)%nat) -> (forall i, In i cs -> (i < n_ns w)%nat) -> length l = length cs -> exists v, minor ma l cs = Ok v).
  { intros l cs H1 H2 H3. rewrite minor_ok; [eauto|intros i Hi; rewrite R1; auto|intros i Hi; rewrite R2; auto|auto]. }
  assert (Ex : forall l x, (forall i, In i l -> (i < n_ns w)%nat) -> (x < n_ns w)%nat -> forall i, In i (l ++ [x]) -> (i < n_ns w)%nat) by (intros l x H1 H2 i Hi; apply in_app_iff in Hi as [Hi|[<-|[]]]; auto).
  assert (X : exists v, sumM (fun ac => do da <- minor1 ma a ac; do av <- minor ma (a ++ [r]) (ac ++ [c]);
      do y <- sumM (fun bc => do v <- n_at w (c :: (c + n_ns w)%nat :: ac ++ shifted (n_ns w) bc); do db <- minor1 ma b bc; do bv <- minor ma (b ++ [r]) (bc ++ [c]); Ok (v * (da * bv + av * db))) (combinations (others (n_ns w) c) (length b));
      do z <- sumM (fun bc => do v <- n_at w (c :: ac ++ shifted (n_ns w) bc); do bv <- minor ma (b ++ [r]) bc; Ok (v * da * bv)) (combinations (others (n_ns w) c) (length b + 1));
      Ok (y + z)) (combinations (others (n_ns w) c) (length a)) = Ok v).
  { apply sumM_some. intros s Hs. apply Cs in Hs as (Ds & Ls & Is & Ns). destruct (M1 a s) as [da ->]; auto. cbn [bind].
    destruct (M0 (a ++ [r]) (s ++ [c])) as [av ->]; [apply Ex; auto|apply Ex; auto|rewrite !app_length; cbn; lia|]. cbn [bind].
    assert (Y : exists v, sumM (fun bc => do v <- n_at w (c :: (c + n_ns w)%nat :: s ++ shifted (n_ns w) bc); do db <- minor1 ma b bc; do bv <- minor ma (b ++ [r]) (bc ++ [c]); Ok (v * (da * bv + av * db))) (combinations (others (n_ns w) c) (length b)) = Ok v).
    { apply sumM_some. intros u Hu. apply Cs in Hu as (Du & Lu & Iu & Nu). destruct (mixed_some s u [c; (c + n_ns w)%nat]) as [v Ev]; auto.
      - constructor; [intros [Y|[]]; lia|constructor; [intros []|constructor]].
      - intros i [<-|[<-|[]]]; rewrite shifted_In; (split; [lia|]); split; auto; [intros (j & _ & Y); lia|intros Y; apply Is in Y; lia|].
        intros (j & Y & Y'). apply Nu. now replace c with j by lia.
      - cbn [length]. lia.
      - cbn [app] in Ev. rewrite Ev. cbn [bind]. destruct (M1 b u) as [db ->]; auto. cbn [bind]. destruct (M0 (b ++ [r]) (u ++ [c])) as [bv ->]; [apply Ex; auto|apply Ex; auto|rewrite !app_length; cbn; lia|]. cbn [bind]. eauto. }
    destruct Y as [y ->]. cbn [bind].
    assert (Z : exists v, sumM (fun bc => do v <- n_at w (c :: s ++ shifted (n_ns w) bc); do bv <- minor ma (b ++ [r]) bc; Ok (v * da * bv)) (combinations (others (n_ns w) c) (length b + 1)) = Ok v).
    { apply sumM_some. intros u Hu. apply Cs in Hu as (Du & Lu & Iu & Nu). destruct (mixed_some s u [c]) as [v Ev]; auto.
      - constructor; [intros []|constructor].
      - intros i [<-|[]]; rewrite shifted_In; (split; [lia|]); split; auto. intros (j & _ & Y); lia.
      - cbn [length]. lia.
      - cbn [app] in Ev. rewrite Ev. cbn [bind]. destruct (M0 (b ++ [r]) u) as [bv ->]; [apply Ex; auto|auto|rewrite app_length; cbn; lia|]. cbn [bind]. eauto. }
    destruct Z as [z ->]. cbn [bind]. eauto. }
  destruct X as [x Ex']. rewrite Ex'. cbn [bind].
  assert (Y : exists v, sumM (fun ac => do av <- minor ma (a ++ [r]) ac; sumM (fun bc => do v <- n_at w ((c + n_ns w)%nat :: ac ++ shifted (n_ns w) bc); do db <- minor1 ma b bc; Ok (v * av * db)) (combinations (others (n_ns w) c) (length b))) (combinations (others (n_ns w) c) (length a + 1)) = Ok v).
  { apply sumM_some. intros s Hs. apply Cs in Hs as (Ds & Ls & Is & Ns). destruct (M0 (a ++ [r]) s) as [av ->]; [apply Ex; auto|auto|rewrite app_length; cbn; lia|]. cbn [bind].
    apply sumM_some. intros u Hu. apply Cs in Hu as (Du & Lu & Iu & Nu). destruct (mixed_some s u [(c + n_ns w)%nat]) as [v Ev]; auto.
    - constructor; [intros []|constructor].
    - intros i [<-|[]]; rewrite shifted_In; (split; [lia|]); split; [intros Y; apply Is in Y; lia|]. intros (j & Y & Y'). apply Nu. now replace c with j by lia.
    - cbn [length]. lia.
    - cbn [app] in Ev. rewrite Ev. cbn [bind]. destruct (M1 b u) as [db ->]; auto. cbn [bind]. eauto. }
  destruct Y as [y ->]. cbn [bind]. eauto.
Qed.
End W.
End L.
