(** Derivatives with respect to the orbitals of beta electrons and of pairs, and that all of them exist, for C64 *)
From Coq Require Import List ZArith NArith Arith Bool Lia Permutation Sorted.
From Verif Require Import Py BitSpec BitLemmas Fock FockLemmas Combos Slater SlaterBits SlaterBits2 SignLemmas Alg MathTools PermLemmas DetLemmas CILemmas Composite OrbSpec OrbLemmas OrbMain WedgeLemmas
  Jacobi JacobiSpec Nonorth NonorthSpec NonorthLemmas NonorthMain NonorthValues.
Import ListNotations.
Section L.
Context {K : CRing}.
Local Open Scope cr_scope.
Add Ring K_ring93 : (rth K).
(** the beta orbital of the only beta electron is differentiated *)
Lemma deriv_one_beta : forall (w : nonorth K) o t f k sd r c al be ma mb, valid w o -> o <> Generalized -> c_nspin (n_wfn w) = n_nspin w -> overlaps_of (n_wfn w) k f -> within (Z.to_nat (n_nspin w)) sd -> has_electrons sd k ->
  n_mat w 0 = Ok ma -> n_mat w (beta_of o) = Ok mb ->
  split_spin sd (n_nspin w / 2) = Ok (al, be) -> occ_indices (Some be) = [r] -> (r < n_ns w)%nat -> (c < n_ns w)%nat ->
  (match o with Restricted => t = 0%nat /\ occ_indices (Some al) = [] | _ => t = 1%nat end) ->
  exists l1 l2, occ_indices (Some sd) = l1 ++ (r + n_ns w)%nat :: l2 /\
  deriv_one w (Some o) t al be r c = Ok (slope (seq 0 (n_ns w + n_ns w)) (blocks (n_ns w) (n_ns w) (m_at ma) (m_at mb)) l1 l2 (c + n_ns w) f).
Proof.
  intros w o t f k sd r c al be ma mb V G E F W El Ea Eb Es Br Hr Hc Ht. destruct (valid_blocks w o V G E) as (ma' & mb' & Ea' & Eb' & R1 & R2 & R3 & R4 & _ & Ew & _).
  rewrite Ea in Ea'. rewrite Eb in Eb'. apply Ok_inj in Ea', Eb'. subst ma' mb'. destruct (valid_half w o V) as [H2 Hn].
  destruct (split_rows sd (n_nspin w) H2) as (al' & be' & Es' & Eo & Ha & Hb). rewrite Es in Es'. apply Ok_inj in Es'. injection Es' as <- <-. fold (n_ns w) in Eo, Ha, Hb.
  assert (Bb : bit be r = true) by (apply occ_indices_In; rewrite Br; now left).
  destruct (occ_taken be r Bb) as (l1 & l2 & Eob & Etb & L1 & L2).
  assert (E12 : l1 = [] /\ l2 = []). { rewrite Br in Eob. destruct l1 as [|x [|? ?]]; [|discriminate|discriminate]. injection Eob as <-. auto. }
  destruct E12 as [-> ->]. cbn [app] in Etb.
  exists (occ_indices (Some al)), []. split; [rewrite Eo, Br; reflexivity|].
  assert (Ha' : forall i, In i (occ_indices (Some al)) -> (i < n_ns w)%nat) by (intros i Hi; apply Ha in Hi; tauto).
  assert (Lk : S (length (occ_indices (Some al))) = k) by (rewrite <- (occ_length _ _ El), Eo, Br, app_length, shifted_length; cbn [length]; lia).
  unfold slope. change (@nil nat) with (shifted (n_ns w) []). rewrite linsf_block_rows by auto. rewrite block_sum_beta by auto. cbn [length]. rewrite combinations_0.
  assert (Fi : (match Some o with Some Restricted => occ (Some al) r | Some Unrestricted => Nat.eqb t 0 | _ => false end) = false).
  { destruct o; [|rewrite Ht; reflexivity|reflexivity]. destruct Ht as [_ Ht]. rewrite occ_bit. destruct (bit al r) eqn:X; auto. apply occ_indices_In in X. rewrite Ht in X. destruct X. }
  unfold deriv_one. rewrite Fi. cbn [Nat.eqb]. rewrite Ew, Etb, Ea. cbn [length]. rewrite combinations_0.
  rewrite <- sumf_mul_l. apply sumM_ok. intros s Hs. apply sub_perm in Hs as (Ds & Ls & Is); [|apply increasing_seq].
  assert (Bs : forall i, In i s -> (i < n_ns w)%nat) by (intros i Hi; apply Is, in_seq in Hi; lia).
  cbn [bind]. rewrite minor1_ok; [|intros i Hi; rewrite R1; auto|intros i Hi; rewrite R2; apply Bs; auto|congruence]. cbn [bind beta_loop].
  rewrite (n_at_ok w f k); [| | | |].
  - cbn [bind]. f_equal. rewrite sumf_cons. cbn [map detR shifted].
    assert (Sg : (if Nat.eqb t 1 then (if Nat.eqb t 0 then below_sign s c else 1) * below_sign [] c else if Nat.eqb t 0 then below_sign s c else 1) = (1 : K)).
    { destruct o; [| |congruence].
      - destruct Ht as [-> Ht]. rewrite Ht in Ls. destruct s; [reflexivity|discriminate].
      - rewrite Ht. cbn. unfold below_sign. cbn. unfold m1pow. cbn. ring. }
    rewrite Sg. unfold below_sign. cbn [filter length]. cbn [sumf psum fold_right]. pose proof (m1pow_sq (K := K) (length (occ_indices (Some al)))) as Sq.
    set (mm := m1pow (length (occ_indices (Some al)))) in *. replace (m1pow 0) with (1 : K) by reflexivity. cbn [app].
    set (ff := f _). set (dd := detR _ _). transitivity (dd * ff * (mm * mm) + 0); [rewrite Sq; ring|]. change (sumf _ []) with (0 : K). ring.
  - exact F.
  - cbn [shifted map app]. apply (Permutation_NoDup (Permutation_cons_append _ _)). constructor; auto. intros X. apply Bs in X. lia.
  - cbn [shifted map app]. rewrite app_length. cbn [length]. lia.
  - cbn [shifted map app]. rewrite E, <- Hn. intros i Hi. apply in_app_iff in Hi as [Hi|[<-|[]]]; [apply Bs in Hi|]; lia.
Qed.
Lemma combinations_1 : forall {A} (l : list A), combinations l 1 = map (fun x => [x]) l.
Proof. induction l as [|x l IH]; [reflexivity|]. cbn [combinations]. rewrite combinations_0, IH. reflexivity. Qed.
Lemma sumf_apart : forall n c (g : nat -> K), (c < n)%nat -> sumf g (seq 0 n) = g c + sumf g (others n c).
Proof.
  intros n c g H. unfold others. rewrite sumf_filter. rewrite (sumf_ext g (fun i => (if Nat.eqb i c then g c else 0) + (if negb (Nat.eqb i c) then g i else 0))).
  - rewrite sumf_add. f_equal. rewrite (sumf_single _ _ c); [now rewrite Nat.eqb_refl|apply seq_NoDup|apply in_seq; lia|]. intros i _ Hi. now rewrite (proj2 (Nat.eqb_neq i c)).
  - intros i _. destruct (Nat.eqb_spec i c) as [->|]; cbn [negb]; ring.
Qed.
(** one pair: the overlap is quadratic in the orbital *)
Lemma detR_one : forall (r : nat -> K) x, detR [r] [x] = r x.
Proof. intros. cbn. rewrite ?sumf_cons. cbn. ring. Qed.
Lemma pair_sum : forall nc (m : nat -> nat -> K) r (f : N -> K),
  block_sum nc m m [r] [r] f = sumf (fun i => sumf (fun j => m r i * m r j * f (adds 0 [i; (j + nc)%nat])) (seq 0 nc)) (seq 0 nc).
Proof.
  intros nc m r f. unfold block_sum. cbn [length]. rewrite combinations_1, sumf_map. apply sumf_ext. intros i _. rewrite sumf_map. apply sumf_ext. intros j _. cbn [map]. now rewrite !detR_one.
Qed.
Lemma deriv_pair : forall (w : nonorth K) f r c al be m, valid w Restricted -> c_nspin (n_wfn w) = n_nspin w -> overlaps_of (n_wfn w) 2 f ->
  n_mat w 0 = Ok m -> occ_indices (Some al) = [r] -> occ_indices (Some be) = [r] -> (r < n_ns w)%nat -> (c < n_ns w)%nat ->
  let F i j := f (adds 0 [i; (j + n_ns w)%nat]) in
  deriv_both w al be r c = Ok ((m_at m r c + m_at m r c) * F c c + sumf (fun j => m_at m r j * F c j) (others (n_ns w) c) + sumf (fun i => m_at m r i * F i c) (others (n_ns w) c)).
Proof.
  intros w f r c al be m V E F Em Ea Eb Hr Hc Fn. destruct (valid_blocks w Restricted V) as (m' & mb' & Em' & _ & R1 & R2 & _ & _ & _ & Ew & _); [discriminate|auto|].
  rewrite Em in Em'. apply Ok_inj in Em'. subst m'. destruct (valid_half w _ V) as [H2 Hn].
  assert (T : forall n, occ_indices (Some n) = [r] -> occ_indices (annihilate (Some n) [r]) = []).
  { intros n Hn'. assert (B : bit n r = true) by (apply occ_indices_In; rewrite Hn'; now left). destruct (occ_taken n r B) as (l1 & l2 & Eo & Et & _). rewrite Et. rewrite Hn' in Eo. destruct l1 as [|? [|? ?]]; try discriminate. injection Eo as <-. reflexivity. }
  unfold deriv_both. rewrite (T al Ea), (T be Eb), Em, Ew. cbn [length bind]. rewrite !combinations_0. cbn [Nat.add]. rewrite !combinations_1.
  assert (Mi : forall j, (j < n_ns w)%nat -> minor m [r] [j] = Ok (m_at m r j)).
  { intros j Hj. rewrite minor_ok; [cbn [map]; now rewrite detR_one|intros i [<-|[]]; lia|intros i [<-|[]]; lia|reflexivity]. }
  assert (Ad : forall i j, (i < n_ns w)%nat -> (j < n_ns w)%nat -> n_at w [i; (j + n_ns w)%nat] = Ok (Fn i j) /\ n_at w [(j + n_ns w)%nat; i] = Ok (Fn i j)).
  { intros i j Hi Hj. split.
    - apply (n_at_ok w f 2); auto; [constructor; [intros [X|[]]; lia|constructor; [intros []|constructor]]|]. rewrite E. intros x [<-|[<-|[]]]; lia.
    - rewrite (n_at_ok w f 2); auto.
      + unfold Fn. do 2 f_equal. apply adds_perm, perm_swap.
      + constructor; [intros [X|[]]; lia|constructor; [intros []|constructor]].
      + rewrite E. intros x [<-|[<-|[]]]; lia. }
  assert (One : forall (g : list nat -> res K) v, g [] = Ok v -> sumM g [[]] = Ok v).
  { intros g v Hg. unfold sumM. cbn [mapM]. rewrite Hg. cbn [bind]. rewrite sumf_cons. f_equal. cbn. ring. }
  assert (Many : forall (g : list nat -> res K) h, (forall j, In j (others (n_ns w) c) -> g [j] = Ok (h j)) -> sumM g (map (fun x => [x]) (others (n_ns w) c)) = Ok (sumf h (others (n_ns w) c))).
  { intros g h Hg. rewrite (sumM_ok g (fun s => h (hd 0%nat s))); [now rewrite sumf_map|]. intros s Hs. apply in_map_iff in Hs as (j & <- & Hj). apply Hg, Hj. }
  rewrite (One _ ((m_at m r c + m_at m r c) * Fn c c + sumf (fun j => m_at m r j * Fn c j) (others (n_ns w) c))).
  - cbn [bind]. rewrite (Many _ (fun i => m_at m r i * Fn i c)).
    + cbn [bind]. f_equal; ring.
    + intros i Hi. apply others_In in Hi as [Hi _]. cbn [app]. rewrite (Mi i) by auto. cbn [bind]. apply One. cbn [shifted map app]. rewrite (proj2 (Ad i c Hi Hc)). cbn [bind minor1]. f_equal. ring.
  - cbn [app minor1 bind]. rewrite (Mi c) by auto. cbn [bind].
    rewrite (One _ (Fn c c * (1 * m_at m r c + m_at m r c * 1))).
    + cbn [bind]. rewrite (Many _ (fun j => Fn c j * 1 * m_at m r j)).
      * cbn [bind]. f_equal. f_equal; [ring|]. apply sumf_ext. intros; ring.
      * intros j Hj. apply others_In in Hj as [Hj _]. cbn [shifted map app]. rewrite (proj1 (Ad c j Hc Hj)). cbn [bind]. rewrite (Mi j) by auto. reflexivity.
    + cbn [shifted map app]. rewrite (proj1 (Ad c c Hc Hc)). cbn [bind minor1]. rewrite (Mi c) by auto. reflexivity.
Qed.
(** all the derivatives exist *)
Lemma sumM_some : forall {A} (F : A -> res K) l, (forall x, In x l -> exists v, F x = Ok v) -> exists v, sumM F l = Ok v.
Proof.
  intros A F l H. unfold sumM. assert (E : exists vs, mapM F l = Ok vs); [|destruct E as [vs ->]; cbn [bind]; eauto].
  induction l as [|x l IH]; [now exists []|]. cbn [mapM]. destruct (H x) as [v ->]; [now left|]. destruct IH as [vs ->]; [intros; apply H; now right|]. cbn [bind]. eauto.
Qed.
Lemma beta_loop_some : forall (w : nonorth K) t (first : bool) col mb brows ac l (x sg : K),
  (forall u, In u l -> exists v, n_at w (ac ++ shifted (n_ns w) u ++ [if first then col else (col + n_ns w)%nat]) = Ok v) ->
  (forall u, In u l -> exists v, minor1 mb brows u = Ok v) -> exists v, beta_loop w t first col (Ok mb) brows ac x sg l = Ok v.
Proof.
  intros w t first col mb brows ac l. induction l as [|u l IH]; intros x sg Hg Hb; [now exists 0|]. cbn [beta_loop]. destruct (Hg u) as [v ->]; [now left|]. cbn [bind].
  destruct (Hb u) as [b Eb]; [now left|]. unfold minor1 in Eb.
  destruct (IH x (if Nat.eqb t 1 then sg * below_sign u col else sg)) as [rest Er]; [intros; apply Hg; now right|intros; apply Hb; now right|].
  destruct u as [|y u].
  - cbn [bind]. rewrite Er. cbn [bind]. eauto.
  - cbn [bind]. rewrite Eb. cbn [bind]. rewrite Er. cbn [bind]. eauto.
Qed.
End L.
