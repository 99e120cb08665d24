(** The dependence of the overlap on one parameter, for C64 *)
From Coq Require Import List ZArith NArith Arith Bool Lia Permutation Sorted.
From Verif Require Import Py BitSpec BitLemmas Fock FockLemmas Combos Slater SlaterBits SlaterBits2 SignLemmas Alg MathTools PermLemmas DetLemmas CILemmas Composite OrbSpec OrbLemmas OrbMain WedgeLemmas
  Jacobi JacobiSpec Nonorth NonorthSpec NonorthLemmas NonorthMain NonorthValues NonorthValues2 NonorthValues3.
Import ListNotations.
Section L.
Context {K : CRing}.
Local Open Scope cr_scope.
Add Ring K_ring97 : (rth K).
Lemma blocks_put_alpha : forall r c ns (a : matrix K) (b : nat -> nat -> K) (x : K) i j, (r < ns)%nat -> (c < ns)%nat ->
  blocks ns ns (m_at (put a r c x)) b i j = if (Nat.eqb i r && Nat.eqb j c)%bool then x else blocks ns ns (m_at a) b i j.
Proof.
  intros r c ns a b x i j Lr Lc. unfold blocks, put. cbn [m_at]. destruct (Nat.ltb_spec i ns), (Nat.ltb_spec j ns); auto.
  - destruct (Nat.eqb_spec i r), (Nat.eqb_spec j c); cbn [andb]; auto; lia.
  - destruct (Nat.eqb_spec i r), (Nat.eqb_spec j c); cbn [andb]; auto; lia.
  - destruct (Nat.eqb_spec i r), (Nat.eqb_spec j c); cbn [andb]; auto; lia.
Qed.
Lemma blocks_put_beta : forall r c ns (a : nat -> nat -> K) (b : matrix K) (x : K) i j,
  blocks ns ns a (m_at (put b r c x)) i j = if (Nat.eqb i (r + ns) && Nat.eqb j (c + ns))%bool then x else blocks ns ns a (m_at b) i j.
Proof.
  intros r c ns a b x i j. unfold blocks, put. cbn [m_at]. destruct (Nat.ltb_spec i ns), (Nat.ltb_spec j ns).
  - destruct (Nat.eqb_spec i (r + ns)), (Nat.eqb_spec j (c + ns)); cbn [andb]; auto; lia.
  - destruct (Nat.eqb_spec i (r + ns)), (Nat.eqb_spec j (c + ns)); cbn [andb]; auto; lia.
  - destruct (Nat.eqb_spec i (r + ns)), (Nat.eqb_spec j (c + ns)); cbn [andb]; auto; lia.
  - destruct (Nat.eqb_spec i (r + ns)), (Nat.eqb_spec j (c + ns)), (Nat.eqb_spec (i - ns) r), (Nat.eqb_spec (j - ns) c); cbn [andb]; auto; lia.
Qed.
Lemma blocks_at_alpha : forall ns (a b : nat -> nat -> K) i j, (i < ns)%nat -> (j < ns)%nat -> blocks ns ns a b i j = a i j.
Proof. intros ns a b i j Hi Hj. unfold blocks. now rewrite (proj2 (Nat.ltb_lt i ns) Hi), (proj2 (Nat.ltb_lt j ns) Hj). Qed.
Lemma blocks_at_beta : forall ns (a b : nat -> nat -> K) i j, blocks ns ns a b (i + ns)%nat (j + ns)%nat = b i j.
Proof. intros. unfold blocks. rewrite (proj2 (Nat.ltb_ge (i + ns) ns)), (proj2 (Nat.ltb_ge (j + ns) ns)) by lia. now rewrite !Nat.add_sub. Qed.
Section W.
Variables (w : nonorth K) (o : orbtype) (f : N -> K) (k : nat) (sd : N) (t r c : nat) (m : matrix K).
Hypothesis V : valid w o.
Hypothesis S : sized w o k.
Hypothesis F : overlaps_of (n_wfn w) k f.
Hypothesis W : within (Z.to_nat (n_nspin w)) sd.
Hypothesis El : has_electrons sd k.
Hypothesis Em : nth_error (n_params w) t = Some m.
Hypothesis Hr : (r < m_rows m)%nat.
Hypothesis Hc : (c < m_cols m)%nat.
Notation cols := (seq 0 (Z.to_nat (c_nspin (n_wfn w)))).
Definition at_x (x : K) : K := linsf cols (map (spin_matrix o (n_ns w) (n_wns w) (entries (put_at (n_params w) t r c x))) (occ_indices (Some sd))) f 0%N.
Definition at_0 : K := linsf cols (map (spin_matrix o (n_ns w) (n_wns w) (entries (n_params w))) (occ_indices (Some sd))) f 0%N.
Definition taylor (d : K) : Prop := exists e, forall x, at_x x = at_0 + (x - m_at m r c) * d + (x - m_at m r c) * (x - m_at m r c) * e.
Lemma place : n_place w (number (n_params w) t r c) = Ok (t, r, c).
Proof.
  destruct V as (_ & T & _). destruct o, (n_params w) as [|a [|b [|? ?]]] eqn:Ep; try contradiction; cbn [transforms] in T.
  - destruct t as [|u]; [|destruct u; discriminate]. injection Em as ->. rewrite <- Ep. apply (place_ok w 0 r c m m); auto; unfold n_mat; now rewrite Ep.
  - destruct T as [[T1 T2] [T3 T4]]. destruct t as [|[|u]]; [| |destruct u; discriminate]; injection Em as ->; rewrite <- Ep.
    + apply (place_ok w 0 r c m m); auto; unfold n_mat; now rewrite Ep.
    + apply (place_ok w 1 r c a m); try (unfold n_mat; now rewrite Ep); congruence.
  - destruct t as [|u]; [|destruct u; discriminate]. injection Em as ->. rewrite <- Ep. apply (place_ok w 0 r c m m); auto; unfold n_mat; now rewrite Ep.
Qed.
(** a matrix whose row [R] and column [Q] is the parameter, and no other entry of the rows that are used *)
Lemma affine_taylor : forall R Q l1 l2, (Q < Z.to_nat (c_nspin (n_wfn w)))%nat -> occ_indices (Some sd) = l1 ++ R :: l2 ->
  spin_matrix o (n_ns w) (n_wns w) (entries (n_params w)) R Q = m_at m r c ->
  (forall x i j, bit sd i = true -> (j < Z.to_nat (c_nspin (n_wfn w)))%nat ->
    spin_matrix o (n_ns w) (n_wns w) (entries (put_at (n_params w) t r c x)) i j = if (Nat.eqb i R && Nat.eqb j Q)%bool then x else spin_matrix o (n_ns w) (n_wns w) (entries (n_params w)) i j) ->
  taylor (slope cols (spin_matrix o (n_ns w) (n_wns w) (entries (n_params w))) l1 l2 Q f).
Proof.
  intros R Q l1 l2 HQ Eo E0 Ex. exists 0. intros x. unfold at_x, at_0. pose proof (occ_indices_increasing (Some sd)) as I. apply increasing_NoDup in I.
  assert (Ib : forall i, In i (l1 ++ R :: l2) -> bit sd i = true) by (intros i Hi; rewrite <- Eo in Hi; now apply occ_indices_In).
  rewrite Eo in *. apply NoDup_remove_2 in I. rewrite (linsf_affine cols (spin_matrix o (n_ns w) (n_wns w) (entries (n_params w))) _ R Q x).
  - rewrite E0. unfold slope. ring.
  - apply seq_NoDup.
  - apply in_seq. lia.
  - intros X. apply I, in_app_iff. now left.
  - intros X. apply I, in_app_iff. now right.
  - intros i j Hi Hj. apply in_seq in Hj. apply Ex; [now apply Ib|lia].
Qed.
Lemma constant_taylor : (forall x i j, bit sd i = true -> (j < Z.to_nat (c_nspin (n_wfn w)))%nat ->
    spin_matrix o (n_ns w) (n_wns w) (entries (put_at (n_params w) t r c x)) i j = spin_matrix o (n_ns w) (n_wns w) (entries (n_params w)) i j) -> taylor 0.
Proof.
  intros Ex. exists 0. intros x. unfold at_x, at_0. rewrite (linsf_rows cols _ (map (spin_matrix o (n_ns w) (n_wns w) (entries (n_params w))) (occ_indices (Some sd)))); [ring|].
  apply Forall2_map_in. intros i Hi j Hj. apply occ_indices_In in Hi. apply in_seq in Hj. apply Ex; auto. lia.
Qed.
End W.
Section W2.
Variables (w : nonorth K) (o : orbtype) (f : N -> K) (k : nat) (sd : N) (t r c : nat) (m : matrix K).
Hypothesis V : valid w o.
Hypothesis S : sized w o k.
Hypothesis F : overlaps_of (n_wfn w) k f.
Hypothesis W : within (Z.to_nat (n_nspin w)) sd.
Hypothesis El : has_electrons sd k.
Hypothesis Em : nth_error (n_params w) t = Some m.
Hypothesis Hr : (r < m_rows m)%nat.
Hypothesis Hc : (c < m_cols m)%nat.
Notation cols := (seq 0 (Z.to_nat (c_nspin (n_wfn w)))).
(** generalized orbitals *)
Lemma dolp_taylor_general : o = Generalized ->
  skipped w sd t r = true /\ taylor w o f sd t r c m 0 \/ skipped w sd t r = false /\ exists d, n_dolp w (sd, number (n_params w) t r c) = Ok d /\ taylor w o f sd t r c m d.
Proof.
  intros O. pose proof V as Vo. rewrite O in Vo. destruct (valid_general w Vo) as (m' & Ep & Em' & R1 & R2). pose proof (place w o k t r c m V S Em Hr Hc) as Pl.
  assert (Et : t = 0%nat /\ m = m') by (rewrite Ep in Em; destruct t as [|[|u]]; try discriminate; injection Em as ->; auto). destruct Et as [Et <-].
  assert (Sk : skipped w sd t r = negb (bit sd r)) by (unfold skipped; rewrite (proj1 Vo), occ_bit; reflexivity). rewrite Sk.
  assert (SM : forall x, spin_matrix o (n_ns w) (n_wns w) (entries (put_at (n_params w) t r c x)) = m_at (put m r c x)) by (intros x; rewrite O, Ep, Et; reflexivity).
  assert (S0 : spin_matrix o (n_ns w) (n_wns w) (entries (n_params w)) = m_at m) by (rewrite O, Ep; reflexivity).
  destruct (bit sd r) eqn:B; cbn [negb]; [right|left]; (split; [reflexivity|]).
  - destruct (dolp_general w f k sd r c m Vo Em' F W El B Hc) as (l1 & l2 & Eo & D). exists (slope cols (m_at m) l1 l2 c f). split.
    + unfold n_dolp. cbn [fst snd]. rewrite Pl. cbn [bind]. rewrite (proj1 Vo). exact D.
    + rewrite <- S0. eapply affine_taylor with (R := r) (Q := c); auto; [lia|now rewrite S0|]. intros x i j _ _. rewrite SM, S0. reflexivity.
  - eapply constant_taylor; eauto. intros x i j Bi _. rewrite SM, S0. unfold put. cbn [m_at]. destruct (Nat.eqb_spec i r) as [->|]; [congruence|reflexivity].
Qed.
(** restricted and unrestricted orbitals *)
Lemma dolp_taylor_blocks : o <> Generalized -> differentiable o (n_ns w) sd t r ->
  skipped w sd t r = true /\ taylor w o f sd t r c m 0 \/ skipped w sd t r = false /\ exists d, n_dolp w (sd, number (n_params w) t r c) = Ok d /\ taylor w o f sd t r c m d.
Proof.
  intros G Df. assert (E : c_nspin (n_wfn w) = n_nspin w) by (unfold sized in S; destruct o; auto; congruence). pose proof (place w o k t r c m V S Em Hr Hc) as Pl.
  destruct (valid_blocks w o V G E) as (ma & mb & Ea & Eb & R1 & R2 & R3 & R4 & S0 & Ew & Rm). destruct (valid_half w o V) as [H2 Hn].
  destruct (split_rows sd (n_nspin w) H2) as (al & be & Es & Eo & Ha & Hb). fold (n_ns w) in Eo, Ha, Hb.
  assert (Rc : (r < n_ns w)%nat /\ (c < n_ns w)%nat).
  { destruct V as (_ & T & _). rewrite E in T. destruct o, (n_params w) as [|a [|b [|? ?]]]; try contradiction; try congruence; cbn [transforms] in T; unfold n_ns.
    - destruct T as [T1 T2]. destruct t as [|[|u]]; try discriminate. injection Em as ->. lia.
    - destruct T as [[T1 T2] [T3 T4]]. destruct t as [|[|[|u]]]; try discriminate; injection Em as ->; lia. }
  destruct Rc as [Lr Lc].
  assert (Ba : forall i, (i < n_ns w)%nat -> occ (Some al) i = bit sd i) by (intros i Hi; rewrite occ_bit; apply eq_true_iff_eq; rewrite <- occ_indices_In, Ha; tauto).
  assert (Bb : forall i, occ (Some be) i = bit sd (i + n_ns w)%nat) by (intros i; rewrite occ_bit; apply eq_true_iff_eq; rewrite <- occ_indices_In; apply Hb).
  assert (Sz : Z.to_nat (c_nspin (n_wfn w)) = (n_ns w + n_ns w)%nat) by now rewrite E.
  assert (D0 : n_dolp w (sd, number (n_params w) t r c) =
    if negb (bit sd r || bit sd (r + n_ns w)) then Ok 0 else
    match o with Restricted => if (bit sd r && bit sd (r + n_ns w))%bool then deriv_both w al be r c else deriv_one w (Some o) t al be r c | _ => deriv_one w (Some o) t al be r c end).
  { unfold n_dolp. cbn [fst snd]. rewrite Pl. cbn [bind]. rewrite (proj1 V). rewrite <- (Ba r Lr), <- Bb. destruct o; [| |congruence]; rewrite Es; reflexivity. }
  destruct o; [| |congruence].
  - (* restricted *) specialize (Rm eq_refl). subst mb.
    assert (Tm : t = 0%nat /\ m = ma) by (destruct V as (_ & T & _); unfold n_mat in Ea; destruct (n_params w) as [|a [|b [|? ?]]]; try contradiction; destruct t as [|[|u]]; try discriminate; injection Em as ->; apply Ok_inj in Ea; auto).
    destruct Tm as [Tt <-].
    assert (SM : forall x, spin_matrix Restricted (n_ns w) (n_wns w) (entries (put_at (n_params w) t r c x)) = blocks (n_ns w) (n_ns w) (m_at (put m r c x)) (m_at (put m r c x))).
    { intros x. rewrite Ew, Tt. destruct V as (_ & T & _). unfold n_mat in Ea. destruct (n_params w) as [|a [|b [|? ?]]]; try contradiction. injection Ea as ->. reflexivity. }
    assert (Sk : skipped w sd t r = negb (bit sd r || bit sd (r + n_ns w))) by (unfold skipped; rewrite (proj1 V), !occ_bit; reflexivity). rewrite Sk, D0.
    cbn [differentiable] in Df. destruct (bit sd r) eqn:B1, (bit sd (r + n_ns w)) eqn:B2; cbn [orb negb andb].
    + (* a pair *) right. split; [reflexivity|]. destruct Df as [Df|Df]; [congruence|].
      assert (Oa : occ_indices (Some al) = [r]).
      { apply increasing_ext; [apply occ_indices_increasing|repeat constructor|]. intros i. rewrite Ha. cbn [In]. split; [intros [L X]; apply Df in X; left; lia|intros [<-|[]]; auto]. }
      assert (Ob : occ_indices (Some be) = [r]).
      { apply increasing_ext; [apply occ_indices_increasing|repeat constructor|]. intros i. rewrite Hb. cbn [In]. split; [intros X; apply Df in X; left; lia|intros [<-|[]]; auto]. }
      assert (K2 : k = 2%nat) by (rewrite <- (occ_length _ _ El), Eo, Oa, Ob; reflexivity). rewrite K2 in F.
      set (Fn := fun i j => f (adds 0 [i; (j + n_ns w)%nat])).
      assert (D : deriv_both w al be r c = Ok ((m_at m r c + m_at m r c) * Fn c c + sumf (fun j => m_at m r j * Fn c j) (others (n_ns w) c) + sumf (fun i => m_at m r i * Fn i c) (others (n_ns w) c))) by exact (deriv_pair w f r c al be m V E F Ea Oa Ob Lr Lc).
      rewrite D. eexists. split; [reflexivity|]. exists (Fn c c). intros x. unfold at_x, at_0. rewrite SM, Ew, S0, Eo, Oa, Ob, Sz.
      rewrite !linsf_block_rows by (intros i [<-|[]]; exact Lr). rewrite !pair_sum.
      assert (Q : forall y (g : nat -> K), g c = y -> (forall j, j <> c -> g j = m_at m r j) ->
        sumf (fun i => sumf (fun j => g i * g j * f (adds 0 [i; (j + n_ns w)%nat])) (seq 0 (n_ns w))) (seq 0 (n_ns w)) =
        y * y * Fn c c + y * sumf (fun j => m_at m r j * Fn c j) (others (n_ns w) c) + y * sumf (fun i => m_at m r i * Fn i c) (others (n_ns w) c) +
        sumf (fun i => sumf (fun j => m_at m r i * m_at m r j * Fn i j) (others (n_ns w) c)) (others (n_ns w) c)).
      { intros y g G1 G2. rewrite (sumf_apart _ c) by auto. rewrite (sumf_apart _ c (fun j => g c * g j * _)) by auto. rewrite G1.
        rewrite (sumf_ext (fun j => y * g j * f (adds 0 [c; (j + n_ns w)%nat])) (fun j => y * (m_at m r j * Fn c j)) (others (n_ns w) c)) by (intros j Hj; apply others_In in Hj as [_ Hj]; rewrite G2 by auto; unfold Fn; ring).
        rewrite sumf_mul_l.
        rewrite (sumf_ext (fun i => sumf (fun j => g i * g j * f (adds 0 [i; (j + n_ns w)%nat])) (seq 0 (n_ns w))) (fun i => y * (m_at m r i * Fn i c) + sumf (fun j => m_at m r i * m_at m r j * Fn i j) (others (n_ns w) c)) (others (n_ns w) c)).
        - rewrite sumf_add, sumf_mul_l. change (f (adds 0 [c; (c + n_ns w)%nat])) with (Fn c c). ring.
        - intros i Hi. apply others_In in Hi as [_ Hi]. rewrite (sumf_apart _ c) by auto. rewrite G1, (G2 i) by auto. f_equal; [unfold Fn; ring|].
          apply sumf_ext. intros j Hj. apply others_In in Hj as [_ Hj]. rewrite (G2 j) by auto. reflexivity. }
      rewrite (Q x (m_at (put m r c x) r)), (Q (m_at m r c) (m_at m r)); auto.
      * ring.
      * unfold put. cbn [m_at]. now rewrite !Nat.eqb_refl.
      * intros j Hj. unfold put. cbn [m_at]. rewrite (proj2 (Nat.eqb_neq j c)) by auto. now rewrite andb_false_r.
    + (* alpha only *) right. split; [reflexivity|].
      destruct (deriv_one_alpha w Restricted f k sd r c al be m m V G E F W El Ea Eb Es B1 Lr Lc) as (l1 & l2 & El' & D). rewrite Tt, D. eexists. split; [reflexivity|].
      enough (X : taylor w Restricted f sd t r c m (slope cols (spin_matrix Restricted (n_ns w) (n_wns w) (entries (n_params w))) l1 l2 c f)) by (rewrite Ew, S0, Sz in X; rewrite ?Tt in X; rewrite ?Tt; exact X). eapply affine_taylor with (R := r) (Q := c); auto; [lia|rewrite Ew, S0; now apply blocks_at_alpha|].
      intros x i j Bi Hj. rewrite SM, Ew, S0, blocks_put_beta, blocks_put_alpha by auto.
      destruct (Nat.eqb_spec i (r + n_ns w)) as [->|]; [congruence|]. reflexivity.
    + (* a single beta electron *) right. split; [reflexivity|]. destruct Df as [Df|Df]; [congruence|].
      assert (Oa : occ_indices (Some al) = []).
      { destruct (occ_indices (Some al)) as [|y l] eqn:X; auto. exfalso. destruct (proj1 (Ha y) (or_introl eq_refl)) as [L Y]. pose proof (Df y Y). assert (y = r) by lia. congruence. }
      assert (Ob : occ_indices (Some be) = [r]).
      { apply increasing_ext; [apply occ_indices_increasing|repeat constructor|]. intros i. rewrite Hb. cbn [In]. split; [intros X; apply Df in X; left; lia|intros [<-|[]]; auto]. }
      destruct (deriv_one_beta w Restricted t f k sd r c al be m m V G E F W El Ea Eb Es Ob Lr Lc (conj Tt Oa)) as (l1 & l2 & El' & D). rewrite D. eexists. split; [reflexivity|].
      enough (X : taylor w Restricted f sd t r c m (slope cols (spin_matrix Restricted (n_ns w) (n_wns w) (entries (n_params w))) l1 l2 (c + n_ns w) f)) by (rewrite Ew, S0, Sz in X; rewrite ?Tt in X; rewrite ?Tt; exact X). eapply affine_taylor with (R := (r + n_ns w)%nat) (Q := (c + n_ns w)%nat); auto; [lia|rewrite Ew, S0; apply blocks_at_beta|].
      intros x i j Bi Hj. rewrite SM, Ew, S0, blocks_put_beta, blocks_put_alpha by auto.
      destruct (Nat.eqb_spec i r) as [->|]; [congruence|]. reflexivity.
    + left. split; [reflexivity|]. eapply constant_taylor; eauto. intros x i j Bi Hj. rewrite SM, Ew, S0, blocks_put_beta, blocks_put_alpha by auto.
      destruct (Nat.eqb_spec i (r + n_ns w)) as [Q1|]; [rewrite Q1 in Bi; congruence|]. destruct (Nat.eqb_spec i r) as [Q1|]; [rewrite Q1 in Bi; congruence|]. reflexivity.
  - (* unrestricted *)
    assert (Sk : skipped w sd t r = negb (bit sd (r + t * n_ns w))) by (unfold skipped; rewrite (proj1 V), !occ_bit; reflexivity). rewrite Sk, D0.
    assert (Tm : t = 0%nat /\ m = ma \/ t = 1%nat /\ m = mb).
    { destruct V as (_ & T & _); unfold n_mat in Ea, Eb. cbn [beta_of] in Eb. destruct (n_params w) as [|a [|b [|? ?]]]; try contradiction; destruct t as [|[|[|u]]]; try discriminate; injection Em as ->; apply Ok_inj in Ea, Eb; auto. }
    destruct Tm as [[Tt ->]|[Tt ->]].
    + assert (SM : forall x, spin_matrix Unrestricted (n_ns w) (n_wns w) (entries (put_at (n_params w) t r c x)) = blocks (n_ns w) (n_ns w) (m_at (put ma r c x)) (m_at mb)).
      { intros x. rewrite Ew, Tt. destruct V as (_ & T & _). unfold n_mat in Ea, Eb. cbn [beta_of] in Eb. destruct (n_params w) as [|a [|b [|? ?]]]; try contradiction. injection Ea as ->. injection Eb as ->. reflexivity. }
      assert (Nt : (r + t * n_ns w)%nat = r) by (rewrite Tt; lia). rewrite Nt. destruct (bit sd r) eqn:B1; cbn [negb orb].
      * right. split; [reflexivity|]. destruct (deriv_one_alpha w Unrestricted f k sd r c al be ma mb V G E F W El Ea Eb Es B1 Lr Lc) as (l1 & l2 & El' & D). replace (deriv_one w (Some Unrestricted) t al be r c) with (deriv_one w (Some Unrestricted) 0 al be r c) by now rewrite Tt. rewrite D. eexists. split; [reflexivity|].
        enough (X : taylor w Unrestricted f sd t r c ma (slope cols (spin_matrix Unrestricted (n_ns w) (n_wns w) (entries (n_params w))) l1 l2 c f)) by (rewrite Ew, S0, Sz in X; rewrite ?Tt in X; rewrite ?Tt; exact X). eapply affine_taylor with (R := r) (Q := c); auto; [lia|rewrite Ew, S0; now apply blocks_at_alpha|].
        intros x i j Bi Hj. rewrite SM, Ew, S0, blocks_put_alpha by auto. reflexivity.
      * left. split; [reflexivity|]. eapply constant_taylor; eauto. intros x i j Bi Hj. rewrite SM, Ew, S0, blocks_put_alpha by auto.
        destruct (Nat.eqb_spec i r) as [->|]; [congruence|]. reflexivity.
    + assert (SM : forall x, spin_matrix Unrestricted (n_ns w) (n_wns w) (entries (put_at (n_params w) t r c x)) = blocks (n_ns w) (n_ns w) (m_at ma) (m_at (put mb r c x))).
      { intros x. rewrite Ew, Tt. destruct V as (_ & T & _). unfold n_mat in Ea, Eb. cbn [beta_of] in Eb. destruct (n_params w) as [|a [|b [|? ?]]]; try contradiction. injection Ea as ->. injection Eb as ->. reflexivity. }
      assert (Nt : (r + t * n_ns w)%nat = (r + n_ns w)%nat) by (rewrite Tt; lia). rewrite Nt. destruct (bit sd (r + n_ns w)) eqn:B1; cbn [negb].
      * right. rewrite orb_true_r. cbn [negb]. split; [reflexivity|]. cbn [differentiable] in Df. destruct Df as [Df|[Df|Df]]; [lia| |congruence].
        assert (Ob : occ_indices (Some be) = [r]).
        { assert (X : N.shiftr sd (N.of_nat (n_ns w)) = be).
          { apply bit_ext. intros i. apply eq_true_iff_eq. rewrite <- (occ_indices_In be i), Hb. unfold bit. rewrite N.shiftr_spec by lia. rewrite <- Nat2N.inj_add. reflexivity. }
          rewrite X in Df. apply occ_length in Df. assert (I : In r (occ_indices (Some be))) by now apply Hb.
          destruct (occ_indices (Some be)) as [|y [|? ?]]; try discriminate. destruct I as [->|[]]. reflexivity. }
        destruct (deriv_one_beta w Unrestricted t f k sd r c al be ma mb V G E F W El Ea Eb Es Ob Lr Lc Tt) as (l1 & l2 & El' & D). rewrite D. eexists. split; [reflexivity|].
        enough (X : taylor w Unrestricted f sd t r c mb (slope cols (spin_matrix Unrestricted (n_ns w) (n_wns w) (entries (n_params w))) l1 l2 (c + n_ns w) f)) by (rewrite Ew, S0, Sz in X; rewrite ?Tt in X; rewrite ?Tt; exact X). eapply affine_taylor with (R := (r + n_ns w)%nat) (Q := (c + n_ns w)%nat); auto; [lia|rewrite Ew, S0; apply blocks_at_beta|].
        intros x i j Bi Hj. rewrite SM, Ew, S0, blocks_put_beta. reflexivity.
      * left. split; [reflexivity|]. eapply constant_taylor; eauto. intros x i j Bi Hj. rewrite SM, Ew, S0, blocks_put_beta by auto.
        destruct (Nat.eqb_spec i (r + n_ns w)) as [->|]; [congruence|]. reflexivity.
Qed.
(** whatever the case, the derivatives that are asked for exist *)
Lemma dolp_some : skipped w sd t r = false -> exists d, n_dolp w (sd, number (n_params w) t r c) = Ok d.
Proof.
  intros Sk. destruct (match o with Generalized => true | _ => false end) eqn:Og.
  { assert (O : o = Generalized) by (destruct o; congruence). destruct (dolp_taylor_general O) as [[X _]|(_ & d & D & _)]; [congruence|eauto]. }
  assert (G : o <> Generalized) by (intros X; rewrite X in Og; discriminate).
  assert (E : c_nspin (n_wfn w) = n_nspin w) by (unfold sized in S; destruct o; auto; congruence). pose proof (place w o k t r c m V S Em Hr Hc) as Pl.
  destruct (valid_blocks w o V G E) as (ma & mb & Ea & Eb & R1 & R2 & R3 & R4 & S0 & Ew & Rm). destruct (valid_half w o V) as [H2 Hn].
  destruct (split_rows sd (n_nspin w) H2) as (al & be & Es & Eo & Ha & Hb). fold (n_ns w) in Eo, Ha, Hb.
  destruct (facts w o k sd al be ma mb V G E W El Ea Eb Es) as (_ & _ & _ & _ & _ & _ & _ & _ & _ & Ba & Bb).
  assert (Rc : (r < n_ns w)%nat /\ (c < n_ns w)%nat).
  { destruct V as (_ & T & _). rewrite E in T. destruct o, (n_params w) as [|a [|b [|? ?]]]; try contradiction; try congruence; cbn [transforms] in T; unfold n_ns.
    - destruct T as [T1 T2]. destruct t as [|[|u]]; try discriminate. injection Em as ->. lia.
    - destruct T as [[T1 T2] [T3 T4]]. destruct t as [|[|[|u]]]; try discriminate; injection Em as ->; lia. }
  destruct Rc as [Lr Lc]. unfold n_dolp. cbn [fst snd]. rewrite Pl. cbn [bind]. rewrite (proj1 V).
  assert (X : exists d, (do ab <- split_spin sd (n_nspin w / 2);
     if negb (occ (Some (fst ab)) r || occ (Some (snd ab)) r) then Ok 0 else
     match o with Restricted => if (occ (Some (fst ab)) r && occ (Some (snd ab)) r)%bool then deriv_both w (fst ab) (snd ab) r c else deriv_one w (Some o) t (fst ab) (snd ab) r c
     | _ => deriv_one w (Some o) t (fst ab) (snd ab) r c end) = Ok d); [|destruct o; [exact X|exact X|congruence]].
  rewrite Es. cbn [bind fst snd]. rewrite !occ_bit. destruct (bit al r || bit be r)%bool eqn:Bo; cbn [negb]; [|eauto].
  pose proof (deriv_one_some w o f k sd al be ma mb V G E F W El Ea Eb Es t r c) as D1. cbn zeta in D1.
  unfold skipped in Sk. rewrite (proj1 V), ?occ_bit in Sk. destruct o; [| |congruence].
  - destruct (bit al r) eqn:B1, (bit be r) eqn:B2; try discriminate; cbn [andb].
    + now apply (deriv_both_some w Restricted f k sd al be ma mb V G E F W El Ea Eb Es r c).
    + apply D1; auto. now rewrite occ_bit, B1.
    + apply D1; auto. now rewrite occ_bit, B1.
  - apply D1; auto. apply negb_false_iff in Sk. assert (Tm : t = 0%nat \/ t = 1%nat).
    { destruct V as (_ & T & _). destruct (n_params w) as [|a [|b [|? ?]]]; try contradiction. destruct t as [|[|[|u]]]; try discriminate; auto. }
    destruct Tm as [Tt|Tt]; rewrite Tt in Sk |- *; cbn [Nat.eqb Nat.mul] in *; rewrite Nat.add_0_r in Sk; [now rewrite Ba|now rewrite Bb].
Qed.
End W2.
End L.
