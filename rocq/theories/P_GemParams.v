(** C61: default and copied parameters of geminal wavefunctions *)
From Coq Require Import List ZArith NArith Arith Bool Lia Permutation Sorted Ring_theory QArith Qcanon.
From Verif Require Import P_CI.
From Verif Require Import Py Slater BitSpec BitLemmas SlaterBits SlaterBits2 Combos Fock Alg FockInner SignSpec SignLemmas
  Graphs GraphSpec MatchSpec MatchLemmas GeneralLemmas MathTools SdLemmas PermLemmas HamLemmas P_Permanent
  BicliqueLemmas BicliqueMain WfnCI Geminal GemPairs CreSpec CreLemmas P_Slater2 P_Graphs GemSpec P_GemPairs
  GemMain GemSchemes GemOlp GemWf CILemmas GemFinal GemEx P_Geminal P_Slater1 CompMain2 CompLemmas.
Import ListNotations.
Local Open Scope nat_scope.

Lemma snd_enumerate : forall {A} (l : list A), map snd (enumerate l) = l.
Proof.
  intros A l. unfold enumerate. generalize 0. induction l as [|x l IH]; intros n; [reflexivity|]. cbn [length seq combine map snd]. now rewrite IH.
Qed.
Lemma cell_inj : forall n r i r' i', i < n -> i' < n -> r * n + i = r' * n + i' -> r = r' /\ i = i'.
Proof.
  intros n r i r' i' H H' E. assert (r = r').
  { rewrite (Nat.div_unique (r * n + i) n r i), E by lia. symmetry. apply Nat.div_unique with i'; lia. }
  subst. lia.
Qed.
Lemma swaps_pairs : forall (k : Z) (T : list Z),
  swaps (length T * (length T - 1) / 2) (flat (map (fun i => (i, i + k)%Z) T)) (T ++ map (fun i => (i + k)%Z) T).
Proof.
  intros k. induction T as [|i T IH]; [constructor|]. cbn [map flat].
  replace (length (i :: T) * (length (i :: T) - 1) / 2) with (length T * (length T - 1) / 2 + length T).
  2:{ cbn [length]. replace (S (length T) * (S (length T) - 1)) with (length T * (length T - 1) + length T * 2) by nia. rewrite Nat.div_add by lia. reflexivity. }
  cbn [app]. apply swaps_cons. eapply swaps_trans.
  - apply swaps_cons. exact IH.
  - cbn [map]. change (i + k :: map (fun i => i + k) T)%Z with ([i + k] ++ map (fun i => i + k) T)%Z. rewrite app_assoc.
    apply (swaps_app_r _ ((i + k)%Z :: T)). apply swaps_move.
Qed.

Lemma flat_map_disjoint : forall {A B} (f : A -> list B) l x y z, NoDup (flat_map f l) -> In x l -> In y l -> In z (f x) -> In z (f y) -> x = y.
Proof.
  intros A B f l. induction l as [|a l IH]; intros x y z N Hx Hy Zx Zy; [destruct Hx|]. cbn [flat_map] in N. apply NoDup_app_iff in N as (N1 & N2 & D).
  destruct Hx as [->|Hx], Hy as [->|Hy]; auto.
  - exfalso. apply (D z); auto. apply in_flat_map. eauto.
  - exfalso. apply (D z); auto. apply in_flat_map. eauto.
  - eapply IH; eauto.
Qed.

Section P.
Context {K : CField}.
Local Open Scope cr_scope.
Add Ring K_ring76 : (rth K).

Lemma pairs_lt : forall c nelec nspin ngem o ps (w : gem K), new_gem c nelec nspin ngem o ps = Ok w ->
  forall p, In p (gm_pairs w) -> (fst p < snd p)%Z.
Proof.
  intros c nelec nspin ngem o ps w E p Hp. apply new_gem_inv in E as (_ & _ & _ & _ & (k & Hk & Ek) & Eo & _).
  unfold assign_orbpairs in Eo. destruct c, o; try discriminate.
  - injection Eo as Eo. rewrite <- Eo in Hp. apply all_pairs_In in Hp. lia.
  - apply C42_apig in Eo as (L & _). auto.
  - apply C42_apig in Eo as (L & _). auto.
  - injection Eo as Eo. rewrite <- Eo in Hp. apply ab_In in Hp. lia.
Qed.

(** *** the default parameters *)
Lemma default_loop_value : forall (w : gem K) (is : list nat) (l : list K),
  (forall p c, (fst p < snd p)%Z -> (col_ind w p = Ok c <-> (0 <= c)%Z /\ nth_error (gm_pairs w) (Z.to_nat c) = Some p)) ->
  (0 < gm_nspin w / 2)%Z -> NoDup is -> (forall i, In i is -> (i < gm_ngem w)%nat) -> length l = (gm_ngem w * norbpair w)%nat ->
  (forall i, In i is -> In (Z.of_nat i, Z.of_nat i + gm_nspin w / 2)%Z (gm_pairs w)) ->
  exists l', default_loop w is l = Ok l' /\ length l' = length l /\
    forall r i p, (r < gm_ngem w)%nat -> nth_error (gm_pairs w) i = Some p ->
      nth (r * norbpair w + i)%nat l' 0 =
      nth (r * norbpair w + i)%nat l 0 + (if (existsb (Nat.eqb r) is && zpair_eqb p (Z.of_nat r, Z.of_nat r + gm_nspin w / 2)%Z)%bool then 1 else 0).
Proof.
  intros w is. induction is as [|x is IH]; intros l Hc Hs N B L I; cbn [default_loop].
  - exists l. split; auto. split; auto. intros r i p Hr Hi. cbn [existsb andb]. ring.
  - assert (Ix := I x (or_introl eq_refl)). apply In_nth_error in Ix as [j Hj].
    rewrite (proj2 (Hc (Z.of_nat x, (Z.of_nat x + gm_nspin w / 2)%Z) (Z.of_nat j) ltac:(cbn [fst snd]; lia))) by (rewrite Nat2Z.id; split; [lia|auto]).
    cbn [bind]. rewrite Nat2Z.id. inversion N as [|? ? N1 N2]; subst.
    assert (Hj' : (j < norbpair w)%nat) by (apply nth_error_Some; congruence).
    assert (Bx := B x (or_introl eq_refl)).
    assert (Lp : (x * norbpair w + j < length l)%nat) by (rewrite L; nia).
    destruct (IH (upd l (x * norbpair w + j)%nat (nth (x * norbpair w + j)%nat l 0 + 1))) as (l' & E & L' & V); auto.
    + intros i Hi. apply B. now right.
    + now rewrite upd_length'.
    + intros i Hi. apply I. now right.
    + exists l'. split; auto. split; [now rewrite L', upd_length'|]. intros r i p Hr Hi. rewrite (V r i p Hr Hi), nth_upd by auto. cbn [existsb].
      assert (Hi' : (i < norbpair w)%nat) by (apply nth_error_Some; congruence).
      destruct (Nat.eqb_spec (x * norbpair w + j) (r * norbpair w + i)) as [Q|Q].
      * apply cell_inj in Q as [Q1 Q2]; auto. subst r i. rewrite Nat.eqb_refl. cbn [orb].
        destruct (existsb (Nat.eqb x) is) eqn:X.
        { exfalso. apply existsb_exists in X as (y & Hy & Ey). apply Nat.eqb_eq in Ey. subst y. contradiction. }
        assert (Ep : p = (Z.of_nat x, Z.of_nat x + gm_nspin w / 2)%Z) by congruence. subst p. cbn [andb].
        unfold zpair_eqb. rewrite !Z.eqb_refl. cbn [andb]. ring.
      * destruct (Nat.eqb_spec r x) as [->|]; [|reflexivity]. cbn [orb].
        destruct (existsb (Nat.eqb x) is) eqn:X.
        { exfalso. apply existsb_exists in X as (y & Hy & Ey). apply Nat.eqb_eq in Ey. subst y. contradiction. }
        cbn [andb]. destruct (zpair_eqb p (Z.of_nat x, Z.of_nat x + gm_nspin w / 2)%Z) eqn:Z0; auto. exfalso.
        apply zpair_eqb_eq in Z0. subst p. apply Q. f_equal.
        assert (Ej := proj2 (Hc (Z.of_nat x, (Z.of_nat x + gm_nspin w / 2)%Z) (Z.of_nat j) ltac:(cbn [fst snd]; lia)) ltac:(rewrite Nat2Z.id; split; [lia|auto])).
        assert (Ei := proj2 (Hc (Z.of_nat x, (Z.of_nat x + gm_nspin w / 2)%Z) (Z.of_nat i) ltac:(cbn [fst snd]; lia)) ltac:(rewrite Nat2Z.id; split; [lia|auto])).
        rewrite Ej in Ei. injection Ei. lia.
Qed.
Lemma default_loop_missing : forall (w : gem K) (is : list nat) (l : list K) x,
  (forall p c, (fst p < snd p)%Z -> (col_ind w p = Ok c <-> (0 <= c)%Z /\ nth_error (gm_pairs w) (Z.to_nat c) = Some p)) ->
  (0 < gm_nspin w / 2)%Z -> In x is -> ~ In (Z.of_nat x, Z.of_nat x + gm_nspin w / 2)%Z (gm_pairs w) -> default_loop w is l = Err ValueError.
Proof.
  intros w is. induction is as [|y is IH]; intros l x Hc Hs Hx Hn; [destruct Hx|]. cbn [default_loop].
  destruct (col_kind w (Z.of_nat y, (Z.of_nat y + gm_nspin w / 2)%Z)) as (c & [E|E]); rewrite E; [|reflexivity]. cbn [bind].
  destruct Hx as [->|Hx]; [|eapply IH; eauto].
  exfalso. apply Hc in E as [_ E]; [|cbn [fst snd]; lia]. apply Hn. eapply nth_error_In; eauto.
Qed.
Lemma default_loop_same : forall (w w' : gem K) is l, gm_class w = gm_class w' -> gm_nspin w = gm_nspin w' -> gm_pairs w = gm_pairs w' ->
  default_loop w is l = default_loop w' is l.
Proof.
  intros w w' is. induction is as [|x is IH]; intros l E1 E2 E3; cbn [default_loop]; [reflexivity|].
  unfold col_ind, norbpair. rewrite E1, E2, E3. destruct (match gm_class w' with GAPG => _ | GAPIG => _ | GSet => _ end); cbn [bind]; auto.
Qed.
Lemma copy_loop_same : forall (w w' other : gem K) items l, gm_class w = gm_class w' -> gm_nspin w = gm_nspin w' -> gm_pairs w = gm_pairs w' ->
  gm_ngem w = gm_ngem w' -> copy_loop w other items l = copy_loop w' other items l.
Proof.
  intros w w' other items. induction items as [|[x q] items IH]; intros l E1 E2 E3 E4; cbn [copy_loop]; [reflexivity|].
  unfold col_ind, set_column, norbpair. rewrite E1, E2, E3, E4. destruct (match gm_class other with GSet => _ | _ => _ end) as [z|[]]; auto.
Qed.
Lemma same_but_params : forall c nelec nspin ngem o l (w0 : gem K) ps, new_gem c nelec nspin ngem o (PArray l) = Ok w0 ->
  new_gem c nelec nspin ngem o ps = gem_assign_params w0 ps.
Proof.
  intros c nelec nspin ngem o l w0 ps E. unfold new_gem in *.
  destruct (gem_assign_nelec nelec) as [ne|] eqn:E1; [|discriminate]. cbn [bind] in *.
  destruct (assign_nspin nspin) as [ns|] eqn:E2; [|discriminate]. cbn [bind] in *.
  destruct (gem_assign_ngem ne ngem) as [ng|] eqn:E3; [|discriminate]. cbn [bind] in *.
  destruct (assign_orbpairs c ns o) as [pr|] eqn:E4; [|discriminate]. cbn [bind] in *.
  unfold gem_assign_params in E. cbn [bind] in E. destruct (negb _); [discriminate|]. injection E as <-.
  unfold gem_assign_params. cbn [gm_class gm_nelec gm_nspin gm_ngem gm_pairs gm_params]. unfold norbpair. cbn [gm_pairs].
  destruct ps as [|l'|other]; try reflexivity.
  - rewrite (default_loop_same (mkgem c ne ns ng pr ([] : list K)) (mkgem c ne ns ng pr l)) by reflexivity. reflexivity.
  - rewrite (copy_loop_same (mkgem c ne ns ng pr ([] : list K)) (mkgem c ne ns ng pr l)) by reflexivity. reflexivity.
Qed.

(** *** the parameters copied from another wavefunction *)
Lemma fold_column : forall (w other : gem K) c ind rs (l : list K), (c < norbpair w)%nat -> NoDup rs -> (forall r, In r rs -> (r < gm_ngem w)%nat) ->
  length l = (gm_ngem w * norbpair w)%nat ->
  let l' := fold_left (fun l r => upd l (r * norbpair w + c)%nat (nth (r * norbpair other + ind)%nat (gm_params other) 0)) rs l in
  length l' = length l /\
  forall r i, (r < gm_ngem w)%nat -> (i < norbpair w)%nat ->
    nth (r * norbpair w + i)%nat l' 0 =
    if (Nat.eqb i c && existsb (Nat.eqb r) rs)%bool then nth (r * norbpair other + ind)%nat (gm_params other) 0 else nth (r * norbpair w + i)%nat l 0.
Proof.
  intros w other c ind rs. induction rs as [|x rs IH]; intros l Hc N B L; cbn [fold_left].
  - split; auto. intros r i _ _. cbn [existsb]. now rewrite andb_false_r.
  - inversion N as [|? ? N1 N2]; subst. assert (Bx := B x (or_introl eq_refl)).
    destruct (IH (upd l (x * norbpair w + c)%nat (nth (x * norbpair other + ind)%nat (gm_params other) 0))) as [L' V]; auto.
    { intros r Hr. apply B. now right. } { now rewrite upd_length'. }
    split; [rewrite L'; apply upd_length'|]. intros r i Hr Hi. rewrite (V r i Hr Hi), nth_upd by (rewrite L; nia). cbn [existsb].
    destruct (Nat.eqb_spec i c) as [->|Ni]; cbn [andb].
    + destruct (Nat.eqb_spec r x) as [->|Nr]; cbn [orb].
      * destruct (existsb (Nat.eqb x) rs); auto. now rewrite Nat.eqb_refl.
      * destruct (existsb (Nat.eqb r) rs); auto. destruct (Nat.eqb_spec (x * norbpair w + c) (r * norbpair w + c)) as [Q|]; auto.
        apply cell_inj in Q; auto. intuition congruence.
    + destruct (Nat.eqb_spec (x * norbpair w + c) (r * norbpair w + i)) as [Q|]; auto. apply cell_inj in Q; auto. intuition congruence.
Qed.
Lemma set_column_value : forall (w other : gem K) c ind (l : list K), (c < norbpair w)%nat -> length l = (gm_ngem w * norbpair w)%nat ->
  length (set_column w other l c ind) = length l /\
  forall r i, (r < gm_ngem w)%nat -> (i < norbpair w)%nat ->
    nth (r * norbpair w + i)%nat (set_column w other l c ind) 0 =
    if Nat.eqb i c then nth (r * norbpair other + ind)%nat (gm_params other) 0 else nth (r * norbpair w + i)%nat l 0.
Proof.
  intros w other c ind l Hc L. destruct (fold_column w other c ind (seq 0 (gm_ngem w)) l Hc (seq_NoDup _ _)) as [L' V]; auto.
  { intros r Hr. apply in_seq in Hr. lia. }
  split; auto. intros r i Hr Hi. unfold set_column. rewrite (V r i Hr Hi).
  replace (existsb (Nat.eqb r) (seq 0 (gm_ngem w))) with true; [now rewrite andb_true_r|].
  symmetry. apply existsb_exists. exists r. split; [apply in_seq; lia|apply Nat.eqb_refl].
Qed.
Lemma copy_loop_value : forall (w other : gem K) items (l : list K),
  (forall p c, (fst p < snd p)%Z -> (col_ind w p = Ok c <-> (0 <= c)%Z /\ nth_error (gm_pairs w) (Z.to_nat c) = Some p)) -> NoDup (gm_pairs w) ->
  gm_class other <> GSet -> NoDup (map snd items) -> (forall x, In x items -> (fst (snd x) < snd (snd x))%Z) -> length l = (gm_ngem w * norbpair w)%nat ->
  exists l', copy_loop w other items l = Ok l' /\ length l' = length l /\
    forall r i p, (r < gm_ngem w)%nat -> nth_error (gm_pairs w) i = Some p ->
      (forall ind, In (ind, p) items -> nth (r * norbpair w + i)%nat l' 0 = nth (r * norbpair other + ind)%nat (gm_params other) 0) /\
      (~ In p (map snd items) -> nth (r * norbpair w + i)%nat l' 0 = nth (r * norbpair w + i)%nat l 0).
Proof.
  intros w other items. induction items as [|[ind q] items IH]; intros l Hc Np Ho N S L; cbn [copy_loop].
  - exists l. split; auto. split; auto. intros r i p Hr Hi. split; [intros ind []|auto].
  - cbn [map snd] in N. inversion N as [|? ? N1 N2]; subst. assert (Sq : (fst q < snd q)%Z) by apply (S (ind, q) (or_introl eq_refl)).
    assert (S' : forall x, In x items -> (fst (snd x) < snd (snd x))%Z) by (intros x Hx; apply S; now right).
    replace (match gm_class other with GSet => Err (col_of_int (gm_class w)) | _ => col_ind w q end) with (col_ind w q) by (destruct (gm_class other); congruence).
    destruct (col_ind w q) as [c|e] eqn:Ec.
    + apply Hc in Ec as [Pc Ec]; auto. assert (Lc : (Z.to_nat c < norbpair w)%nat) by (apply nth_error_Some; congruence).
      destruct (set_column_value w other (Z.to_nat c) ind l Lc L) as [L1 V1].
      destruct (IH (set_column w other l (Z.to_nat c) ind)) as (l' & E & L' & V); auto; [congruence|].
      exists l'. split; auto. split; [congruence|]. intros r i p Hr Hi. destruct (V r i p Hr Hi) as [A B].
      assert (Hi' : (i < norbpair w)%nat) by (apply nth_error_Some; congruence). split.
      * intros ind' [Q|Q]; [|now apply A]. injection Q as -> ->. rewrite B by auto. rewrite V1 by auto.
        assert (i = Z.to_nat c). { apply (proj1 (NoDup_nth_error _) Np); auto. congruence. }
        subst i. now rewrite Nat.eqb_refl.
      * intros Q. cbn [map snd] in Q. rewrite B by (intros X; apply Q; now right). rewrite V1 by auto.
        destruct (Nat.eqb_spec i (Z.to_nat c)) as [->|]; auto. exfalso. apply Q. left. cbn [snd]. congruence.
    + assert (e = ValueError) by (destruct (col_kind w q) as (z & [X|X]); congruence). subst e.
      destruct (IH l) as (l' & E & L' & V); auto. exists l'. split; auto. split; auto. intros r i p Hr Hi. destruct (V r i p Hr Hi) as [A B]. split.
      * intros ind' [Q|Q]; [|now apply A]. injection Q as -> ->. exfalso.
        assert (X : col_ind w p = Ok (Z.of_nat i)) by (apply Hc; auto; rewrite Nat2Z.id; split; [lia|auto]). congruence.
      * intros Q. apply B. intros X. apply Q. now right.
Qed.

(** C61: without parameters geminal r is the pair (r, r + nspatial) *)
Theorem C61_default : forall c nelec nspin ngem o (w : gem K), new_gem c nelec nspin ngem o PNone = Ok w ->
  coefficients w (fun r p => if zpair_eqb p (Z.of_nat r, Z.of_nat r + nspin / 2)%Z then 1 else 0).
Proof.
  intros c nelec nspin ngem o w E. pose proof (new_gem_wf _ _ _ _ _ _ _ E) as W. pose proof (new_gem_inv _ _ _ _ _ _ _ E) as (Ec & En & Es & _ & (k & Hk & Ek) & Eo & El).
  unfold new_gem in E.
  destruct (gem_assign_nelec nelec) as [ne|] eqn:E1; [|discriminate]. cbn [bind] in E.
  destruct (assign_nspin nspin) as [ns|] eqn:E2; [|discriminate]. cbn [bind] in E.
  destruct (gem_assign_ngem ne ngem) as [ng|] eqn:E3; [|discriminate]. cbn [bind] in E.
  destruct (assign_orbpairs c ns o) as [pr|] eqn:E4; [|discriminate]. cbn [bind] in E.
  unfold gem_assign_params in E. remember (mkgem c ne ns ng pr ([] : list K)) as u eqn:Eu.
  destruct (default_loop u (seq 0 (gm_ngem u)) (zeros (gm_ngem u * norbpair u))) as [l|] eqn:Ed; [|discriminate]. cbn [bind] in E.
  destruct (negb _) eqn:Elen; [discriminate|]. injection E as <-. cbn [gm_class gm_nelec gm_nspin gm_ngem gm_pairs gm_params] in *.
  assert (Hc : forall p z, (fst p < snd p)%Z -> (col_ind u p = Ok z <-> (0 <= z)%Z /\ nth_error (gm_pairs u) (Z.to_nat z) = Some p)).
  { intros p z Hp. rewrite <- (wf_col _ W p z Hp). unfold col_ind. cbn [gm_class gm_nspin gm_pairs]. reflexivity. }
  assert (Hs : (0 < gm_nspin u / 2)%Z) by (rewrite Es, Ek, (Z.mul_comm 2), Z.div_mul by lia; lia).
  assert (Hp : forall i, In i (seq 0 (gm_ngem u)) -> In (Z.of_nat i, Z.of_nat i + gm_nspin u / 2)%Z (gm_pairs u)).
  { intros i Hi. destruct (in_dec (fun a b : Z * Z => ltac:(decide equality; apply Z.eq_dec)) (Z.of_nat i, Z.of_nat i + gm_nspin u / 2)%Z (gm_pairs u)) as [Y|Y]; auto.
    exfalso. rewrite (default_loop_missing u _ _ i) in Ed; auto. discriminate. }
  destruct (default_loop_value u (seq 0 (gm_ngem u)) (zeros (gm_ngem u * norbpair u))) as (l' & E' & L' & V); auto.
  { apply seq_NoDup. } { intros i Hi. apply in_seq in Hi. lia. } { unfold zeros. apply repeat_length. }
  rewrite E' in Ed. injection Ed as ->. intros r i p Hr Hi. cbn [gm_ngem gm_pairs gm_params] in *.
  change (length (gm_pairs u)) with (norbpair u). rewrite (V r i p Hr Hi).
  replace (existsb (Nat.eqb r) (seq 0 (gm_ngem u))) with true.
  2:{ symmetry. apply existsb_exists. exists r. split; [apply in_seq; lia|apply Nat.eqb_refl]. }
  cbn [andb]. rewrite Es. unfold zeros. rewrite nth_repeat. destruct (zpair_eqb _ _); ring.
Qed.
(** they exist unless one of these pairs is missing *)
Theorem C61_default_defined : forall c nelec nspin ngem o l (w0 : gem K), new_gem c nelec nspin ngem o (PArray l) = Ok w0 ->
  ((forall i, (i < gm_ngem w0)%nat -> In (Z.of_nat i, Z.of_nat i + nspin / 2)%Z (gm_pairs w0)) ->
     exists w : gem K, new_gem c nelec nspin ngem o PNone = Ok w /\ gm_ngem w = gm_ngem w0 /\ gm_pairs w = gm_pairs w0) /\
  (~ (forall i, (i < gm_ngem w0)%nat -> In (Z.of_nat i, Z.of_nat i + nspin / 2)%Z (gm_pairs w0)) ->
     new_gem (K := K) c nelec nspin ngem o PNone = Err ValueError).
Proof.
  intros c nelec nspin ngem o l w0 E. pose proof (new_gem_wf _ _ _ _ _ _ _ E) as W.
  pose proof (new_gem_inv _ _ _ _ _ _ _ E) as (Ec & En & Es & _ & (k & Hk & Ek) & Eo & El).
  assert (Hs : (0 < gm_nspin w0 / 2)%Z) by (rewrite Es, Ek, (Z.mul_comm 2), Z.div_mul by lia; lia).
  rewrite (same_but_params _ _ _ _ _ _ _ PNone E). unfold gem_assign_params. split.
  - intros H. destruct (default_loop_value w0 (seq 0 (gm_ngem w0)) (zeros (gm_ngem w0 * norbpair w0)) (wf_col _ W)) as (l' & E' & L' & V); auto.
    { apply seq_NoDup. } { intros i Hi. apply in_seq in Hi. lia. } { unfold zeros. apply repeat_length. }
    { intros i Hi. rewrite Es. apply H. apply in_seq in Hi. lia. }
    rewrite E'. cbn [bind]. rewrite L'. unfold zeros. rewrite repeat_length, Nat.eqb_refl. cbn [negb]. eexists. split; [reflexivity|]. auto.
  - intros H. enough (X : exists i, In i (seq 0 (gm_ngem w0)) /\ ~ In (Z.of_nat i, Z.of_nat i + gm_nspin w0 / 2)%Z (gm_pairs w0)).
    + destruct X as (i & Hi & Ni). rewrite (default_loop_missing w0 _ _ i (wf_col _ W)); auto.
    + destruct (existsb (fun i => negb (existsb (zpair_eqb (Z.of_nat i, Z.of_nat i + gm_nspin w0 / 2)%Z) (gm_pairs w0))) (seq 0 (gm_ngem w0))) eqn:X.
      * apply existsb_exists in X as (i & Hi & X). exists i. split; auto. intros Y. apply existsb_pair in Y. rewrite Y in X. discriminate.
      * exfalso. apply H. intros i Hi. destruct (existsb (zpair_eqb (Z.of_nat i, Z.of_nat i + nspin / 2)%Z) (gm_pairs w0)) eqn:Y; [now apply existsb_pair in Y|].
        exfalso. clear H. assert (Z0 : existsb (fun i => negb (existsb (zpair_eqb (Z.of_nat i, Z.of_nat i + gm_nspin w0 / 2)%Z) (gm_pairs w0))) (seq 0 (gm_ngem w0)) = true).
        { apply existsb_exists. exists i. split; [apply in_seq; lia|]. now rewrite Es, Y. }
        congruence.
Qed.

Lemma any_params : forall c nelec nspin ngem o ps (w : gem K), new_gem c nelec nspin ngem o ps = Ok w -> new_gem c nelec nspin ngem o (PArray (gm_params w)) = Ok w.
Proof.
  intros c nelec nspin ngem o ps w E. unfold new_gem in *.
  destruct (gem_assign_nelec nelec) as [ne|]; [|discriminate]. cbn [bind] in *. destruct (assign_nspin nspin) as [ns|]; [|discriminate]. cbn [bind] in *.
  destruct (gem_assign_ngem ne ngem) as [ng|]; [|discriminate]. cbn [bind] in *. destruct (assign_orbpairs c ns o) as [pr|]; [|discriminate]. cbn [bind] in *.
  unfold gem_assign_params in *. destruct (match ps with PNone => _ | PArray l => _ | PGem _ => _ end) as [l|]; [|discriminate]. cbn [bind] in *.
  destruct (negb (length l =? _)) eqn:X; [discriminate|]. injection E as <-. cbn [gm_params]. rewrite X. reflexivity.
Qed.
Lemma default_product : forall pairs (k : Z) T m, NoDup pairs -> (forall r, In r T -> In (Z.of_nat r, Z.of_nat r + k)%Z pairs) ->
  gem_product pairs (map (fun r p => if zpair_eqb p (Z.of_nat r, Z.of_nat r + k)%Z then 1 else 0) T) m =
  cres (flat (map (fun i => (i, i + k)%Z) (map Z.of_nat T))) (vacuum (K := K)) m.
Proof.
  intros pairs k T m N. revert m. induction T as [|r T IH]; intros m H; [reflexivity|]. cbn [map gem_product fold_right flat]. rewrite !cres_cons.
  unfold geminal at 1. rewrite (sumf_single _ pairs (Z.of_nat r, Z.of_nat r + k)%Z N).
  - unfold zpair_eqb. rewrite !Z.eqb_refl. cbn [andb fst snd].
    transitivity (cre (K := K) (Z.of_nat r) (cre (Z.of_nat r + k)%Z (gem_product pairs (map (fun r p => if zpair_eqb p (Z.of_nat r, Z.of_nat r + k)%Z then 1 else 0) T))) m).
    + match goal with |- _ * ?x = _ => transitivity x; [ring|reflexivity] end.
    + apply cre_ext. intros m'. apply cre_ext. intros m''. apply IH. intros x Hx. apply H. now right.
  - apply H. now left.
  - intros p Hp Np. destruct (zpair_eqb p _) eqn:Z0; [apply zpair_eqb_eq in Z0; contradiction|]. ring.
Qed.
Lemma map_ofnat_sorted : forall T, increasing T -> StronglySorted Z.lt (map Z.of_nat T).
Proof.
  intros T H. induction H as [|x l H IH F]; cbn [map]; constructor; auto. apply Forall_map. eapply Forall_impl; [|exact F]. cbn. intros. lia.
Qed.
Lemma paired_perm : forall k T sd, increasing T -> (forall i, In i T -> (i < k)%nat) ->
  (doubly k T sd <-> Permutation (map Z.of_nat T ++ map (fun i => (i + Z.of_nat k)%Z) (map Z.of_nat T)) (zocc sd)).
Proof.
  intros k T sd I B. assert (In1 : forall x, In x (map Z.of_nat T ++ map (fun i => (i + Z.of_nat k)%Z) (map Z.of_nat T)) <->
     exists i, In i T /\ (x = Z.of_nat i \/ x = Z.of_nat (i + k))).
  { intros x. rewrite in_app_iff, map_map, !in_map_iff. split.
    - intros [(i & <- & Hi)|(i & <- & Hi)]; exists i; split; auto. right. lia.
    - intros (i & Hi & [->| ->]); [left|right]; exists i; split; auto. lia. }
  split.
  - intros H. apply NoDup_Permutation.
    + apply NoDup_app_intro'.
      * apply FinFun.Injective_map_NoDup; [intros x y; lia|]. now apply increasing_NoDup.
      * apply FinFun.Injective_map_NoDup; [intros x y; lia|]. apply FinFun.Injective_map_NoDup; [intros x y; lia|]. now apply increasing_NoDup.
      * intros x Hx Hy. rewrite map_map in Hy. apply in_map_iff in Hx as (i & <- & Hi). apply in_map_iff in Hy as (j & Ej & Hj). apply B in Hi, Hj. lia.
    + apply occZ_NoDup.
    + intros x. rewrite In1, occZ_In, (H (Z.to_nat x)). split.
      * intros (i & Hi & Hx). split; [lia|]. exists i. split; auto. lia.
      * intros (Px & i & Hi & Hx). exists i. split; auto. lia.
  - intros P j. split.
    + intros Hj. assert (X : In (Z.of_nat j) (zocc sd)) by (apply occZ_In; rewrite Nat2Z.id; split; [lia|auto]).
      apply (Permutation_in _ (Permutation_sym P)), In1 in X as (i & Hi & X). exists i. split; auto. lia.
    + intros (i & Hi & X). assert (Y : In (Z.of_nat j) (zocc sd)). { eapply Permutation_in; [exact P|]. apply In1. exists i. split; auto. lia. }
      apply occZ_In in Y as [_ Y]. now rewrite Nat2Z.id in Y.
Qed.
Lemma paired_unique : forall k T T' sd, increasing T -> increasing T' -> (forall i, In i T -> (i < k)%nat) -> (forall i, In i T' -> (i < k)%nat) ->
  doubly k T sd -> doubly k T' sd -> T = T'.
Proof.
  intros k T T' sd I I' B B' H H'. apply increasing_ext; auto. intros i.
  assert (X : forall A A', (forall i, In i A -> (i < k)%nat) -> (forall i, In i A' -> (i < k)%nat) -> doubly k A sd -> doubly k A' sd -> In i A -> In i A').
  { intros A A' BA BA' HA HA' Hi. assert (X : bit sd i = true) by (apply HA; exists i; auto). apply HA' in X as (j & Hj & [->|Ej]); auto.
    apply BA in Hi. lia. }
  split; apply X; auto.
Qed.

(** C61: the default wavefunction has the same amplitude, up to sign, for all determinants in which nelec/2 of the
    first ngem spatial orbitals are doubly occupied, and no other determinant *)
Theorem C61_default_overlap : forall c nelec nspin ngem o (w : gem K) sd h, char_zero K ->
  new_gem c nelec nspin ngem o PNone = Ok w -> nelec = Z.of_nat (2 * h) -> has_electrons sd (2 * h) ->
  (c = GAPIG \/ forall i, bit sd i = true -> (Z.of_nat i < nspin)%Z) ->
  let k := Z.to_nat (nspin / 2) in
  (forall T, increasing T -> length T = h -> (forall i, In i T -> (i < gm_ngem w)%nat) -> doubly k T sd ->
     gem_overlap w sd = Ok (convention c h * sgnr (pow_m1 (h * (h - 1) / 2)))) /\
  ((forall T, increasing T -> length T = h -> (forall i, In i T -> (i < gm_ngem w)%nat) -> ~ doubly k T sd) ->
     gem_overlap w sd = Ok 0).
Proof.
  intros c nelec nspin ngem o w sd h Ch E Hn He Hb k.
  pose proof (C61_default _ _ _ _ _ _ E) as HC. pose proof (new_gem_wf _ _ _ _ _ _ _ E) as W.
  rewrite (C43_overlap _ _ _ _ _ _ _ _ _ _ Ch E HC Hn He Hb).
  pose proof (new_gem_inv _ _ _ _ _ _ _ E) as (Ec & _ & Es & _ & (k' & Hk & Ek) & Eo & El).
  assert (Ek2 : (nspin / 2)%Z = Z.of_nat k) by (unfold k; rewrite Ek, (Z.mul_comm 2), Z.div_mul by lia; lia).
  assert (Ek3 : nspin = (2 * Z.of_nat k)%Z) by (rewrite <- Ek2, Ek, (Z.mul_comm 2), Z.div_mul by lia; lia). clearbody k.
  assert (In0 : forall i, (i < gm_ngem w)%nat -> In (Z.of_nat i, Z.of_nat i + nspin / 2)%Z (gm_pairs w)).
  { intros i Hi. destruct (C61_default_defined _ _ _ _ _ _ _ (any_params _ _ _ _ _ _ _ E)) as [_ Z0].
    destruct (in_dec (fun a b : Z * Z => ltac:(decide equality; apply Z.eq_dec)) (Z.of_nat i, Z.of_nat i + nspin / 2)%Z (gm_pairs w)) as [?|Ni]; auto.
    exfalso. rewrite Z0 in E; [discriminate|]. intros A. apply Ni, A, Hi. }
  assert (Bk : forall i, (i < gm_ngem w)%nat -> (i < k)%nat).
  { intros i Hi. assert (X : forall p, In p (gm_pairs w) -> c <> GAPIG -> (snd p < nspin)%Z).
    { intros p Hp Nc. unfold assign_orbpairs in Eo. destruct c, o; try congruence; injection Eo as Eo; rewrite <- Eo in Hp; [apply all_pairs_In in Hp|apply ab_In in Hp]; clear - Hp Ek Hk; subst nspin; rewrite ?(Z.mul_comm 2 (Z.of_nat k')), ?Z.div_mul in Hp by lia; lia. }
    destruct c.
    - apply In0, X in Hi; [|discriminate]. cbn [snd] in Hi. rewrite Ek2 in Hi. lia.
    - destruct (Nat.lt_ge_cases i k) as [?|Ge]; auto. exfalso.
      assert (Hj : In (Z.of_nat (i - k), Z.of_nat (i - k) + nspin / 2)%Z (gm_pairs w)) by (apply In0; lia).
      apply In0 in Hi. apply C42_apig in Eo as (_ & N & _).
      assert (Q := flat_map_disjoint _ _ _ _ (Z.of_nat i) N Hi Hj). cbn [fst snd In] in Q. assert (k <> 0)%nat by lia.
      assert (Q' := Q ltac:(auto) ltac:(right; left; rewrite Ek2; lia)). injection Q'. lia.
    - apply In0, X in Hi; [|discriminate]. cbn [snd] in Hi. rewrite Ek2 in Hi. lia. }
  assert (Val : forall T, In T (combinations (seq 0 (gm_ngem w)) h) ->
    increasing T /\ length T = h /\ (forall i, In i T -> (i < gm_ngem w)%nat)).
  { intros T HT. apply combinations_increasing_In in HT as (A & B & L); [|apply increasing_seq]. repeat split; auto. intros i Hi. apply B, in_seq in Hi. lia. }
  unfold antisymmetrised. split.
  - intros T I L B P. f_equal. f_equal. rewrite (sumf_single _ _ T).
    + rewrite default_product; [|apply W|intros r Hr; apply In0, B, Hr]. apply (cres_value (K := K)).
      rewrite <- L. pose proof (swaps_pairs (nspin / 2) (map Z.of_nat T)) as Sw. rewrite map_length in Sw.
      apply paired_perm in P; auto. rewrite <- Ek2 in P.
      assert (Srt : StronglySorted Z.lt (map Z.of_nat T ++ map (fun i => (i + nspin / 2)%Z) (map Z.of_nat T))).
      { apply sorted_app; [now apply map_ofnat_sorted| |].
        - rewrite map_map. clear - I. induction I as [|x l' I IH F]; cbn [map]; constructor; auto. apply Forall_map. eapply Forall_impl; [|exact F]. cbn. intros. lia.
        - intros x y Hx Hy. rewrite map_map in Hy. apply in_map_iff in Hx as (i & <- & Hi). apply in_map_iff in Hy as (j & <- & Hj). apply B, Bk in Hi. lia. }
      replace (zocc sd) with (map Z.of_nat T ++ map (fun i => (i + nspin / 2)%Z) (map Z.of_nat T)); auto.
      apply sorted_perm_eq; auto. apply occZ_sorted.
    + apply combinations_NoDup, seq_NoDup.
    + apply combinations_increasing_In; [apply increasing_seq|]. repeat split; auto. intros i Hi. apply in_seq. specialize (B i Hi). lia.
    + intros T' HT' Ne. destruct (Val T' HT') as (I' & L' & B'). rewrite default_product; [|apply W|intros r Hr; apply In0, B', Hr].
      apply cres_zero. intros Q. apply Ne. apply (paired_unique k T' T sd); auto. apply paired_perm; auto. rewrite <- Ek2.
      rewrite <- Q. apply Permutation_sym. eapply swaps_perm. apply swaps_pairs.
  - intros H. f_equal. rewrite sumf_zero; [ring|]. intros T HT. destruct (Val T HT) as (I & L & B).
    rewrite default_product; [|apply W|intros r Hr; apply In0, B, Hr].
    apply cres_zero. intros Q. apply (H T I L B). apply paired_perm; auto. rewrite <- Ek2.
    rewrite <- Q. apply Permutation_sym. eapply swaps_perm. apply swaps_pairs.
Qed.

(** C61: when ngem is nelec/2 the default wavefunction is the ground state determinant, up to sign *)
Theorem C61_ground : forall c nelec nspin o (w : gem K) sd g h, char_zero K ->
  new_gem c nelec nspin None o PNone = Ok w -> ground nelec nspin = Ok g -> nelec = Z.of_nat (2 * h) -> has_electrons sd (2 * h) ->
  (c = GAPIG \/ forall i, bit sd i = true -> (Z.of_nat i < nspin)%Z) ->
  gem_overlap w sd = Ok (if N.eqb sd g then convention c h * sgnr (pow_m1 (h * (h - 1) / 2)) else 0).
Proof.
  intros c nelec nspin o w sd g h Ch E Eg Hn He Hb.
  destruct (C61_default_overlap _ _ _ _ _ _ _ _ Ch E Hn He Hb) as [A B]. cbv zeta in A, B.
  assert (Hh : gm_ngem w = h).
  { unfold new_gem in E. destruct (gem_assign_nelec nelec) as [ne|] eqn:E1; [|discriminate]. cbn [bind] in E. destruct (assign_nspin nspin) as [ns|]; [|discriminate]. cbn [bind] in E.
    unfold gem_assign_ngem in E. rewrite Z.ltb_irrefl in E. cbn [bind] in E. destruct (assign_orbpairs c ns o) as [pr|]; [|discriminate]. cbn [bind] in E.
    unfold gem_assign_params in E. destruct (default_loop _ _ _); [|discriminate]. cbn [bind] in E. destruct (negb _); [discriminate|]. injection E as <-. cbn [gm_ngem].
    unfold gem_assign_nelec in E1. destruct (nelec <=? 0)%Z; [discriminate|]. destruct (negb _); [discriminate|]. injection E1 as <-.
    rewrite Hn. replace (Z.of_nat (2 * h)) with (Z.of_nat h * 2)%Z by lia. rewrite Z.div_mul by lia. lia. }
  destruct (C04_ground nelec nspin) as [_ [_ G]]. destruct (G g Eg) as (_ & _ & Gb). clear G.
  assert (Pg : doubly (Z.to_nat (nspin / 2)) (seq 0 h) g).
  { intros j. rewrite Gb. unfold ground_bits.
    replace (Z.to_nat ((nelec + 1) / 2)) with h by (rewrite Hn; replace (Z.of_nat (2 * h) + 1)%Z with (1 + Z.of_nat h * 2)%Z by lia; rewrite Z.div_add by lia; cbn; lia).
    replace (Z.to_nat (nelec / 2)) with h by (rewrite Hn; replace (Z.of_nat (2 * h)) with (Z.of_nat h * 2)%Z by lia; rewrite Z.div_mul by lia; lia).
    set (k := Z.to_nat (nspin / 2)). clearbody k. rewrite ?orb_true_iff, ?andb_true_iff, ?Nat.leb_le, ?Nat.ltb_lt. split.
    - intros [H|H]; [exists j|exists (j - k)%nat]; rewrite in_seq; lia.
    - intros (i & Hi & [->| ->]); apply in_seq in Hi; lia. }
  destruct (N.eqb_spec sd g) as [->|Ne].
  - apply (A (seq 0 h)); auto; [apply increasing_seq|apply seq_length|]. intros i Hi. apply in_seq in Hi. lia.
  - apply B. intros T I L Bt P. apply Ne. apply bit_ext. intros i. apply eq_true_iff_eq. rewrite (P i), (Pg i).
    assert (ET : forall x, In x T <-> In x (seq 0 h)).
    { assert (T = seq 0 h) as ->; [|tauto]. apply increasing_ext; auto; [apply increasing_seq|].
      assert (Inc : incl T (seq 0 h)) by (intros x Hx; apply in_seq; specialize (Bt x Hx); lia).
      intros x. split; [apply Inc|]. apply (NoDup_length_incl); auto; [now apply increasing_NoDup|rewrite seq_length; lia]. }
    split; intros (x & Hx & Y); exists x; split; auto; now apply ET.
Qed.

(** C61: copied parameters: the coefficients of the pairs that both wavefunctions have, zero for the others *)
Theorem C61_copy : forall c nelec nspin ngem o c0 nelec0 nspin0 ngem0 o0 ps0 (w w0 : gem K) C,
  new_gem c0 nelec0 nspin0 ngem0 o0 ps0 = Ok w0 -> c0 <> GSet -> new_gem c nelec nspin ngem o (PGem w0) = Ok w -> coefficients w0 C ->
  nelec0 = nelec /\ nspin0 = nspin /\ gm_ngem w0 = gm_ngem w /\
  coefficients w (fun r p => if existsb (zpair_eqb p) (gm_pairs w0) then C r p else 0).
Proof.
  intros c nelec nspin ngem o c0 nelec0 nspin0 ngem0 o0 ps0 w w0 C E0 N0 E HC.
  pose proof (new_gem_wf _ _ _ _ _ _ _ E) as W. pose proof (new_gem_wf _ _ _ _ _ _ _ E0) as W0.
  pose proof (new_gem_inv _ _ _ _ _ _ _ E0) as (Ec0 & En0 & Es0 & _).
  pose proof (new_gem_inv _ _ _ _ _ _ _ E) as (Ec & En & Es & _).
  pose proof (any_params _ _ _ _ _ _ _ E) as Ea. rewrite (same_but_params _ _ _ _ _ _ _ (PGem w0) Ea) in E.
  unfold gem_assign_params in E. rewrite En, Es, En0, Es0 in E.
  destruct (Z.eqb_spec nelec nelec0) as [<-|]; [|discriminate]. destruct (Z.eqb_spec nspin nspin0) as [<-|]; [|discriminate].
  destruct (Nat.eqb_spec (gm_ngem w) (gm_ngem w0)) as [Eg|]; [|discriminate]. cbn [negb] in E. do 3 (split; auto).
  destruct (copy_loop_value w w0 (enumerate (gm_pairs w0)) (zeros (gm_ngem w * norbpair w))) as (l & El & Ll & V).
  - apply W. - apply W. - congruence.
  - rewrite snd_enumerate. apply W0.
  - intros [i p] Hp. cbn [snd]. eapply (pairs_lt _ _ _ _ _ _ _ E0). rewrite <- snd_enumerate. apply (in_map snd) in Hp. exact Hp.
  - unfold zeros. apply repeat_length.
  - rewrite El in E. cbn [bind] in E. destruct (negb _); [discriminate|]. assert (Ep : gm_params w = l) by (apply (f_equal (fun r => match r with Ok x => gm_params x | Err _ => [] end)) in E; cbn in E; auto).
    intros r i p Hr Hi. destruct (V r i p Hr Hi) as [A B]. rewrite Ep. change (length (gm_pairs w)) with (norbpair w).
    destruct (existsb (zpair_eqb p) (gm_pairs w0)) eqn:X.
    + apply existsb_pair, In_nth_error in X as [j Hj]. rewrite (A j).
      * rewrite Eg in Hr. apply (HC r j p Hr Hj).
      * apply in_enumerate. exact Hj.
    + rewrite B; [unfold zeros; now rewrite nth_repeat|]. rewrite snd_enumerate. intros Y. apply existsb_pair in Y. congruence.
Qed.
(** they exist when the numbers of electrons, orbitals and geminals agree *)
Theorem C61_copy_defined : forall c nelec nspin ngem o l c0 nelec0 nspin0 ngem0 o0 ps0 (w1 w0 : gem K),
  new_gem c nelec nspin ngem o (PArray l) = Ok w1 -> new_gem c0 nelec0 nspin0 ngem0 o0 ps0 = Ok w0 ->
  (nelec0 = nelec -> nspin0 = nspin -> gm_ngem w0 = gm_ngem w1 -> c0 <> GSet ->
     exists w : gem K, new_gem c nelec nspin ngem o (PGem w0) = Ok w /\ gm_ngem w = gm_ngem w1 /\ gm_pairs w = gm_pairs w1) /\
  (~ (nelec0 = nelec /\ nspin0 = nspin /\ gm_ngem w0 = gm_ngem w1) -> new_gem c nelec nspin ngem o (PGem w0) = Err ValueError).
Proof.
  intros c nelec nspin ngem o l c0 nelec0 nspin0 ngem0 o0 ps0 w1 w0 E E0.
  pose proof (new_gem_wf _ _ _ _ _ _ _ E) as W. pose proof (new_gem_wf _ _ _ _ _ _ _ E0) as W0.
  pose proof (new_gem_inv _ _ _ _ _ _ _ E0) as (Ec0 & En0 & Es0 & _).
  pose proof (new_gem_inv _ _ _ _ _ _ _ E) as (Ec & En & Es & _).
  rewrite (same_but_params _ _ _ _ _ _ _ (PGem w0) E). unfold gem_assign_params. rewrite En, Es, En0, Es0. split.
  - intros -> -> Eg N0. rewrite !Z.eqb_refl, Eg, Nat.eqb_refl. cbn [negb].
    destruct (copy_loop_value w1 w0 (enumerate (gm_pairs w0)) (zeros (gm_ngem w1 * norbpair w1))) as (l' & El & Ll & V).
    + apply W. + apply W. + congruence.
    + rewrite snd_enumerate. apply W0.
    + intros [i p] Hp. cbn [snd]. eapply (pairs_lt _ _ _ _ _ _ _ E0). rewrite <- snd_enumerate. apply (in_map snd) in Hp. exact Hp.
    + unfold zeros. apply repeat_length.
    + rewrite El. cbn [bind]. rewrite Ll. unfold zeros. rewrite repeat_length, Nat.eqb_refl. cbn [negb]. eexists. split; [reflexivity|]. auto.
  - intros H. destruct (Z.eqb_spec nelec nelec0); [|reflexivity]. destruct (Z.eqb_spec nspin nspin0); [|reflexivity].
    destruct (Nat.eqb_spec (gm_ngem w1) (gm_ngem w0)); [|reflexivity]. exfalso. apply H. auto.
Qed.
(** when every pair of the other wavefunction is available the overlaps are the same, up to the sign conventions *)
Theorem C61_copy_overlap : forall c nelec nspin ngem o c0 nelec0 nspin0 ngem0 o0 ps0 (w w0 : gem K) sd h, char_zero K ->
  new_gem c0 nelec0 nspin0 ngem0 o0 ps0 = Ok w0 -> c0 <> GSet -> new_gem c nelec nspin ngem o (PGem w0) = Ok w ->
  incl (gm_pairs w0) (gm_pairs w) -> nelec = Z.of_nat (2 * h) -> has_electrons sd (2 * h) -> (forall i, bit sd i = true -> (Z.of_nat i < nspin)%Z) ->
  exists v, gem_overlap w0 sd = Ok v /\ gem_overlap w sd = Ok (convention c h * convention c0 h * v).
Proof.
  intros c nelec nspin ngem o c0 nelec0 nspin0 ngem0 o0 ps0 w w0 sd h Ch E0 N0 E I Hn He Hb.
  pose proof (new_gem_wf _ _ _ _ _ _ _ E) as W. pose proof (new_gem_wf _ _ _ _ _ _ _ E0) as W0.
  set (C := fun r p => nth (r * length (gm_pairs w0) + idx w0 p)%nat (gm_params w0) 0).
  assert (HC : coefficients w0 C). { intros r i p Hr Hi. unfold C. now rewrite (idx_nth w0 p i). }
  destruct (C61_copy _ _ _ _ _ _ _ _ _ _ _ _ _ _ E0 N0 E HC) as (-> & -> & Eg & HC').
  rewrite (C43_overlap _ _ _ _ _ _ _ _ _ _ Ch E0 HC Hn He) by auto. rewrite (C43_overlap _ _ _ _ _ _ _ _ _ _ Ch E HC' Hn He) by auto.
  eexists. split; [reflexivity|]. f_equal. clearbody C.
  assert (Sq : convention c0 h * convention c0 h = (1 : K)). { destruct c0; cbn [convention]; try ring. destruct (Nat.odd h); ring. }
  rewrite !Eg. transitivity (convention c h * (convention c0 h * convention c0 h) * antisymmetrised (gm_pairs w0) C (gm_ngem w) h sd); [|ring].
  rewrite Sq. transitivity (convention c h * antisymmetrised (gm_pairs w0) C (gm_ngem w) h sd); [|ring]. f_equal.
  unfold antisymmetrised. apply sumf_ext. intros T _. clear Sq. generalize sd at 1 2.
  induction T as [|r T IH]; intros m; [reflexivity|]. cbn [map gem_product fold_right]. apply geminal_embed; auto.
  - apply W0. - apply W.
  - intros p Hp. apply existsb_pair in Hp. now rewrite Hp.
  - intros p _ Np. destruct (existsb _ _) eqn:B; auto. apply existsb_pair in B. contradiction.
Qed.
(** copying from set-interacting geminals fails, or silently gives zero *)
Theorem C61_copy_set_refuted : forall c nelec nspin ngem o l nelec0 nspin0 ngem0 o0 ps0 (w1 w0 : gem K),
  new_gem c nelec nspin ngem o (PArray l) = Ok w1 -> new_gem GSet nelec0 nspin0 ngem0 o0 ps0 = Ok w0 ->
  nelec0 = nelec -> nspin0 = nspin -> gm_ngem w0 = gm_ngem w1 ->
  (c <> GAPIG -> new_gem c nelec nspin ngem o (PGem w0) = Err TypeError) /\
  (c = GAPIG -> exists w : gem K, new_gem c nelec nspin ngem o (PGem w0) = Ok w /\ coefficients w (fun _ _ => 0)).
Proof.
  intros c nelec nspin ngem o l nelec0 nspin0 ngem0 o0 ps0 w1 w0 E E0 -> -> Eg.
  pose proof (new_gem_inv _ _ _ _ _ _ _ E0) as (Ec0 & En0 & Es0 & _ & (k & Hk & Ek) & Eo0 & _).
  pose proof (new_gem_inv _ _ _ _ _ _ _ E) as (Ec & En & Es & _).
  rewrite (same_but_params _ _ _ _ _ _ _ (PGem w0) E). unfold gem_assign_params. rewrite En, Es, En0, Es0, !Z.eqb_refl, Eg, Nat.eqb_refl. cbn [negb]. split.
  - intros Nc. assert (Ne : exists p ps, gm_pairs w0 = p :: ps).
    { destruct (gm_pairs w0) as [|p ps] eqn:Ep; [|eauto]. exfalso. assert (X : In (0, Z.of_nat k)%Z (gm_pairs w0)).
      { unfold assign_orbpairs in Eo0. destruct o0; [discriminate|]. injection Eo0 as Eo0. rewrite Ek, (Z.mul_comm 2), Z.div_mul, Nat2Z.id in Eo0 by lia.
        rewrite Ep, <- Eo0. apply ab_In. cbn [fst snd]. lia. }
      rewrite Ep in X. destruct X. }
    destruct Ne as (p & ps & ->). cbn [enumerate]. unfold enumerate. cbn [length seq combine copy_loop]. rewrite Ec0, Ec. destruct c; try congruence; reflexivity.
  - intros ->. assert (X : forall items l', copy_loop w1 w0 items l' = Ok l').
    { induction items as [|[i p] items IH]; intros l'; cbn [copy_loop]; auto. rewrite Ec0, Ec. cbn [col_of_int]. apply IH. }
    rewrite X. cbn [bind]. unfold zeros. rewrite repeat_length, Nat.eqb_refl. cbn [negb]. eexists. split; [reflexivity|].
    intros r i p _ _. cbn [gm_params]. now rewrite nth_repeat.
Qed.
End P.
Print Assumptions C61_default.
Print Assumptions C61_default_defined.
Print Assumptions C61_default_overlap.
Print Assumptions C61_ground.
Print Assumptions C61_copy.
Print Assumptions C61_copy_defined.
Print Assumptions C61_copy_overlap.
Print Assumptions C61_copy_set_refuted.

Example C61_default_ex : ex_value (new_gem GAPG 4 8 None None PNone) 51 = Ok ((-1)%Z, 1%positive) /\ ground 4 8 = Ok 51%N /\
  ex_value (new_gem GAPG 4 8 (Some 3%Z) None PNone) 102 = Ok ((-1)%Z, 1%positive) /\
  ex_value (new_gem GAPG 4 8 (Some 3%Z) None PNone) 153 = Ok (0%Z, 1%positive) /\
  ex_value (new_gem GAPIG 4 4 None (Some [(0, 1); (2, 3)]%Z) PNone) 15 = Err ValueError.
Proof. repeat split; vm_compute; reflexivity. Qed.
Example C61_copy_ex : ex_value ex_apig 45 = Ok (4%Z, 1%positive) /\
  ex_value (do w <- ex_apig; new_gem GAPG 4 6 (Some 3%Z) None (PGem w)) 45 = Ok (4%Z, 1%positive) /\
  ex_value ex_apig1 5 = Ok ((-5)%Z, 1%positive) /\ ex_value (do w <- ex_apig1; new_gem GAPG 2 4 None None (PGem w)) 5 = Ok (5%Z, 1%positive) /\
  ex_value (do w <- ex_set; new_gem GSet 4 6 (Some 3%Z) None (PGem w)) 45 = Err TypeError /\
  ex_value (do w <- ex_apg; new_gem GAPIG 4 6 (Some 2%Z) None (PGem w)) 45 = Err ValueError.
Proof. repeat split; vm_compute; reflexivity. Qed.
