(** Lemmas about the model of CIWavefunction: the index dictionary and the entries of compute_1rdm. *)
From Coq Require Import List ZArith NArith Arith Bool Lia Permutation Ring_theory.
From Verif Require Import Py Slater SdList Alg BitSpec BitLemmas HamLemmas SlaterBits SlaterBits2 Fock FockLemmas FockInner DensSpec WfnCI SignLemmas P_Slater2.
Import ListNotations.

Section L.
Context {K : CRing}.
Local Open Scope cr_scope.
Add Ring K_ring44 : (rth K).

(** [i] is the last position of [sd] *)
Definition last_at (l : list N) (sd : N) (i : nat) : Prop :=
  nth_error l i = Some sd /\ forall j, (i < j)%nat -> nth_error l j <> Some sd.

Lemma sd_index_from_spec : forall sd l k f,
  (~ In sd l /\ sd_index_from sd l k f = f) \/
  exists i, last_at l sd i /\ sd_index_from sd l k f = Some (k + i)%nat.
Proof.
  intros sd. induction l as [|x l IH]; intros k f; [left; split; auto|].
  cbn [sd_index_from]. destruct (IH (S k) (if N.eqb x sd then Some k else f)) as [[N E]|(i & [A B] & E)].
  - rewrite E. destruct (N.eqb_spec x sd) as [->|D].
    + right. exists 0%nat. split; [|now rewrite Nat.add_0_r]. split; auto.
      intros [|j] L H; [lia|]. apply N. cbn in H. eapply nth_error_In; eauto.
    + left. split; auto. intros [H|H]; auto.
  - right. exists (S i). rewrite E. split; [|f_equal; lia]. split; auto.
    intros [|j] L; [lia|]. apply B. lia.
Qed.
Lemma dict_spec : forall (w : ciwfn K) sd,
  (~ In sd (ci_sds w) /\ dict_sd_index w sd = None) \/
  exists i, last_at (ci_sds w) sd i /\ dict_sd_index w sd = Some i.
Proof. intros. unfold dict_sd_index. apply (sd_index_from_spec sd (ci_sds w) 0 None). Qed.
Lemma last_unique : forall l sd i j, last_at l sd i -> last_at l sd j -> i = j.
Proof.
  intros l sd i j [A B] [C D]. destruct (Nat.lt_trichotomy i j) as [H|[H|H]]; auto.
  - now apply B in H.
  - now apply D in H.
Qed.
Lemma NoDup_last : forall l sd i, NoDup l -> nth_error l i = Some sd -> last_at l sd i.
Proof.
  intros l sd i N H. split; auto. intros j L E. assert (i = j); [|lia].
  eapply NoDup_nth_error; eauto. eapply nth_error_Some. congruence. congruence.
Qed.
Lemma dict_last : forall (w : ciwfn K) sd i, last_at (ci_sds w) sd i -> dict_sd_index w sd = Some i.
Proof.
  intros w sd i H. destruct (dict_spec w sd) as [[N _]|(j & L & ->)].
  - destruct N. eapply nth_error_In. apply H.
  - f_equal. eapply last_unique; eauto.
Qed.
Lemma dict_none : forall (w : ciwfn K) sd, ~ In sd (ci_sds w) -> dict_sd_index w sd = None.
Proof.
  intros w sd H. destruct (dict_spec w sd) as [[_ E]|(j & [L _] & _)]; auto.
  destruct H. eapply nth_error_In; eauto.
Qed.

Lemma upd_length : forall {A} (l : list A) i v, length (upd l i v) = length l.
Proof. induction l; intros [|i] v; cbn; auto. Qed.
Lemma upd_same : forall {A} (l : list A) i v d, (i < length l)%nat -> nth i (upd l i v) d = v.
Proof. induction l; intros [|i] v d H; cbn in *; try lia; auto. apply IHl. lia. Qed.
Lemma upd_other : forall {A} (l : list A) i j v d, i <> j -> nth j (upd l i v) d = nth j l d.
Proof. induction l; intros [|i] [|j] v d H; cbn in *; auto; try lia. Qed.
Lemma upd_err : forall {A} (l : list A) i j v,
  nth_error (upd l i v) j = if (Nat.eqb i j && Nat.ltb i (length l))%bool then Some v else nth_error l j.
Proof.
  induction l; intros [|i] [|j] v; cbn [upd nth_error Nat.eqb andb]; auto.
  - cbn. destruct (i =? j)%nat; reflexivity.
  - rewrite IHl. cbn [length]. replace (S i <? S (length l))%nat with (i <? length l)%nat; auto.
Qed.

(** a single excitation *)
Lemma excite_pair : forall sd o v, bit sd o = true -> bit sd v = false ->
  exists ex s, excite (Some sd) [o; v] = Ok (Some ex) /\ sign_excite (Some sd) [o] [v] = Ok s /\
    (forall m, melem m [Ann o; Cre v] sd = if N.eqb m ex then s else 0%Z).
Proof.
  intros sd o v Ho Hv.
  destruct (sign_excite (Some sd) [o] [v]) as [s|e] eqn:E.
  - destruct (C12_state _ _ _ _ E) as (m & C & M).
    exists m, s. split; [|split; auto].
    + change [o; v] with ([o] ++ [v]). rewrite excite_app by auto. now rewrite C.
    + cbn [map app] in M. apply C12_sign_excite in E as (m0 & M0 & Nz & Z0). cbn [map app] in *.
      assert (m = m0). { destruct (N.eq_dec m m0) as [|D]; auto. rewrite Z0 in M by auto. congruence. }
      subst m0. intros m'. destruct (N.eqb_spec m' m) as [->|D]; auto.
  - exfalso. rewrite sign_excite_eq in E. cbn [map app] in E. unfold applys in E. cbn [fold_left] in E.
    unfold apply1, Ann, Cre in E. cbn [fst snd] in E. rewrite Ho in E. cbn [Bool.eqb] in E.
    assert (o <> v) by congruence.
    rewrite bit_flip_neq in E by auto. rewrite Hv in E. cbn [Bool.eqb] in E. discriminate.
Qed.

(** entries produced by a list of additions *)
Definition at1 (p q : nat) (x : nat * nat * K) : K :=
  if (Nat.eqb p (fst (fst x)) && Nat.eqb q (snd (fst x)))%bool then snd x else 0.
Lemma rdm_adds_ok : forall n l (m : nat -> nat -> K), Forall (fun x => (fst (fst x) < n)%nat /\ (snd (fst x) < n)%nat) l ->
  exists m', rdm_adds n l m = Ok m' /\ forall p q, m' p q = m p q + sumf (at1 p q) l.
Proof.
  intros n. induction l as [|[[i j] v] l IH]; intros m F.
  - exists m. split; auto. intros. cbn. ring.
  - inversion F as [|? ? [Hi Hj] F2]; subst. cbn [fst snd] in *. cbn [rdm_adds]. unfold rdm_add.
    apply Nat.ltb_lt in Hi, Hj. rewrite Hi, Hj. cbn [andb bind].
    destruct (IH (fun p q => if (Nat.eqb p i && Nat.eqb q j)%bool then m p q + v else m p q) F2) as (m' & E & V).
    exists m'. split; auto. intros p q. rewrite V, sumf_cons. unfold at1 at 2. cbn [fst snd].
    destruct (Nat.eqb p i && Nat.eqb q j)%bool; ring.
Qed.
Lemma rdm_adds_err : forall n l (m : nat -> nat -> K) i j v, In (i, j, v) l -> ~ ((i < n)%nat /\ (j < n)%nat) ->
  rdm_adds n l m = Err IndexError.
Proof.
  intros n. induction l as [|[[i' j'] v'] l IH]; intros m i j v H R; [destruct H|].
  cbn [rdm_adds]. unfold rdm_add.
  destruct H as [H|H].
  - injection H as -> -> ->. destruct (Nat.ltb_spec i n), (Nat.ltb_spec j n); cbn; auto. tauto.
  - destruct (Nat.ltb i' n && Nat.ltb j' n)%bool; cbn; eauto.
Qed.

Lemma mapM_ok_of : forall {A B} (f : A -> res B) (g : A -> B) l, (forall x, In x l -> f x = Ok (g x)) ->
  mapM f l = Ok (map g l).
Proof.
  induction l as [|x l IH]; intros H; auto. cbn [mapM map]. rewrite H by now left. cbn [bind].
  rewrite IH; auto. intros. apply H. now right.
Qed.
Lemma sumf_one_or_none : forall {A} (f : A -> K) (P : A -> bool) l c,
  (forall x, In x l -> f x = if P x then c else 0) ->
  NoDup (filter P l) -> (forall x y, In x l -> In y l -> P x = true -> P y = true -> x = y) ->
  sumf f l = if existsb P l then c else 0.
Proof.
  intros A f P l c H N U. destruct (existsb P l) eqn:E.
  - apply existsb_exists in E as (x & Hx & Px).
    transitivity (sumf (fun y => if P y then f y else 0) l).
    { apply sumf_ext. intros y Hy. specialize (H y Hy). destruct (P y); auto. }
    rewrite <- sumf_filter. rewrite (sumf_single f (filter P l) x).
    + rewrite H by auto. now rewrite Px.
    + auto.
    + apply filter_In; auto.
    + intros y Hy D. apply filter_In in Hy as [Hy Py]. destruct D. auto.
  - rewrite (sumf_zero f); auto. intros x Hx. rewrite H by auto. destruct (P x) eqn:Px; auto.
    assert (existsb P l = true) by (apply existsb_exists; eauto). congruence.
Qed.

(** one determinant: all its contributions are the matrix elements of a+_q a_p *)
Section OneSd.
Variable w : ciwfn K.
Hypothesis Nd : NoDup (ci_sds w).
Hypothesis Len : (length (ci_sds w) <= length (ci_params w))%nat.
Notation psi := (combine (ci_params w) (ci_sds w)).

Lemma psi_sds : map snd psi = ci_sds w.
Proof.
  revert Len. generalize (ci_params w). generalize (ci_sds w). induction l as [|x l IH]; intros [|y p] L; cbn in *; auto; try lia.
  rewrite IH; auto. lia.
Qed.
Lemma psi_In : forall c sd, In (c, sd) psi -> exists i, nth_error (ci_sds w) i = Some sd /\ nth_error (ci_params w) i = Some c.
Proof.
  generalize (ci_params w). generalize (ci_sds w). induction l as [|x l IH]; intros [|y p] c sd H; cbn in *; try tauto.
  destruct H as [H|H].
  - injection H as -> ->. now exists 0%nat.
  - destruct (IH _ _ _ H) as (i & A & B). now exists (S i).
Qed.
Lemma psi_nth : forall i c sd, nth_error (ci_sds w) i = Some sd -> nth_error (ci_params w) i = Some c -> In (c, sd) psi.
Proof.
  generalize (ci_params w). generalize (ci_sds w). induction l as [|x l IH]; intros p i c sd A B.
  - destruct i; discriminate.
  - destruct p as [|y p]; [destruct i; discriminate|]. destruct i as [|i]; cbn in *.
    + left. congruence.
    + right. eauto.
Qed.
Lemma psi_NoDup : NoDup psi.
Proof. apply (NoDup_map_inv snd). rewrite psi_sds. auto. Qed.
Lemma psi_inj : forall a b, In a psi -> In b psi -> snd a = snd b -> a = b.
Proof.
  intros [c a] [d b] Ha Hb E. cbn in E. subst b.
  apply psi_In in Ha as (i & A & B). apply psi_In in Hb as (j & C & D).
  assert (i = j) by (eapply last_unique; eapply NoDup_last; eauto). subst. congruence.
Qed.
(** coefficient of a determinant *)
Lemma psi_sum : forall ex c i, nth_error (ci_sds w) i = Some ex -> nth_error (ci_params w) i = Some c ->
  forall f : K * N -> K, (forall a, In a psi -> snd a <> ex -> f a = 0) -> sumf f psi = f (c, ex).
Proof.
  intros ex c i A B f Hf. apply sumf_single.
  - apply psi_NoDup.
  - eapply psi_nth; eauto.
  - intros a Ha D. apply Hf; auto. intros E. apply D. apply psi_inj; auto. eapply psi_nth; eauto.
Qed.

(** the column of the determinant [sd] with coefficient [c] *)
Definition col (sd : N) (c : K) (p q : nat) : K :=
  sumf (fun a => fst a * c * sgnr (melem (snd a) [Ann p; Cre q] sd)) psi.

Lemma rdm_pair_ok : forall sd c o v, bit sd o = true -> bit sd v = false ->
  exists l, rdm_pair w sd c o v = Ok l /\ (forall x, In x l -> fst x = (o, v)) /\
    sumf (fun x => snd x) l = col sd c o v.
Proof.
  intros sd c o v Ho Hv. destruct (excite_pair sd o v Ho Hv) as (ex & s & E & S & M).
  unfold rdm_pair. rewrite E. cbn [bind].
  destruct (existsb (N.eqb ex) (ci_sds w)) eqn:X.
  - apply existsb_exists in X as (ex' & Hi & Q). apply N.eqb_eq in Q. subst ex'.
    apply In_nth_error in Hi as [i Hi]. rewrite (dict_last w ex i) by (apply NoDup_last; auto).
    destruct (nth_error (ci_params w) i) as [d|] eqn:P.
    + rewrite S. cbn [bind]. eexists. split; [reflexivity|]. split.
      * intros x [<-|[]]. reflexivity.
      * cbn [sumf fold_right snd]. unfold col. rewrite (psi_sum ex d i Hi P).
        -- cbn [fst snd]. rewrite M, N.eqb_refl. ring.
        -- intros a _ D. rewrite M. apply N.eqb_neq in D. rewrite D. change (sgnr 0) with (0 : K). ring.
    + exfalso. apply nth_error_None in P. assert (i < length (ci_sds w))%nat by (apply nth_error_Some; congruence). lia.
  - exists []. split; auto. split; [intros x []|]. cbn. symmetry. apply sumf_zero. intros a Ha. rewrite M.
    destruct (N.eqb_spec (snd a) ex) as [D|D]; [|change (sgnr 0) with (0 : K); ring].
    assert (existsb (N.eqb ex) (ci_sds w) = true); [|congruence].
    apply existsb_exists. exists ex. split; [|apply N.eqb_refl]. rewrite <- D, <- psi_sds. now apply in_map.
Qed.
Lemma col_diag : forall sd c p, In (c, sd) psi -> col sd c p p = if bit sd p then c * c else 0.
Proof.
  intros sd c p H. unfold col.
  assert (M : forall m, melem m [Ann p; Cre p] sd = if (N.eqb m sd && bit sd p)%bool then 1%Z else 0%Z).
  { intros m. unfold melem, applys, Ann, Cre. cbn [fold_left]. unfold apply1 at 2. cbn [fst snd].
    destruct (bit sd p) eqn:B; cbn [Bool.eqb].
    - unfold apply1. cbn [fst snd]. rewrite bit_flip_eq, B. cbn [negb Bool.eqb].
      rewrite flip_flip. cbn [braket]. rewrite andb_true_r.
      assert (P : par (flip sd p) p = par sd p) by (rewrite par_flip, Nat.ltb_irrefl; apply xorb_false_r). rewrite P.
      destruct (par sd p), (N.eqb m sd); reflexivity.
    - now rewrite andb_false_r. }
  pose proof H as H'. apply psi_In in H' as (i & A & B).
  rewrite (psi_sum sd c i A B).
  - cbn [fst snd]. rewrite M, N.eqb_refl. cbn [andb]. destruct (bit sd p); cbn [sgnr Z.eqb Pos.eqb].
    + change (sgnr 1) with (1 : K). ring.
    + change (sgnr 0) with (0 : K). ring.
  - intros a _ D. rewrite M. apply N.eqb_neq in D. rewrite D. cbn [andb]. change (sgnr 0) with (0 : K). ring.
Qed.
Lemma col_off : forall sd c p q, p <> q -> (bit sd p = false \/ bit sd q = true) -> col sd c p q = 0.
Proof.
  intros sd c p q D H. unfold col. apply sumf_zero. intros a _.
  assert (M : melem (snd a) [Ann p; Cre q] sd = 0%Z).
  { unfold melem, applys, Ann, Cre. cbn [fold_left]. unfold apply1 at 2. cbn [fst snd].
    destruct (bit sd p) eqn:B; cbn [Bool.eqb]; [|reflexivity].
    destruct H as [H|H]; [discriminate|]. unfold apply1. cbn [fst snd]. rewrite bit_flip_neq by auto. rewrite H. reflexivity. }
  rewrite M. change (sgnr 0) with (0 : K). ring.
Qed.

Variable n : nat.
Hypothesis Hn : ci_nspin w = Z.of_nat n.
Lemma rdm_sd_ok : forall sd c m, In (c, sd) psi -> fits sd n ->
  exists m', rdm_sd w sd c m = Ok m' /\
    forall p q, (p < n)%nat -> (q < n)%nat -> m' p q = m p q + col sd c p q.
Proof.
  intros sd c m H F. unfold rdm_sd. rewrite Hn, Nat2Z.id.
  assert (Oc : forall i, In i (occ_indices (Some sd)) <-> bit sd i = true /\ (i < n)%nat).
  { intros i. rewrite occ_indices_In. split; [|tauto]. intros B. split; auto.
    destruct (Nat.lt_ge_cases i n) as [L|L]; auto. rewrite F in B by auto. discriminate. }
  assert (Vi : forall i, In i (vir_indices (Some sd) (Z.of_nat n)) <-> bit sd i = false /\ (i < n)%nat).
  { intros i. rewrite vir_indices_filter, filter_In, in_seq, negb_true_iff. split; intros [? ?]; split; auto; lia. }
  assert (No : NoDup (occ_indices (Some sd))) by (apply increasing_NoDup, occ_indices_increasing).
  assert (Nv : NoDup (vir_indices (Some sd) (Z.of_nat n))).
  { rewrite vir_indices_filter. apply NoDup_filter, seq_NoDup. }
  set (occs := occ_indices (Some sd)) in *. set (virs := vir_indices (Some sd) (Z.of_nat n)) in *.
  destruct (rdm_adds_ok n (map (fun i => (i, i, c * c)) occs) m) as (m1 & E1 & V1).
  { apply Forall_forall. intros x Hx. apply in_map_iff in Hx as (i & <- & Hi). cbn. apply Oc in Hi. tauto. }
  rewrite E1. cbn [bind].
  pose (g := fun p : nat * nat => match rdm_pair w sd c (fst p) (snd p) with Ok l => l | Err _ => [] end).
  assert (G : forall p, In p (list_prod occs virs) -> rdm_pair w sd c (fst p) (snd p) = Ok (g p)
     /\ (forall x, In x (g p) -> fst x = p) /\ sumf (fun x => snd x) (g p) = col sd c (fst p) (snd p)).
  { intros [o v] Hp. apply in_prod_iff in Hp as [Ho Hv]. apply Oc in Ho. apply Vi in Hv. cbn [fst snd].
    destruct (rdm_pair_ok sd c o v) as (l & E & A & B); try tauto. unfold g. cbn [fst snd]. rewrite E. auto. }
  rewrite (mapM_ok_of _ g) by (intros p Hp; apply G; auto). cbn [bind].
  destruct (rdm_adds_ok n (concat (map g (list_prod occs virs))) m1) as (m2 & E2 & V2).
  { apply Forall_forall. intros x Hx. apply in_concat in Hx as (l & Hl & Hx). apply in_map_iff in Hl as (p & <- & Hp).
    pose proof Hp as Hp2. apply G in Hp2 as (_ & A & _). rewrite (A x Hx). destruct p as [o v].
    apply in_prod_iff in Hp as [Ho Hv]. apply Oc in Ho. apply Vi in Hv. cbn. tauto. }
  rewrite E2. exists m2. split; auto. intros p q Hp Hq. rewrite V2, V1, sumf_concat, !sumf_map.
  assert (S1 : sumf (fun x => at1 p q (x, x, c * c)) occs = if Nat.eqb p q then (if bit sd p then c * c else 0) else 0).
  { destruct (Nat.eqb_spec p q) as [<-|D].
    - destruct (bit sd p) eqn:B.
      + rewrite (sumf_single _ _ p); auto.
        * unfold at1. cbn [fst snd]. now rewrite Nat.eqb_refl.
        * apply Oc. auto.
        * intros x _ D. unfold at1. cbn [fst snd]. destruct (Nat.eqb_spec p x); [congruence|]. reflexivity.
      + apply sumf_zero. intros x Hx. unfold at1. cbn [fst snd]. destruct (Nat.eqb_spec p x); auto.
        subst. apply Oc in Hx. destruct Hx. congruence.
    - apply sumf_zero. intros x Hx. unfold at1. cbn [fst snd].
      destruct (Nat.eqb_spec p x), (Nat.eqb_spec q x); auto. congruence. }
  rewrite S1.
  assert (S2 : forall r, In r (list_prod occs virs) ->
     sumf (at1 p q) (g r) = if (Nat.eqb p (fst r) && Nat.eqb q (snd r))%bool then col sd c (fst r) (snd r) else 0).
  { intros r Hr. destruct (G r Hr) as (_ & A & <-). destruct (Nat.eqb p (fst r) && Nat.eqb q (snd r))%bool eqn:B.
    - apply sumf_ext. intros x Hx. unfold at1. rewrite (A x Hx). now rewrite B.
    - apply sumf_zero. intros x Hx. unfold at1. rewrite (A x Hx). now rewrite B. }
  rewrite (sumf_ext _ (fun r => if (Nat.eqb p (fst r) && Nat.eqb q (snd r))%bool then col sd c (fst r) (snd r) else 0) _ S2).
  destruct (bit sd p) eqn:Bp; [destruct (bit sd q) eqn:Bq|].
  2:{ rewrite (sumf_single _ _ (p, q)).
      - cbn [fst snd]. rewrite !Nat.eqb_refl. cbn [andb]. destruct (Nat.eqb_spec p q); [congruence|]. ring.
      - apply list_prod_NoDup; auto.
      - apply in_prod; [apply Oc|apply Vi]; auto.
      - intros [x y] _ D. cbn [fst snd]. destruct (Nat.eqb_spec p x), (Nat.eqb_spec q y); auto. congruence. }
  all: rewrite (sumf_zero (fun r : nat * nat => _)).
  all: try (intros [x y] Hr; cbn [fst snd]; apply in_prod_iff in Hr as [Hx Hy]; apply Oc in Hx; apply Vi in Hy;
            destruct (Nat.eqb_spec p x), (Nat.eqb_spec q y); auto; subst; destruct Hx, Hy; congruence).
  all: destruct (Nat.eqb_spec p q) as [<-|D]; [rewrite col_diag by auto; rewrite Bp; ring|rewrite col_off by auto; ring].
Qed.

Lemma rdm_loop_ok : forall l m, (forall x, In x l -> In (snd x, fst x) psi /\ fits (fst x) n) ->
  exists m', rdm_loop w l m = Ok m' /\
    forall p q, (p < n)%nat -> (q < n)%nat -> m' p q = m p q + sumf (fun x => col (fst x) (snd x) p q) l.
Proof.
  induction l as [|[sd c] l IH]; intros m H.
  - exists m. split; auto. intros. cbn. ring.
  - destruct (H (sd, c) (or_introl eq_refl)) as [H1 H2]. cbn [fst snd] in *.
    destruct (rdm_sd_ok sd c m H1 H2) as (m1 & E1 & V1). cbn [rdm_loop]. rewrite E1. cbn [bind].
    destruct (IH m1) as (m2 & E2 & V2). { intros. apply H. now right. }
    exists m2. split; auto. intros p q Hp Hq. rewrite V2, V1, sumf_cons by auto. cbn [fst snd]. ring.
Qed.
Lemma psi_swap : combine (ci_sds w) (ci_params w) = map (fun a => (snd a, fst a)) psi.
Proof.
  generalize (ci_params w). generalize (ci_sds w). induction l as [|x l IH]; intros [|y p]; cbn; auto. now rewrite IH.
Qed.
Lemma rdm_ok : (forall sd, In sd (ci_sds w) -> fits sd n) ->
  exists g, compute_1rdm w = Ok g /\ forall p q, (p < n)%nat -> (q < n)%nat -> g p q = rdm1 psi q p.
Proof.
  intros F. unfold compute_1rdm. rewrite psi_swap.
  destruct (rdm_loop_ok (map (fun a => (snd a, fst a)) psi) (fun _ _ => 0)) as (m & E & V).
  { intros x Hx. apply in_map_iff in Hx as (a & <- & Ha). cbn [fst snd]. split; [now destruct a|].
    apply F. rewrite <- psi_sds. now apply in_map. }
  exists m. split; auto. intros p q Hp Hq. rewrite V by auto. rewrite sumf_map. cbn [fst snd].
  unfold rdm1, expect, col. rewrite sumf_swap.
  rewrite (Radd_0_l (rth K)). apply sumf_ext. intros a _. apply sumf_ext. intros b _. reflexivity.
Qed.
End OneSd.

Lemma melem1_sym : forall m n p q, melem m [Ann p; Cre q] n = melem n [Ann q; Cre p] m.
Proof. intros. rewrite !melem1_inner. apply inner_sym. Qed.
Lemma rdm1_sym : forall (psi : list (K * N)) p q, rdm1 psi p q = rdm1 psi q p.
Proof.
  intros. unfold rdm1, expect. rewrite sumf_swap. apply sumf_ext. intros a _. apply sumf_ext. intros b _.
  rewrite melem1_sym. ring.
Qed.
End L.
