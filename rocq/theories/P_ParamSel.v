(** C51, C52: selections of parameters, and the vector of active parameters. *)
From Coq Require Import List ZArith Arith Bool Lia Sorted Permutation.
From Verif Require Import Py Slater BitSpec BitLemmas SignLemmas Alg BicliqueLemmas ParamSel ParamSelSpec ParamSelLemmas.
Import ListNotations.

(** * C51 *)
(** What a lookup gives is decided by the last valid assignment to the component. *)
Theorem C51_lookup : forall h c,
  (get_item (run_sel h) (KComp c) = [] /\ (forall x, In x h -> target x = KComp c -> ~ valid x))
  \/ exists h1 np a h2, h = h1 ++ (np, KComp c, a) :: h2 /\ acceptable (np c) a
     /\ (forall x, In x h2 -> target x = KComp c -> ~ valid x)
     /\ increasing (get_item (run_sel h) (KComp c))
     /\ (forall i, In i (get_item (run_sel h) (KComp c)) <-> picks a i)
     /\ Forall (fun i => i < np c) (get_item (run_sel h) (KComp c)).
Proof.
  intros h c. induction h as [|x h IH] using rev_ind.
  - left. split; [reflexivity|intros x []].
  - rewrite run_snoc. destruct (valid_dec x) as [V|V].
    + destruct x as [[np k] a]. destruct k as [d|]; [|contradiction]. simpl in V.
      destruct (step_valid (run_sel h) np d a V) as (l & E & S & P & B). rewrite E.
      cbn [get_item]. rewrite find_put. destruct (Nat.eqb_spec d c) as [->|N].
      * right. exists h, np, a, []. repeat split; auto; try apply P; auto.
      * cbn [get_item] in IH. destruct IH as [[G H]|(h1 & np1 & a1 & h2 & E1 & A1 & H1 & S1 & P1 & B1)].
        -- left. split; auto. intros y I T. apply in_app_iff in I. destruct I as [I|[<-|[]]]; auto.
           unfold target in T; simpl in T; congruence.
        -- right. exists h1, np1, a1, (h2 ++ [(np, KComp d, a)]). split; [rewrite E1, <- app_assoc; reflexivity|].
           repeat split; auto; try apply P1. intros y I T. apply in_app_iff in I. destruct I as [I|[<-|[]]]; auto.
           unfold target in T; simpl in T; congruence.
    + rewrite step_invalid by auto. destruct IH as [[G H]|(h1 & np1 & a1 & h2 & E1 & A1 & H1 & S1 & P1 & B1)].
      * left. split; auto. intros y I T. apply in_app_iff in I. destruct I as [I|[<-|[]]]; auto.
      * right. exists h1, np1, a1, (h2 ++ [x]). split; [rewrite E1, <- app_assoc; reflexivity|].
        repeat split; auto; try apply P1. intros y I T. apply in_app_iff in I. destruct I as [I|[<-|[]]]; auto.
Qed.

(** Every stored selection is strictly increasing, and the components are stored once, in the order of their first
    valid assignments. *)
Theorem C51_stored : forall h,
  NoDup (map fst (run_sel h)) /\ (forall c l, In (c, l) (run_sel h) -> increasing l)
  /\ exists hv, (forall x, In x hv <-> In x h /\ valid x)
     /\ firsts (flat_map (fun x => match target x with KComp c => [c] | KOther => [] end) hv) (map fst (run_sel h)).
Proof.
  induction h as [|x h IH] using rev_ind.
  - split; [constructor|]. split; [intros c l []|]. exists []. split; [intros x; simpl; tauto|constructor].
  - rewrite run_snoc. destruct IH as (N & I & hv & HV & F). destruct (valid_dec x) as [V|V].
    + destruct x as [[np k] a]. destruct k as [d|]; [|contradiction]. simpl in V.
      destruct (step_valid (run_sel h) np d a V) as (l & E & S & P & B). rewrite E.
      assert (N' : NoDup (map fst (put_sel (run_sel h) d l))).
      { rewrite keys_put. destruct (in_dec Nat.eq_dec d (map fst (run_sel h))); auto.
        apply (Permutation_NoDup (l := d :: map fst (run_sel h))); [apply Permutation_cons_append|constructor; auto]. }
      split; [auto|]. split.
      * intros c m J. apply (find_In _ _ _ N') in J. rewrite find_put in J. destruct (Nat.eqb_spec d c).
        -- injection J as <-. auto.
        -- apply I with c. apply find_Some; auto.
      * exists (hv ++ [(np, KComp d, a)]). split.
        -- intros y. rewrite !in_app_iff, HV. simpl. split; [intros [[H1 H2]|[<-|[]]]; auto|].
           intros [[H1|[<-|[]]] H2]; auto.
        -- rewrite flat_map_app. cbn [flat_map target snd fst app]. rewrite keys_put.
           assert (G : forall l r, firsts l r -> forall z, In z l <-> In z r).
           { clear. induction 1; intros z; [tauto| |].
             - rewrite !in_app_iff, IHfirsts. tauto.
             - rewrite in_app_iff, <- IHfirsts. simpl. split; [intros [H1|[<-|[]]]; auto|auto]. }
           destruct (in_dec Nat.eq_dec d (map fst (run_sel h))) as [J|J].
           ++ apply firsts_old; auto. apply (G _ _ F); auto.
           ++ apply firsts_new; auto. intros J'. apply J. apply (G _ _ F); auto.
    + rewrite step_invalid by auto. split; auto. split; auto. exists hv. split; auto.
      intros y. rewrite HV, in_app_iff. simpl. split; [tauto|]. intros [[H1|[<-|[]]] H2]; auto. contradiction.
Qed.

(** Assignments: which ones are accepted, and that those that raise leave the dictionary unchanged. *)
Theorem C51_accepts : forall np s c a, (exists s', set_item np s (KComp c) a = Ok s') <-> acceptable (np c) a.
Proof.
  intros np s c a. split.
  - intros [s' E]. destruct (acceptable_dec (np c) a) as [A|A]; auto. destruct (check_err _ _ A) as [e E'].
    unfold set_item in E. rewrite E' in E. discriminate.
  - intros A. destruct (check_ok _ _ A) as (l & E & _). unfold set_item. rewrite E. simpl. eauto.
Qed.

Theorem C51_rejects : forall s x, ~ valid x -> step_sel s x = s /\
  exists e, set_item (fst (fst x)) s (target x) (snd x) = Err e /\
    (e = TypeError <-> target x = KOther \/ snd x = IBad) /\ (e = TypeError \/ e = ValueError).
Proof.
  intros s x V. split; [apply step_invalid; auto|]. destruct x as [[np k] a]. destruct k as [c|]; cbn [fst snd target].
  - simpl in V. unfold set_item. destruct a as [b|z| |]; simpl in *.
    + destruct (Nat.eqb_spec (length b) (np c)); [contradiction|]. simpl. exists ValueError.
      repeat split; auto; [discriminate|intros [H|H]; discriminate].
    + destruct (check_err (np c) (IInt z) V) as [e E]. simpl in E. rewrite E. exists e. split; auto.
      destruct (has_repeat z); [injection E as <-|].
      * repeat split; auto; [discriminate|intros [H|H]; discriminate].
      * destruct (existsb (fun i => Z.ltb i 0) z || existsb (fun i => Z.leb (Z.of_nat (np c)) i) z)%bool; [injection E as <-|discriminate].
        repeat split; auto; [discriminate|intros [H|H]; discriminate].
    + tauto.
    + exists TypeError. repeat split; auto.
  - exists TypeError. repeat split; auto.
Qed.

Theorem C51_unknown : forall h k, (forall x, In x h -> target x = k -> ~ valid x) -> get_item (run_sel h) k = [].
Proof.
  intros h k H. destruct k as [c|]; [|reflexivity].
  destruct (C51_lookup h c) as [[G _]|(h1 & np & a & h2 & E & A & _)]; auto.
  exfalso. apply (H (np, KComp c, a)); auto. subst. apply in_app_iff. right; left; auto.
Qed.

Lemma eqb_list_iff : forall a b, eqb_list a b = true <-> a = b.
Proof.
  induction a as [|x s IH]; intros [|y t]; simpl; split; intros H; try discriminate; auto.
  - apply andb_true_iff in H. destruct H as [H1 H2]. apply Nat.eqb_eq in H1. apply IH in H2. subst; auto.
  - injection H as -> ->. rewrite Nat.eqb_refl. simpl. apply IH; auto.
Qed.

Lemma has_key_iff : forall s c, has_key s c = true <-> In c (map fst s).
Proof.
  intros s c. unfold has_key. rewrite existsb_exists, in_map_iff. split.
  - intros (p & I & E). apply Nat.eqb_eq in E. eauto.
  - intros (p & E & I). exists p. rewrite E, Nat.eqb_refl. auto.
Qed.

(** Equality is equality as mappings. *)
Theorem C51_equal : forall s t, sel_eq s t = true <-> forall c, find_sel s c = find_sel t c.
Proof.
  intros s t. unfold sel_eq. rewrite !andb_true_iff, !forallb_forall. split.
  - intros [[H1 H2] H3] c. destruct (find_sel s c) as [l|] eqn:E.
    + assert (I := find_Some _ _ _ E). specialize (H3 _ I). specialize (H1 _ I). cbn [fst] in *.
      apply eqb_list_iff in H3. cbn [get_item] in H3. rewrite E in H3. apply has_key_iff in H1.
      destruct (find_sel t c) as [m|] eqn:E'; [congruence|]. apply find_None in E'. contradiction.
    + destruct (find_sel t c) as [m|] eqn:E'; auto. assert (I := find_Some _ _ _ E'). specialize (H2 _ I). cbn [fst] in H2.
      apply has_key_iff in H2. apply find_None in E. contradiction.
  - intros H. split; [split|].
    + intros [c l] I. cbn [fst]. apply has_key_iff. destruct (in_dec Nat.eq_dec c (map fst t)) as [J|J]; auto.
      apply find_None in J. rewrite <- H in J. apply find_None in J. exfalso. apply J, in_map_iff. exists (c, l); auto.
    + intros [c l] I. cbn [fst]. apply has_key_iff. destruct (in_dec Nat.eq_dec c (map fst s)) as [J|J]; auto.
      apply find_None in J. rewrite H in J. apply find_None in J. exfalso. apply J, in_map_iff. exists (c, l); auto.
    + intros [c l] I. cbn [fst get_item]. rewrite H. apply eqb_list_iff. reflexivity.
Qed.

(** Two selections can be equal (in the sense of the class) although a component has different places in the vector
    of parameters: the check of projected.py:402-405 does not see it. *)
Theorem C51_equal_refuted : exists s t c, sel_eq s t = true /\ find_sel (objective_inds s) c <> find_sel (objective_inds t) c.
Proof.
  exists [(0, [0; 1]); (1, [0])], [(1, [0]); (0, [0; 1])], 0. split; [reflexivity|vm_compute; discriminate].
Qed.

(** * C52 *)
Theorem C52_slices : forall s, map fst (objective_inds s) = map fst s
  /\ concat (map snd (objective_inds s)) = seq 0 (active_nparams s)
  /\ (NoDup (map fst s) -> forall c l, In (c, l) s ->
        exists k, find_sel (objective_inds s) c = Some (seq k (length l)) /\ forall j i, nth_error l j = Some i -> place s (k + j) c i).
Proof.
  intros s. split; [apply slices_keys|]. split; [apply slices_concat|]. intros N c l I. unfold objective_inds.
  assert (G : forall k0, exists k, find_sel (slices_from (k0 : nat) s) c = Some (seq (k0 + k) (length l)) /\ forall j i, nth_error l j = Some i -> place s (k + j) c i).
  { clear - N I. induction s as [|[d m] t IH]; intros k0; simpl in *; [contradiction|]. inversion N; subst.
    destruct I as [E|I].
    - injection E as -> ->. exists 0. rewrite Nat.eqb_refl, Nat.add_0_r. split; auto. intros j i E. constructor; auto.
    - assert (D : d <> c). { intros ->. apply H1, in_map_iff. exists (c, l); auto. }
      rewrite (proj2 (Nat.eqb_neq d c)) by auto. destruct (IH H2 I (k0 + length m)) as (k & F & G). exists (length m + k).
      split; [rewrite F; do 2 f_equal; lia|]. intros j i E. rewrite <- Nat.add_assoc. constructor. apply G; auto. }
  destruct (G 0) as (k & F & H). exists k. auto.
Qed.

Lemma fits_tail : forall np c l t, fits_sel np ((c, l) :: t) -> fits_sel np t /\ increasing l /\ Forall (fun i => i < np c) l /\ ~ In c (map fst t).
Proof.
  intros np c l t [N F]. simpl in N. inversion N; subst. split; [|split; [|split; auto]].
  - split; auto. intros d m I. apply F. right; auto.
  - apply (F c l). left; auto.
  - apply (F c l). left; auto.
Qed.

Lemma fits_ext : forall np np' s, (forall c, np' c = np c) -> fits_sel np s -> fits_sel np' s.
Proof. intros np np' s E [N F]. split; auto. intros c l I. rewrite E. apply F; auto. Qed.

Section C52.
Context {K : Type}.
Variable d : K.

Lemma nth_take : forall (p : list K) k n, k + n <= length p -> take p (seq k n) = Ok (firstn n (skipn k p)).
Proof.
  intros p k n H. rewrite (take_ok p (seq k n) d).
  - f_equal. apply nth_ext with (d := d) (d' := d).
    + rewrite map_length, seq_length, firstn_length, skipn_length. lia.
    + intros j L. rewrite map_length, seq_length in L. rewrite (nth_indep _ d (nth 0 p d)) by (rewrite map_length, seq_length; auto).
      rewrite (map_nth (fun i => nth i p d)), seq_nth by auto.
      rewrite <- (firstn_skipn k p) at 1. rewrite app_nth2; rewrite firstn_length; [|lia].
      replace (k + j - Nat.min k (length p)) with j by lia.
      rewrite <- (firstn_skipn n (skipn k p)) at 1. rewrite app_nth1; auto. rewrite firstn_length, skipn_length. lia.
  - apply Forall_forall. intros i I. apply in_seq in I. lia.
Qed.

Lemma nth_block : forall (p : list K) k n j, j < n -> nth j (firstn n (skipn k p)) d = nth (k + j) p d.
Proof.
  intros p k n j H. destruct (lt_dec (k + j) (length p)) as [L|L].
  - rewrite <- (firstn_skipn k p) at 2. rewrite app_nth2; rewrite firstn_length; [|lia].
    replace (k + j - Nat.min k (length p)) with j by lia.
    rewrite <- (firstn_skipn n (skipn k p)) at 2. rewrite app_nth1; auto. rewrite firstn_length, skipn_length. lia.
  - rewrite !nth_overflow; auto; [lia|]. rewrite firstn_length, skipn_length. lia.
Qed.

Lemma active_ok : forall (w : world K) s, fits_sel (fun c => length (w c)) s -> exists ls,
  mapM (fun p => take (w (fst p)) (snd p)) s = Ok ls /\ length (concat ls) = active_nparams s
  /\ forall k c i, place s k c i -> nth k (concat ls) d = nth i (w c) d.
Proof.
  intros w s. induction s as [|[c l] t IH]; intros F.
  - exists []. simpl. repeat split; auto. intros k c i P. inversion P.
  - destruct (fits_tail _ _ _ _ F) as (F' & S & B & _). destruct (IH F') as (ls & E & L & G).
    exists (map (fun i => nth i (w c) d) l :: ls). cbn [mapM fst snd]. rewrite (take_ok _ _ d B). cbn [bind]. rewrite E.
    split; [reflexivity|]. unfold active_nparams in *. simpl. rewrite app_length, map_length, L. split; auto.
    intros k e i P. inversion P; subst.
    + assert (k < length l) by (apply nth_error_Some; congruence). rewrite app_nth1 by (rewrite map_length; auto).
      rewrite (nth_indep _ d (nth 0 (w e) d)) by (rewrite map_length; auto). rewrite (map_nth (fun i => nth i (w e) d)).
      f_equal. apply nth_error_nth. auto.
    + rewrite app_nth2; rewrite map_length; [|lia]. replace (length l + k0 - length l) with k0 by lia. auto.
Qed.

(** active_params is the vector of the selected parameters. *)
Theorem C52_active : forall (w : world K) s, s <> [] -> fits_sel (fun c => length (w c)) s ->
  exists v, active_params w s = Ok v /\ length v = active_nparams s
  /\ forall k c i, place s k c i -> nth k v d = nth i (w c) d.
Proof.
  intros w s NE F. destruct (active_ok w s F) as (ls & E & L & G). exists (concat ls).
  destruct s as [|p t]; [congruence|]. unfold active_params. rewrite E. repeat split; auto.
Qed.

Variable store : nat -> list K -> res (list K).
Variable view : nat -> bool.

Lemma assign_loop_spec : forall s k slices (w : world K) p,
  NoDup (map fst slices) -> incl (slices_from k s) slices -> k + active_nparams s <= length p ->
  fits_sel (fun c => length (w c)) s ->
  (forall c v, In c (map fst s) -> length v = length (w c) -> store c v = Ok v) ->
  exists w', (forall s2, assign_loop store view w (s ++ s2) slices p = assign_loop store view w' s2 slices p)
  /\ (forall c, length (w' c) = length (w c))
  /\ (forall c, ~ In c (map fst s) -> w' c = w c)
  /\ (forall c i, ~ selected s c i -> nth i (w' c) d = nth i (w c) d)
  /\ (forall j c i, place s j c i -> nth i (w' c) d = nth (k + j) p d).
Proof.
  induction s as [|[c l] t IH]; intros k slices w p N I L F St.
  - exists w. repeat split; auto. intros j c i P. inversion P.
  - destruct (fits_tail _ _ _ _ F) as (F' & S & B & NI). unfold active_nparams in L. simpl in L.
    assert (GI : get_item slices (KComp c) = seq k (length l)).
    { cbn [get_item]. rewrite (find_In slices c (seq k (length l)) N); auto. apply I. left; auto. }
    assert (ND : NoDup l) by (apply increasing_NoDup; auto).
    destruct (scatter_ok (w c) l (firstn (length l) (skipn k p)) d ND ltac:(rewrite firstn_length, skipn_length; lia) B)
      as (u & E & Lu & U1 & U2).
    assert (Su : store c u = Ok u) by (apply St; [left; auto|auto]).
    remember (set_world w c u) as w1 eqn:Ew1.
    assert (W1 : forall e, length (w1 e) = length (w e)).
    { intros e. rewrite Ew1. unfold set_world. destruct (Nat.eqb_spec e c); [subst; auto|auto]. }
    destruct (IH (k + length l) slices (if view c then set_world w1 c u else w1) p N) as (w' & E' & A1 & A2 & A3 & A4).
    + intros x J. apply I. right; auto.
    + unfold active_nparams. lia.
    + apply (fits_ext (fun c => length (w c))); auto. intros e. destruct (view c); [unfold set_world; destruct (Nat.eqb_spec e c); [subst; auto|]|]; apply W1.
    + intros e v J Lv. apply St; [right; auto|]. rewrite Lv. destruct (view c); [unfold set_world; destruct (Nat.eqb_spec e c); [subst; auto|]|]; apply W1.
    + assert (Wv : forall e, (if view c then set_world w1 c u else w1) e = w1 e).
      { intros e. destruct (view c); auto. rewrite Ew1; unfold set_world. destruct (Nat.eqb e c); auto. }
      assert (Wc : w1 c = u) by (rewrite Ew1; unfold set_world; rewrite Nat.eqb_refl; auto).
      assert (We : forall e, e <> c -> w1 e = w e) by (intros e D; rewrite Ew1; unfold set_world; rewrite (proj2 (Nat.eqb_neq e c)); auto).
      exists w'. split; [|split; [|split; [|split]]].
      * intros s2. cbn [app assign_loop]. rewrite GI, nth_take by lia. cbn [bind]. rewrite E, Su.
        rewrite <- E'. subst w1. destruct (view c); reflexivity.
      * intros e. rewrite A1, Wv. auto.
      * intros e NJ. rewrite A2 by (simpl in NJ; tauto). rewrite Wv. apply We. simpl in NJ. intros ->. tauto.
      * intros e i NS. assert (NS' : ~ selected t e i). { intros (m & J1 & J2). apply NS. exists m. split; auto. right; auto. }
        rewrite A3, Wv by auto. destruct (Nat.eq_dec e c) as [->|D]; [|rewrite We; auto]. rewrite Wc. apply U2.
        intros J. apply NS. exists l. split; auto. left; auto.
      * intros j e i P. clear Ew1.
        assert (D : (nth_error l j = Some i /\ e = c) \/ exists k0, j = length l + k0 /\ place t k0 e i).
        { inversion P; [left; auto|right; eauto]. }
        destruct D as [[Hn De]|(k0 & Dj & Hp)].
        -- rewrite De, A2, Wv, Wc by auto. rewrite (U1 j i) by auto. apply nth_block. apply nth_error_Some. congruence.
        -- rewrite (A4 k0 e i) by auto. f_equal. lia.
Qed.

Definition stores (w : world K) (l : list nat) : Prop :=
  forall c v, In c l -> length v = length (w c) -> store c v = Ok v.

(** Assigning a vector of the right length gives the selected parameters their values and changes no other. *)
Theorem C52_assign : forall (w : world K) s p,
  fits_sel (fun c => length (w c)) s -> length p = active_nparams s -> stores w (map fst s) ->
  exists w', assign_params store view w s p = (w', Ok tt)
  /\ (s <> [] -> active_params w' s = Ok p)
  /\ (forall c, length (w' c) = length (w c))
  /\ (forall c i, ~ selected s c i -> nth i (w' c) d = nth i (w c) d)
  /\ (forall k c i, place s k c i -> nth i (w' c) d = nth k p d).
Proof.
  intros w s p F L St.
  destruct (assign_loop_spec s 0 (objective_inds s) w p) as (w' & E & A1 & A2 & A3 & A4); auto.
  { unfold objective_inds. rewrite slices_keys. apply F. } { apply incl_refl. } { lia. }
  exists w'. split; [|split; [|split; [|split]]]; auto.
  - unfold assign_params. unfold objective_inds at 1. rewrite slices_total, L, Nat.eqb_refl. simpl.
    specialize (E []). rewrite app_nil_r in E. exact E.
  - intros NE. assert (F2 : fits_sel (fun c => length (w' c)) s) by (apply (fits_ext (fun c => length (w c))); auto).
    destruct (C52_active w' s NE F2) as (v & Ev & Lv & G). rewrite Ev. f_equal.
    apply nth_ext with (d := d) (d' := d); [lia|]. intros k Hk. rewrite Lv in Hk.
    destruct (place_total s k Hk) as (c & i & P). rewrite (G k c i P). rewrite (A4 k c i P). reflexivity.
Qed.

(** A vector of another length is refused and nothing changes. *)
Theorem C52_length : forall (w : world K) s p, length p <> active_nparams s -> assign_params store view w s p = (w, Err ValueError).
Proof.
  intros w s p L. unfold assign_params, objective_inds. rewrite slices_total.
  destruct (Nat.eqb_spec (active_nparams s) (length p)); [congruence|reflexivity].
Qed.

(** Assigning the present active parameters changes nothing. *)
Theorem C52_identity : forall (w : world K) s v,
  fits_sel (fun c => length (w c)) s -> stores w (map fst s) -> active_params w s = Ok v ->
  exists w', assign_params store view w s v = (w', Ok tt) /\ forall c, w' c = w c.
Proof.
  intros w s v F St A. assert (NE : s <> []) by (intros ->; discriminate).
  destruct (C52_active w s NE F) as (v' & E & L & G). rewrite E in A. injection A as ->.
  destruct (C52_assign w s v F L St) as (w' & E' & _ & B1 & B2 & B3). exists w'. split; auto. intros c.
  apply nth_ext with (d := d) (d' := d); auto. intros i _.
  assert (D : selected s c i \/ ~ selected s c i).
  { clear. induction s as [|[e m] t IH].
    - right. intros (l & [] & _).
    - destruct IH as [(l & H1 & H2)|H].
      + left. exists l. split; auto. right; auto.
      + destruct (Nat.eq_dec e c) as [->|D].
        * destruct (in_dec Nat.eq_dec i m) as [J|J].
          -- left. exists m. split; auto. left; auto.
          -- right. intros (l & [E|H1] & H2); [injection E as ->; contradiction|]. apply H. exists l; auto.
        * right. intros (l & [E|H1] & H2); [congruence|]. apply H. exists l; auto. }
  destruct D as [S|S]; [|apply B2; auto]. destruct (selected_place _ _ _ S) as [k P]. rewrite (B3 _ _ _ P). apply G; auto.
Qed.

(** When the assign_params of a component raises, the exception goes through, the components before it have their
    new values, and it has them too if its parameters are a contiguous array. *)
Theorem C52_failure : forall (w : world K) s1 c l s2 p e,
  let s := s1 ++ (c, l) :: s2 in
  let written := s1 ++ (if view c then [(c, l)] else []) in
  fits_sel (fun c => length (w c)) s -> length p = active_nparams s -> stores w (map fst s1) ->
  (forall v, store c v = Err e) ->
  exists w', assign_params store view w s p = (w', Err e)
  /\ (forall d0 i, ~ selected written d0 i -> nth i (w' d0) d = nth i (w d0) d)
  /\ (forall k d0 i, place s k d0 i -> k < active_nparams written -> nth i (w' d0) d = nth k p d).
Proof.
  intros w s1 c l s2 p e s written F L St Er.
  assert (Ac : active_nparams s = active_nparams s1 + (length l + active_nparams s2)).
  { unfold s, active_nparams. rewrite map_app, list_sum_app. reflexivity. }
  assert (NS : NoDup (map fst (objective_inds s))) by (unfold objective_inds; rewrite slices_keys; apply F).
  assert (F1 : fits_sel (fun c => length (w c)) s1).
  { destruct F as [N F]. split; [|intros x m J; apply F; unfold s; apply in_app_iff; auto].
    unfold s in N. rewrite map_app in N. apply NoDup_app_iff in N. tauto. }
  assert (Sp : forall k a b, slices_from k (a ++ b) = slices_from k a ++ slices_from (k + active_nparams a) b).
  { clear. intros k a. revert k. induction a as [|[x m] t IH]; intros k b; simpl.
    - unfold active_nparams. simpl. f_equal. lia.
    - rewrite IH. unfold active_nparams. simpl. do 3 f_equal. lia. }
  destruct (assign_loop_spec s1 0 (objective_inds s) w p NS) as (w1 & E & A1 & A2 & A3 & A4); auto.
  { unfold objective_inds, s. rewrite Sp. apply incl_appl, incl_refl. } { lia. }
  assert (FI : In (c, l) s) by (unfold s; apply in_app_iff; right; left; auto).
  destruct F as [N F]. destruct (F c l FI) as [Inc B].
  assert (Nc : ~ In c (map fst s1)).
  { unfold s in N. rewrite map_app in N. apply NoDup_app_iff in N. destruct N as (_ & _ & D). intros J. apply (D c J). left; auto. }
  assert (GI : get_item (objective_inds s) (KComp c) = seq (active_nparams s1) (length l)).
  { cbn [get_item]. rewrite (find_In _ c (seq (active_nparams s1) (length l)) NS); auto.
    unfold objective_inds, s. rewrite Sp. apply in_app_iff. right. left. reflexivity. }
  assert (ND : NoDup l) by (apply increasing_NoDup; auto).
  destruct (scatter_ok (w c) l (firstn (length l) (skipn (active_nparams s1) p)) d ND ltac:(rewrite firstn_length, skipn_length; lia) B)
    as (u & Eu & Lu & U1 & U2).
  exists (if view c then set_world w1 c u else w1). split; [|split].
  - unfold assign_params. unfold objective_inds at 1. rewrite slices_total, L, Nat.eqb_refl. simpl.
    unfold s at 1. rewrite E. cbn [assign_loop]. rewrite GI, nth_take by lia. cbn [bind]. rewrite (A2 c Nc), Eu, Er. reflexivity.
  - intros d0 i NW. assert (NW1 : ~ selected s1 d0 i).
    { intros (m & J1 & J2). apply NW. exists m. split; auto. unfold written. apply in_app_iff; auto. }
    destruct (view c) eqn:V; [|apply A3; auto]. unfold set_world. destruct (Nat.eqb_spec d0 c) as [->|D]; [|apply A3; auto].
    apply U2. intros J. apply NW. exists l. split; auto. unfold written. try rewrite V. apply in_app_iff. right; left; auto.
  - assert (Pl : forall (a b : sel) k x i, place (a ++ b) k x i -> place a k x i \/ exists k', k = active_nparams a + k' /\ place b k' x i).
    { clear. induction a as [|[y m] t IH]; intros b k x i P; simpl in P.
      - right. exists k. auto.
      - inversion P; subst.
        + left. constructor; auto.
        + match goal with H : place (t ++ b) _ _ _ |- _ => destruct (IH _ _ _ _ H) as [Q|(k' & -> & Q)] end; [left; constructor; auto|].
          right. exists k'. split; auto. unfold active_nparams. simpl. lia. }
    intros k d0 i P Hk. destruct (Pl s1 ((c, l) :: s2) k d0 i P) as [Q|(k' & -> & Q)].
    + assert (J : In d0 (map fst s1)). { destruct (place_In _ _ _ _ Q) as (m & J & _). apply in_map_iff. exists (d0, m); auto. }
      assert (D : d0 <> c) by (intros ->; contradiction).
      transitivity (nth i (w1 d0) d); [|apply (A4 k d0 i Q)].
      destruct (view c); auto. unfold set_world. rewrite (proj2 (Nat.eqb_neq d0 c)); auto.
    + unfold written, active_nparams in Hk. rewrite map_app, list_sum_app in Hk. fold (active_nparams s1) in Hk.
      destruct (view c) eqn:V; simpl in Hk; [|lia]. inversion Q; subst.
      * unfold set_world. rewrite Nat.eqb_refl. rewrite (U1 k' i) by auto. apply nth_block. lia.
      * lia.
Qed.
End C52.

Lemma check_all : forall n, check_indices n (all_ints n) = Ok (seq 0 n).
Proof.
  intros n. assert (A : acceptable n (all_ints n)).
  { split.
    - apply FinFun.Injective_map_NoDup; [intros x y E; lia|apply seq_NoDup].
    - apply Forall_forall. intros z I. apply in_map_iff in I. destruct I as (i & <- & I). apply in_seq in I. lia. }
  destruct (check_ok _ _ A) as (l & E & S & P & _). rewrite E. f_equal. apply increasing_ext; auto.
  - clear. generalize 0. induction n as [|n IH]; intros k; simpl; constructor; [apply IH|].
    apply Forall_forall. intros i I. apply in_seq in I. lia.
  - intros i. rewrite P. unfold all_ints, picks. rewrite in_map_iff. split.
    + intros (j & E' & I). replace i with j by lia. auto.
    + intros I. exists i. auto.
Qed.

(** The constructor: every given assignment is made in order, the first invalid one raises, and the orbitals are
    added when they are to be optimized and no Hamiltonian parameter is selected. *)
Theorem C52_constructor : forall np wfn ham given optimize,
  let l := match given with None => [(KComp wfn, all_ints (np wfn))] | Some l => l end in
  let s0 := run_sel (map (fun ka => (np, fst ka, snd ka)) l) in
  ((exists s, make_selection np wfn ham given optimize = Ok s) <-> Forall (fun ka => valid (np, fst ka, snd ka)) l)
  /\ forall s, make_selection np wfn ham given optimize = Ok s ->
     fits_sel np s
     /\ (forall c, get_item s (KComp c) =
           if (optimize && Nat.eqb c ham)%bool then match get_item s0 (KComp c) with [] => seq 0 (np ham) | m => m end
           else get_item s0 (KComp c))
     /\ (optimize = false -> s = s0)
     /\ (s = s0 \/ (exists l', put_sel s0 ham l' = s)).
Proof.
  intros np wfn ham given optimize l s0. unfold make_selection. fold l.
  assert (G : forall l s, fits_sel np s -> (Forall (fun ka => valid (np, fst ka, snd ka)) l ->
      exists s', set_items np s l = Ok s' /\ s' = fold_left step_sel (map (fun ka => (np, fst ka, snd ka)) l) s /\ fits_sel np s')
    /\ ((exists s', set_items np s l = Ok s') -> Forall (fun ka => valid (np, fst ka, snd ka)) l)).
  { clear. induction l as [|[k a] t IH]; intros s F.
    - split; [intros _; exists s; auto|intros _; constructor].
    - assert (Fp : forall c m, increasing m -> Forall (fun i => i < np c) m -> fits_sel np (put_sel s c m)).
      { intros c m Hi Hb. destruct F as [N F].
        assert (N' : NoDup (map fst (put_sel s c m))).
        { rewrite keys_put. destruct (in_dec Nat.eq_dec c (map fst s)); auto.
          apply (Permutation_NoDup (l := c :: map fst s)); [apply Permutation_cons_append|constructor; auto]. }
        split; auto. intros e q J. apply (find_In _ _ _ N') in J. rewrite find_put in J. destruct (Nat.eqb_spec c e).
        - injection J as <-. subst. auto.
        - apply F, find_Some; auto. }
      split.
      + intros V. inversion V; subst. cbn [fst snd] in H1. destruct k as [c|]; [|contradiction].
        destruct (check_ok _ _ H1) as (m & E & Hi & _ & Hb).
        destruct (IH (put_sel s c m) (Fp c m Hi Hb)) as [A _]. destruct (A H2) as (s' & E' & Es & Fs).
        exists s'. cbn [set_items set_item map fold_left fst snd step_sel]. unfold set_item. rewrite E. cbn [bind]. rewrite E'. auto.
      + intros [s' E]. cbn [set_items] in E. destruct (valid_dec (np, k, a)) as [V|V].
        * constructor; auto. destruct k as [c|]; [|contradiction]. destruct (check_ok _ _ V) as (m & Em & Hi & _ & Hb).
          unfold set_item in E. rewrite Em in E. cbn [bind] in E. apply (IH (put_sel s c m) (Fp c m Hi Hb)). eauto.
        * exfalso. destruct (C51_rejects s (np, k, a) V) as (_ & e & Ee & _). cbn [fst snd target] in Ee.
          unfold target in Ee. cbn [fst snd] in Ee. rewrite Ee in E. discriminate. }
  assert (F0 : fits_sel np []) by (split; [constructor|intros c m []]).
  destruct (G l [] F0) as [G1 G2].
  assert (AO : forall s, exists s', add_orbitals np ham optimize s = Ok s').
  { intros s. unfold add_orbitals. destruct (optimize && (negb (has_key s ham) || Nat.eqb (length (get_item s (KComp ham))) 0))%bool; eauto.
    unfold set_item. rewrite check_all. simpl. eauto. }
  split.
  - split.
    + intros [s E]. apply G2. destruct (set_items np [] l) as [s1|e]; [eauto|discriminate].
    + intros V. destruct (G1 V) as (s1 & E & _). rewrite E. cbn [bind]. apply AO.
  - intros s E. destruct (set_items np [] l) as [s1|e] eqn:E1; [|discriminate]. cbn [bind] in E.
    destruct (G1 (G2 (ex_intro _ _ eq_refl))) as (s1' & E1' & Es & Fs). apply Ok_inj in E1'. subst s1'.
    assert (S0 : s1 = s0) by exact Es. rewrite S0 in *. clear E1 Es.
    unfold add_orbitals in E. destruct optimize; cbn [andb] in E.
    2:{ apply Ok_inj in E. subst s. split; [exact Fs|]. split; [intros c; destruct (Nat.eqb c ham); reflexivity|]. auto. }
    assert (Cond : (negb (has_key s0 ham) || Nat.eqb (length (get_item s0 (KComp ham))) 0)%bool = Nat.eqb (length (get_item s0 (KComp ham))) 0).
    { destruct (has_key s0 ham) eqn:Hk; auto. cbn [get_item]. destruct (find_sel s0 ham) as [m|] eqn:Ef; auto.
      apply find_Some in Ef. assert (has_key s0 ham = true) by (apply has_key_iff, in_map_iff; exists (ham, m); auto). congruence. }
    rewrite Cond in E. destruct (Nat.eqb_spec (length (get_item s0 (KComp ham))) 0) as [Z|Z].
    + unfold set_item in E. rewrite check_all in E. cbn [bind] in E. apply Ok_inj in E. subst s. split; [|split; [|split]].
      * destruct (G [(KComp ham, all_ints (np ham))] s0 Fs) as [_ _].
        assert (N' : NoDup (map fst (put_sel s0 ham (seq 0 (np ham))))).
        { rewrite keys_put. destruct (in_dec Nat.eq_dec ham (map fst s0)); [apply Fs|].
          apply (Permutation_NoDup (l := ham :: map fst s0)); [apply Permutation_cons_append|constructor; auto; apply Fs]. }
        split; auto. intros c m J. apply (find_In _ _ _ N') in J. rewrite find_put in J. destruct (Nat.eqb_spec ham c).
        -- injection J as <-. subst. split; [|apply Forall_forall; intros i I; apply in_seq in I; lia].
           clear. generalize 0. induction (np c) as [|n IH]; intros k; simpl; constructor; [apply IH|].
           apply Forall_forall. intros i I. apply in_seq in I. lia.
        -- apply (proj2 Fs), find_Some; auto.
      * intros c. destruct (Nat.eqb_spec c ham) as [->|D]; cbn [andb].
        -- cbn [get_item]. rewrite find_put, Nat.eqb_refl. cbn [get_item] in Z.
           destruct (match find_sel s0 ham with Some m => m | None => [] end); [auto|discriminate].
        -- cbn [get_item]. rewrite find_put. rewrite (proj2 (Nat.eqb_neq ham c)) by auto. reflexivity.
      * discriminate.
      * right. eauto.
    + apply Ok_inj in E. subst s. split; [auto|]. split; [|split; auto; discriminate].
      intros c. destruct (Nat.eqb_spec c ham) as [->|D]; cbn [andb]; auto.
      destruct (get_item s0 (KComp ham)); [simpl in Z; congruence|auto].
Qed.

(** Examples *)
Example C51_example : run_sel [(fun _ => 4, KComp 7, IInt [3; 0]%Z); (fun _ => 4, KComp 2, IBool [true; false; true; false]);
    (fun _ => 4, KComp 7, IInt [1; 1]%Z); (fun _ => 4, KComp 7, IInt [2; 1; 0]%Z); (fun _ => 4, KOther, IEmpty)]
  = [(7, [0; 1; 2]); (2, [0; 2])].
Proof. reflexivity. Qed.
Example C51_invalid_example : ~ valid (fun _ => 4, KComp 7, IInt [1; 1]%Z) /\ ~ valid (fun _ => 4, KComp 7, IInt [4]%Z)
  /\ valid (fun _ => 4, KComp 7, IInt [3; 0]%Z).
Proof.
  split; [|split].
  - intros [N _]. inversion N; subst. apply H1. left; auto.
  - intros [_ F]. inversion F; subst. simpl in H1. lia.
  - split; [repeat constructor; simpl; intuition lia|repeat constructor; lia].
Qed.
Example C52_example : let w := (fun c => match c with 7 => [10; 11; 12] | 2 => [20; 21] | _ => [] end) in
  let s := [(7, [0; 2]); (2, [1])] in
  active_params w s = Ok [10; 12; 21]
  /\ (let r := assign_params (fun _ v => Ok v) (fun _ => true) w s [5; 6; 7] in
      (fst r 7, fst r 2, snd r) = ([5; 11; 6], [20; 7], Ok tt))
  /\ objective_inds s = [(7, [0; 1]); (2, [2])].
Proof. repeat split; reflexivity. Qed.
(** the second component raises: the first keeps its new values *)
Example C52_failure_example : let w := (fun c => match c with 7 => [10; 11; 12] | 2 => [20; 21] | _ => [] end) in
  let r := assign_params (fun c v => if Nat.eqb c 2 then Err ValueError else Ok v) (fun _ => true) w [(7, [0; 2]); (2, [1])] [5; 6; 7] in
  (fst r 7, fst r 2, snd r) = ([5; 11; 6], [20; 7], Err ValueError).
Proof. reflexivity. Qed.
Example C52_constructor_example :
  make_selection (fun c => match c with 0 => 3 | _ => 2 end) 0 1 None true = Ok [(0, [0; 1; 2]); (1, [0; 1])]
  /\ make_selection (fun c => match c with 0 => 3 | _ => 2 end) 0 1 (Some [(KComp 1, IInt [1]%Z); (KComp 0, IInt [2; 0]%Z)]) true
     = Ok [(1, [1]); (0, [0; 2])]
  /\ make_selection (fun c => match c with 0 => 3 | _ => 2 end) 0 1 (Some [(KComp 1, IInt [2]%Z)]) true = Err ValueError.
Proof. repeat split; reflexivity. Qed.

Print Assumptions C51_lookup.
Print Assumptions C51_stored.
Print Assumptions C51_accepts.
Print Assumptions C51_rejects.
Print Assumptions C51_unknown.
Print Assumptions C51_equal.
Print Assumptions C51_equal_refuted.
Print Assumptions C52_slices.
Print Assumptions C52_active.
Print Assumptions C52_assign.
Print Assumptions C52_length.
Print Assumptions C52_identity.
Print Assumptions C52_failure.
Print Assumptions C52_constructor.
