(** Property C76: projection spaces and references of the objectives and the energies in the default spaces. *)
From Coq Require Import List ZArith NArith Arith Bool Lia.
From Verif Require Import Py Slater BitSpec SlaterBits SlaterBits2 SdSpec BitLemmas SdList SdLemmas P_SdList Alg CILemmas FockInner ParamSel EqnBase EqnLemmas HamGen HamSpec P_Ham1
  WfnCI Solver SolverEx Pspace PspaceSpec PspaceEx.
From Coq Require Import QArith Qcanon.
Local Open Scope nat_scope.
Import ListNotations.

(** ** What is accepted *)
Lemma check_ok : forall w s m, (0 <= wi_nelec w)%Z -> (0 <= wi_nspin w)%Z -> check_state w s = Ok m <-> s = SInt m /\ valid_sd w m.
Proof.
  intros w s m Hn Hs. unfold check_state, valid_sd. destruct s as [sd| |]; [|split; [discriminate|intros [? _]; discriminate]..].
  destruct (Z.eqb_spec (Z.of_nat (length (occ_indices (Some sd)))) (wi_nelec w)) as [E|E]; cbn [negb].
  - destruct (existsb _ _) eqn:X.
    + split; [discriminate|]. intros [H [_ F]]. injection H as ->. exfalso. apply existsb_exists in X as (i & I & L). apply occ_indices_In in I.
      apply Z.leb_le in L. rewrite F in I by lia. discriminate.
    + split.
      * intros H. injection H as ->. split; [reflexivity|]. split; [apply electrons_occ; lia|]. intros i L. destruct (bit m i) eqn:B; auto. exfalso.
        rewrite <- Bool.not_true_iff_false in X. apply X. apply existsb_exists. exists i. split; [now apply occ_indices_In|]. apply Z.leb_le. lia.
      * intros [H _]. now injection H as ->.
  - split; [discriminate|]. intros [H [X _]]. injection H as ->. apply electrons_occ in X. lia.
Qed.
Lemma check_err : forall w s x, (0 <= wi_nelec w)%Z -> (0 <= wi_nspin w)%Z -> check_state w s = Err x <->
  match s with SInt m => x = ValueError /\ ~ valid_sd w m | _ => x = TypeError end.
Proof.
  intros w s x Hn Hs. destruct s as [sd|ne ns|]; [|cbn; split; congruence..]. pose proof (check_ok w (SInt sd) sd Hn Hs) as C.
  destruct (check_state w (SInt sd)) as [m|e] eqn:E.
  - split; [discriminate|]. intros [_ H]. exfalso. apply H. pose proof (check_ok w (SInt sd) m Hn Hs) as C'. rewrite E in C'. destruct (proj1 C' eq_refl) as [H' V]. injection H' as ->. exact V.
  - assert (e = ValueError). { unfold check_state in E. repeat match type of E with context [if ?b then _ else _] => destruct b end; congruence. }
    subst e. split.
    + intros H. injection H as <-. split; [reflexivity|]. intros V. assert (X : Err ValueError = Ok sd) by (apply C; auto). discriminate.
    + intros [-> _]. reflexivity.
Qed.
Lemma checks_ok : forall w l ms, (0 <= wi_nelec w)%Z -> (0 <= wi_nspin w)%Z -> mapM (check_state w) l = Ok ms <-> l = map SInt ms /\ Forall (valid_sd w) ms.
Proof.
  intros w l. induction l as [|s l IH]; intros ms Hn Hs; cbn [mapM].
  - split; [intros H; injection H as <-; split; [reflexivity|constructor]|]. intros [H _]. destruct ms; [reflexivity|discriminate].
  - destruct (check_state w s) as [m|x] eqn:E; cbn [bind].
    + apply check_ok in E as [-> V]; auto. destruct (mapM (check_state w) l) as [ms'|x] eqn:E'; cbn [bind].
      * destruct (proj1 (IH ms' Hn Hs) eq_refl) as [-> F]. split; [intros H; injection H as <-; split; [reflexivity|now constructor]|].
        intros [H _]. destruct ms as [|m' ms]; [discriminate|]. cbn in H. injection H as -> H. f_equal. f_equal. clear - H.
        revert ms H. induction ms' as [|a t IH]; intros [|b ms] H; try discriminate; [reflexivity|]. cbn in H. injection H as -> H. f_equal. auto.
      * split; [discriminate|]. intros [H F]. destruct ms as [|m' ms]; [discriminate|]. cbn in H. injection H as _ H. inversion F; subst.
        assert (X : Err x = Ok ms) by (apply IH; auto). discriminate.
    + split; [discriminate|]. intros [H F]. destruct ms as [|m' ms]; [discriminate|]. cbn in H. injection H as -> H. inversion F; subst.
      assert (X : check_state w (SInt m') = Ok m') by (apply check_ok; auto). congruence.
Qed.
Lemma checks_err : forall w l x, (0 <= wi_nelec w)%Z -> (0 <= wi_nspin w)%Z -> mapM (check_state w) l = Err x <->
  exists ms s l', l = map SInt ms ++ s :: l' /\ Forall (valid_sd w) ms /\ match s with SInt m => x = ValueError /\ ~ valid_sd w m | _ => x = TypeError end.
Proof.
  intros w l x Hn Hs. induction l as [|s l IH]; cbn [mapM].
  - split; [discriminate|]. intros (ms & s & l' & H & _). destruct ms; discriminate.
  - destruct (check_state w s) as [m|y] eqn:E; cbn [bind].
    + apply check_ok in E as [-> V]; auto. transitivity (mapM (check_state w) l = Err x); [destruct (mapM (check_state w) l); cbn [bind]; split; congruence|].
      rewrite IH. split.
      * intros (ms & s & l' & -> & F & X). exists (m :: ms), s, l'. split; [reflexivity|]. split; [now constructor|exact X].
      * intros ([|m' ms] & s & l' & H & F & X); cbn in H; injection H as <- ->; [tauto|]. inversion F; subst. exists ms, s, l'. auto.
    + split.
      * intros H. injection H as ->. apply check_err in E; auto. exists [], s, l. split; [reflexivity|]. split; [constructor|exact E].
      * intros ([|m' ms] & s' & l' & H & F & X); cbn in H; injection H as -> ->.
        -- apply check_err in X; auto. congruence.
        -- inversion F; subst. assert (Y : check_state w (SInt m') = Ok m') by (apply check_ok; auto). congruence.
Qed.
(** a given reference of a one-sided energy or of the norm *)
Theorem C76_reference : forall w a r, (0 <= wi_nelec w)%Z -> (0 <= wi_nspin w)%Z -> a <> ANone -> one_ref w a = Ok r <->
  (exists ms, (a = AList (map SInt ms) \/ exists m, a = AOne (SInt m) /\ ms = [m]) /\ Forall (valid_sd w) ms /\ r = RvSds ms) \/
  (a = AOne (SCI (wi_nelec w) (wi_nspin w)) /\ r = RvCI (wi_nelec w) (wi_nspin w)).
Proof.
  intros w a r Hn Hs Ha. destruct a as [|l|s]; [congruence| |].
  - cbn [one_ref]. destruct (mapM (check_state w) l) as [ms|x] eqn:E; cbn [bind].
    + apply checks_ok in E as [-> F]; auto. split.
      * intros H. injection H as <-. left. exists ms. auto.
      * intros [(ms' & [H|(m & H & _)] & _ & ->)|[H _]]; try discriminate. injection H as H. f_equal. f_equal.
        clear - H. revert ms' H. induction ms as [|a t IH]; intros [|b ms'] H; try discriminate; [reflexivity|]. cbn in H. injection H as -> H. f_equal. auto.
    + split; [discriminate|]. intros [(ms' & [H|(m & H & _)] & F & ->)|[H _]]; try discriminate. injection H as ->.
      assert (X : mapM (check_state w) (map SInt ms') = Ok ms') by (apply checks_ok; auto). congruence.
  - destruct s as [m|ne ns|]; cbn [one_ref].
    + destruct (mapM (check_state w) [SInt m]) as [ms|x] eqn:E; cbn [bind].
      * apply checks_ok in E as [E F]; auto. destruct ms as [|m' [|]]; try discriminate. injection E as <-. split.
        -- intros H. injection H as <-. left. exists [m]. split; [right; eauto|auto].
        -- intros [(ms' & [H|(m' & H & ->)] & _ & ->)|[H _]]; try discriminate. now injection H as ->.
      * split; [discriminate|]. intros [(ms' & [H|(m' & H & ->)] & F & ->)|[H _]]; try discriminate. injection H as ->.
        assert (X : mapM (check_state w) [SInt m'] = Ok [m']) by (apply checks_ok; auto). congruence.
    + destruct (Z.eqb_spec ne (wi_nelec w)) as [->|E]; cbn [negb].
      * destruct (Z.eqb_spec ns (wi_nspin w)) as [->|E]; cbn [negb].
        -- split; [intros H; injection H as <-; auto|]. intros [(ms' & [H|(m' & H & ->)] & F & ->)|[H ->]]; try discriminate. reflexivity.
        -- split; [discriminate|]. intros [(ms' & [H|(m' & H & ->)] & F & ->)|[H ->]]; try discriminate. injection H as ->. congruence.
      * split; [discriminate|]. intros [(ms' & [H|(m' & H & ->)] & F & ->)|[H ->]]; try discriminate. injection H as -> ->. congruence.
    + split; [discriminate|]. intros [(ms' & [H|(m' & H & ->)] & F & ->)|[H ->]]; discriminate.
Qed.
(** the first state that does not fit decides: ValueError for a determinant, TypeError for anything else *)
Theorem C76_refused : forall w l x, (0 <= wi_nelec w)%Z -> (0 <= wi_nspin w)%Z -> one_ref w (AList l) = Err x <->
  exists ms s l', l = map SInt ms ++ s :: l' /\ Forall (valid_sd w) ms /\ match s with SInt m => x = ValueError /\ ~ valid_sd w m | _ => x = TypeError end.
Proof.
  intros w l x Hn Hs. rewrite <- checks_err by auto. cbn [one_ref]. destruct (mapM (check_state w) l); cbn [bind]; split; congruence.
Qed.
(** given spaces of a two-sided energy, of the variational energy and of the local energy *)
Definition is_space (w : winfo) (a : sarg) (o : option (list N)) : Prop :=
  (a = ANone /\ o = None) \/ (exists ms, a = AList (map SInt ms) /\ o = Some ms /\ Forall (valid_sd w) ms).
Lemma map_sint : forall a b, map SInt a = map SInt b -> a = b.
Proof. induction a as [|x a IH]; intros [|y b] H; try discriminate; [reflexivity|]. cbn in H. injection H as -> H. f_equal. auto. Qed.
Lemma two_space_ok : forall w a o, (0 <= wi_nelec w)%Z -> (0 <= wi_nspin w)%Z -> two_space w a = Ok o <-> is_space w a o.
Proof.
  intros w a o Hn Hs. unfold is_space. destruct a as [|l|s]; cbn [two_space].
  - split; [intros H; injection H as <-; auto|]. intros [[_ ->]|(ms & H & _)]; [reflexivity|discriminate].
  - destruct (mapM (check_state w) l) as [ms|x] eqn:E; cbn [bind].
    + apply checks_ok in E as [-> F]; auto. split; [intros H; injection H as <-; right; eauto|]. intros [[H _]|(ms' & H & -> & _)]; [discriminate|].
      injection H as H. apply map_sint in H. now subst.
    + split; [discriminate|]. intros [[H _]|(ms' & H & -> & F)]; [discriminate|]. injection H as ->.
      assert (X : mapM (check_state w) (map SInt ms') = Ok ms') by (apply checks_ok; auto). congruence.
  - split; [discriminate|]. intros [[H _]|(ms & H & _)]; discriminate.
Qed.
Theorem C76_spaces : forall w pl pr pn l r n, (0 <= wi_nelec w)%Z -> (0 <= wi_nspin w)%Z -> pl <> ANone ->
  (two_pspaces w pl pr pn = Ok (l, r, n) <-> is_space w pl (Some l) /\ is_space w pr r /\ is_space w pn n) /\
  (var_pspace w pl = Ok (l, r, n) <-> is_space w pl (Some l) /\ r = Some l /\ n = Some l) /\
  (local_pspace w pl = Ok (RvSds l) <-> is_space w pl (Some l)).
Proof.
  intros w pl pr pn l r n Hn Hs Np.
  assert (T : forall pl pr pn l r n, pl <> ANone -> two_pspaces w pl pr pn = Ok (l, r, n) <-> is_space w pl (Some l) /\ is_space w pr r /\ is_space w pn n).
  { clear - Hn Hs. intros pl pr pn l r n Np. unfold two_pspaces. rewrite <- !two_space_ok by auto.
    assert (X : match pl with ANone => do l <- default_space w None; Ok (AList (map SInt l)) | a => Ok a end = Ok pl) by (destruct pl; congruence). rewrite X. cbn [bind].
    destruct (two_space w pl) as [[l0|]|]; cbn [bind].
    - destruct (two_space w pr) as [r0|]; cbn [bind]; [|split; [discriminate|intros (_ & H & _); discriminate]].
      destruct (two_space w pn) as [n0|]; cbn [bind]; [|split; [discriminate|intros (_ & _ & H); discriminate]]. split; [intros H; injection H as -> -> ->; auto|].
      intros (A & B & C). injection A as ->. injection B as ->. injection C as ->. reflexivity.
    - split; [|intros (H & _); discriminate]. destruct (two_space w pr); cbn [bind]; [|discriminate]. destruct (two_space w pn); discriminate.
    - split; [discriminate|intros (H & _); discriminate]. }
  split; [now apply T|]. split.
  - unfold var_pspace. assert (X : match pl with ANone => do l <- default_space w None; Ok (AList (map SInt l)) | a => Ok a end = Ok pl) by (destruct pl; congruence).
    rewrite X. cbn [bind]. rewrite T by auto. rewrite <- !two_space_ok by auto. split; [intros (A & B & C); rewrite A in B, C; split; [auto|split; congruence]|].
    intros (A & -> & ->). auto.
  - rewrite <- two_space_ok by auto. destruct pl as [|sts|s]; [congruence| |cbn; split; discriminate]. cbn [local_pspace one_ref two_space].
    destruct (forallb is_int sts) eqn:F.
    + destruct (mapM (check_state w) sts); cbn [bind]; split; congruence.
    + split; [discriminate|]. destruct (mapM (check_state w) sts) as [ms|] eqn:E; cbn [bind]; [|discriminate]. apply checks_ok in E as [-> _]; auto.
      exfalso. clear - F. induction ms; [discriminate|auto].
Qed.
(** ** The default spaces *)
Theorem C76_default : forall w, proper w -> exists l,
  one_ref w ANone = Ok (RvSds l) /\ local_pspace w ANone = Ok (RvSds l) /\
  two_pspaces w ANone ANone ANone = Ok (l, None, None) /\ var_pspace w ANone = Ok (l, Some l, Some l) /\
  NoDup l /\ forall m, In m l <-> own_sd w m.
Proof.
  intros w (Hn & Ev & Hc). destruct (C17_complete (wi_nelec w) (wi_nspin w) (wi_spin2 w) (wi_sen w) false Hn Ev Hc) as (l & E & ND & M). exists l.
  assert (V : Forall (valid_sd w) l) by (apply Forall_forall; intros m Hm; apply M in Hm; unfold valid_sd; tauto).
  assert (C : two_space w (AList (map SInt l)) = Ok (Some l)) by (apply two_space_ok; try lia; right; eauto).
  assert (D : default_space w None = Ok l) by exact E.
  split; [cbn [one_ref]; now rewrite D|]. split; [cbn [local_pspace one_ref]; now rewrite D|].
  split; [unfold two_pspaces; rewrite D; cbn [bind]; rewrite C; reflexivity|].
  split; [unfold var_pspace, two_pspaces; rewrite D; cbn [bind]; rewrite C; reflexivity|].
  split; [exact ND|]. intros m. rewrite M. unfold own_sd, valid_sd, wanted_sd. tauto.
Qed.
Theorem C76_projected_default : forall w orders, proper w -> NoDup (match orders with Some o => o | None => [1; 2]%Z end) ->
  (forall k, In k (match orders with Some o => o | None => [1; 2]%Z end) -> (0 < k)%Z) ->
  exists g l, is_aufbau g (Z.to_nat (wi_nelec w)) (Z.to_nat (wi_nspin w) / 2) /\
    proj_spaces w orders ANone ANone false = Ok (map SInt l, RvSds [g]) /\ NoDup l /\
    forall m, In m l <-> own_sd w m /\ (m = g \/ exists k, excitation g m k /\ In (Z.of_nat k) (match orders with Some o => o | None => [1; 2]%Z end)).
Proof.
  intros w orders (Hn & Ev & Hc) No Po. set (os := match orders with Some o => o | None => [1; 2]%Z end) in *.
  destruct (C17_orders (wi_nelec w) (wi_nspin w) os (wi_spin2 w) (wi_sen w) false Hn Ev Hc No Po) as (g & l & A & E & ND & M). exists g, l. split; [exact A|].
  destruct (ground_defined _ _ Hn Ev) as [g' G]. pose proof (ground_aufbau _ _ _ G) as A'.
  assert (g' = g) by (apply bit_ext; intros i; now rewrite A, A'). subst g'. destruct (ground_electrons _ _ _ G) as [Eg Fg].
  assert (Vg : valid_sd w g) by (split; auto). split.
  - unfold proj_spaces, proj_pspace, default_space. fold os. rewrite E. cbn [bind proj_ref]. rewrite G. cbn [bind as_arg one_ref].
    assert (X : mapM (check_state w) (map SInt [g]) = Ok [g]) by (apply checks_ok; try lia; auto). rewrite X. reflexivity.
  - split; [exact ND|]. intros m. rewrite M. unfold own_sd, valid_sd, wanted_sd. split.
    + intros (F & Wm & O). split; [split; [split; [|exact F]|exact Wm]|destruct O as [O|(k & O1 & O2)]; eauto].
      destruct O as [->|(k & _ & O)]; [exact Eg|]. apply (excitation_electrons g m _ (Z.to_nat (wi_nspin w))); eauto.
    + intros (((_ & F) & Wm) & O). split; [exact F|]. split; [exact Wm|]. destruct O as [O|(k & O1 & O2)]; eauto.
Qed.
Print Assumptions C76_reference.
Print Assumptions C76_refused.
Print Assumptions C76_spaces.
Print Assumptions C76_default.
Print Assumptions C76_projected_default.

(** ** Energies in the default spaces *)
Section E.
Context {K : CField}.
Local Open Scope cr_scope.
Add Ring K_ring142 : (rth K).
Variables (w : winfo) (y : sys K) (W : world K) (H : N -> N -> K) (f : N -> K).
Hypothesis Pw : proper w.
Hypothesis Co : computes y W (Z.to_nat (wi_nspin w)) H f.
(** the overlaps with other determinants than those that the wavefunction is said to consist of are zero *)
Hypothesis Own : forall m, fits m (Z.to_nat (wi_nspin w)) -> own_sd w m \/ f m = 0.
Lemma all_list : exists all, NoDup all /\ forall m, In m all <-> fits m (Z.to_nat (wi_nspin w)).
Proof.
  destruct Co as (_ & _ & I). destruct Pw as (Hn & Ev & _). destruct (ground_defined _ _ Hn Ev) as [g G]. destruct (ground_electrons _ _ _ G) as [Eg Fg].
  destruct (I g Fg) as (v & _ & l & N & Hl & _); [|eauto]. intros ->. destruct Eg as (l & _ & L1 & L2). destruct l as [|i l]; [cbn in L2; lia|].
  assert (B : bit 0 i = true) by (apply L1; now left). unfold bit in B. rewrite N.bits_0 in B. discriminate.
Qed.
Lemma prod_sum : forall l r, sumf (fun x : N * N => f (fst x) * H (fst x) (snd x) * f (snd x)) (list_prod l r) = sumf (fun a => f a * sumf (fun b => H a b * f b) r) l.
Proof.
  intros l r. induction l as [|a t IH]; [reflexivity|]. cbn [list_prod]. rewrite sumf_app, sumf_map, IH, sumf_cons. f_equal.
  cbn [fst snd]. rewrite <- sumf_mul_l. apply sumf_ext. intros; ring.
Qed.
(** the one-sided and the variational energy are the expectation value of the Hamiltonian *)
Theorem C76_expectation : exists l E, one_ref w ANone = Ok (RvSds l) /\ var_pspace w ANone = Ok (l, Some l, Some l) /\ two_pspaces w ANone ANone ANone = Ok (l, None, None) /\
  one_energy y W (RefSds l) = Ok E /\ two_energy y W l (Some l) (Some l) = Ok E /\ two_energy y W l None None = Ok E /\
  expectation (Z.to_nat (wi_nspin w)) H f E.
Proof.
  destruct (C76_default w Pw) as (l & D1 & _ & D2 & D3 & ND & M). destruct all_list as (all & Na & Ha). exists l. eexists.
  split; [exact D1|]. split; [exact D3|]. split; [exact D2|]. destruct Co as (C1 & C2 & C3).
  assert (Fl : forall m, In m l -> fits m (Z.to_nat (wi_nspin w)) /\ m <> 0%N).
  { intros m Hm. apply M in Hm as ((Hm & F) & _). split; [exact F|]. intros ->. destruct Hm as (ol & _ & L1 & L2). destruct Pw as (Hn & _ & _). destruct ol as [|i ol]; [cbn in L2; lia|].
    assert (B : bit 0 i = true) by (apply L1; now left). unfold bit in B. rewrite N.bits_0 in B. discriminate. }
  assert (Ov : mapM (wrapped_ov y W) l = Ok (map f l)) by (apply mapM_ok_of; intros m Hm; apply C1; now apply Fl).
  assert (S1 : forall g : N -> K, (forall m, fits m (Z.to_nat (wi_nspin w)) -> own_sd w m \/ g m = 0) -> sumf g all = sumf g l).
  { intros g Hg. apply sumf_support; auto.
    - intros m Hm. apply Ha. now apply Fl.
    - intros m Hm. apply Ha in Hm. destruct (Hg m Hm); [right; now apply M|now left]. }
  assert (In_ : mapM (wrapped_int y W) l = Ok (map (fun a => sumf (fun b => H a b * f b) l) l)).
  { apply mapM_ok_of. intros m Hm. destruct (Fl m Hm) as [F Z0]. unfold wrapped_int. destruct (C3 m F Z0) as (v & -> & all' & N' & H' & ->). f_equal.
    rewrite <- S1; [apply sumf_same; auto; intros x; now rewrite H', Ha|]. intros b Fb. destruct (Own b Fb) as [O|O]; [now left|right; rewrite O; ring]. }
  assert (Ss : mapM (fun i => mapM (fun j => wrapped_ss y W i j) l) l = Ok (map (fun i => map (H i) l) l)).
  { apply mapM_ok_of. intros a Hm. apply mapM_ok_of. intros b Hb. apply C2; now apply Fl. }
  assert (Dd : forall (p q : N -> K), dot (map p l) (map q l) = Ok (sumf (fun a => p a * q a) l)).
  { intros p q. unfold dot. rewrite !map_length, Nat.eqb_refl, psum_sumf. f_equal. rewrite combine_maps, sumf_map. reflexivity. }
  assert (Tw : two_energy y W l None None = Ok (sumf (fun a => f a * sumf (fun b => H a b * f b) l) l * finv (sumf (fun a => f a * f a) l))).
  { unfold two_energy. cbn [or_else]. rewrite Ov. cbn [bind]. rewrite Ss. cbn [bind]. rewrite grid_maps, !psum_sumf, !sumf_map. f_equal. f_equal.
    apply prod_sum. }
  split; [|split; [exact Tw|split; [exact Tw|]]].
  - unfold one_energy. cbn [ref_coeffs ref_sds]. rewrite Ov. cbn [bind]. rewrite In_. cbn [bind]. rewrite !Dd. reflexivity.
  - exists all. split; [exact Na|]. split; [exact Ha|]. f_equal.
    + rewrite (S1 (fun a => f a * sumf (fun b => H a b * f b) all)).
      * apply sumf_ext. intros a _. f_equal. symmetry. apply (S1 (fun b => H a b * f b)). intros b Fb. destruct (Own b Fb) as [O|O]; [now left|right; rewrite O; ring].
      * intros a Fa. destruct (Own a Fa) as [O|O]; [now left|right; rewrite O; ring].
    + f_equal. symmetry. apply S1. intros a Fa. destruct (Own a Fa) as [O|O]; [now left|right; rewrite O; ring].
Qed.
End E.
(** for the generalized molecular Hamiltonian *)
Theorem C76_generalized : forall {K : CField} (w : winfo) (h : gham K) (y : sys K) W (f : N -> K), (@radd K rI rI <> rO) -> proper w ->
  cached h -> two_sym (gh_two h) -> gh_n h = Z.to_nat (wi_nspin w) -> gh_n h <= 63 -> generalized h y W f ->
  (forall m, fits m (gh_n h) -> own_sd w m \/ f m = rO) ->
  exists l E, one_ref w ANone = Ok (RvSds l) /\ var_pspace w ANone = Ok (l, Some l, Some l) /\
    one_energy y W (RefSds l) = Ok E /\ two_energy y W l (Some l) (Some l) = Ok E /\
    expectation (gh_n h) (ham_elem (gh_n h) (gh_one h) (gh_two h)) f E.
Proof.
  intros K w h y W f H2 Pw C S En B (G1 & G2 & G3) Own. rewrite En in Own.
  destruct (C76_expectation w y W (ham_elem (gh_n h) (gh_one h) (gh_two h)) f Pw) as (l & E & A1 & A2 & _ & A3 & A4 & _ & A5).
  - rewrite <- En. split; [intros; apply G1|]. split.
    + intros a b Fa Fb Za. rewrite G2. apply C28_elements; auto.
    + intros a Fa _. rewrite G3. now apply C33_projection.
  - exact Own.
  - exists l, E. rewrite En in *. auto.
Qed.
Print Assumptions C76_expectation.
Print Assumptions C76_generalized.

(** ** What the documentation says and the code does not do *)
(** a determinant with other electrons or orbitals than the wavefunction: the projected equations take it when constraints are given *)
Theorem C76_projected_electrons_refuted : exists w m r, ~ valid_sd w m /\ ~ valid_sd w r /\
  proj_spaces w None (AList [SInt m]) (AOne (SInt r)) true = Ok ([SInt m], RvSds [r]) /\
  proj_spaces w None (AList [SInt m]) (AOne (SInt r)) false = Err ValueError.
Proof.
  exists win, 7%N, 48%N. split; [|split; [|vm_compute; auto]].
  - intros [(l & N & B & L) _]. assert (I : incl [0; 1; 2] l) by (intros i [<-|[<-|[<-|[]]]]; apply B; reflexivity).
    apply NoDup_incl_length in I; [change (Z.to_nat (wi_nelec win)) with 2 in L; cbn in I; lia|]. repeat constructor; cbn; intuition discriminate.
  - intros [_ F]. assert (X := F 4 (le_n 4)). vm_compute in X. discriminate.
Qed.
(** without constraints every determinant of the reference has the electrons and the orbitals of the wavefunction, the ones of the
    projection space need not *)
Theorem C76_projected : forall w orders p r sp rv, (0 <= wi_nelec w)%Z -> (0 <= wi_nspin w)%Z -> p <> ANone ->
  proj_spaces w orders p r false = Ok (sp, rv) ->
  (p = AList sp /\ Forall (fun s => s <> SOther) sp) /\
  match rv with RvSds l => Forall (valid_sd w) l | RvCI ne ns => ne = wi_nelec w /\ ns = wi_nspin w end.
Proof.
  intros w orders p r sp rv Hn Hs Np H. unfold proj_spaces in H. destruct (proj_pspace w orders p) as [sp'|] eqn:E; [|discriminate]. cbn [bind] in H.
  destruct (proj_ref w r) as [rv'|] eqn:F; [|discriminate]. cbn [bind] in H. destruct (one_ref w (as_arg rv')) as [rv2|] eqn:G; [|discriminate]. cbn [bind] in H.
  injection H as <- <-. split.
  - destruct p as [|l|s]; [congruence| |discriminate]. cbn in E. destruct (forallb _ l) eqn:X; [|discriminate]. injection E as <-. split; [reflexivity|].
    apply Forall_forall. intros s Hin ->. rewrite forallb_forall in X. specialize (X _ Hin). discriminate.
  - assert (A : as_arg rv' <> ANone) by (destruct rv'; discriminate). apply (C76_reference w _ _ Hn Hs A) in G. destruct rv' as [l|ne ns]; cbn [as_arg] in G.
    + destruct G as [(ms & [M|(m & M & _)] & V & _)|[M _]]; try discriminate. injection M as M. apply map_sint in M. now subst.
    + destruct G as [(ms & [M|(m & M & _)] & V & _)|[M _]]; try discriminate. injection M as -> ->. auto.
Qed.
(** a list of CI wavefunctions is documented as a reference of the one-sided energy; it is refused, a single one is not *)
Theorem C76_ci_list_refuted : forall w c l, c = SCI (wi_nelec w) (wi_nspin w) ->
  one_ref w (AList (c :: l)) = Err TypeError /\ one_ref w (AOne c) = Ok (RvCI (wi_nelec w) (wi_nspin w)).
Proof. intros w c l ->. cbn. now rewrite !Z.eqb_refl. Qed.
(** one determinant is a reference, but no projection space *)
Theorem C76_single : forall w orders m, valid_sd w m -> (0 <= wi_nelec w)%Z -> (0 <= wi_nspin w)%Z ->
  one_ref w (AOne (SInt m)) = Ok (RvSds [m]) /\ proj_ref w (AOne (SInt m)) = Ok (RvSds [m]) /\
  var_pspace w (AOne (SInt m)) = Err TypeError /\ local_pspace w (AOne (SInt m)) = Err TypeError /\ proj_pspace w orders (AOne (SInt m)) = Err TypeError.
Proof.
  intros w orders m V Hn Hs. split; [|repeat split]. apply C76_reference; auto; [discriminate|]. left. exists [m]. split; [right; eauto|]. auto.
Qed.
Print Assumptions C76_projected_electrons_refuted.
Print Assumptions C76_projected.
Print Assumptions C76_ci_list_refuted.
Print Assumptions C76_single.

(** ** Examples *)
Example C76_ex_default : var_pspace win ANone = Ok ([5; 6; 12; 3; 9; 10]%N, Some [5; 6; 12; 3; 9; 10]%N, Some [5; 6; 12; 3; 9; 10]%N) /\
  one_ref win_pairs ANone = Ok (RvSds [5; 10]%N) /\ proj_spaces win_pairs None ANone ANone false = Ok ([SInt 5; SInt 10], RvSds [5%N]) /\
  proj_spaces win_pairs (Some [1%Z]) ANone ANone false = Ok ([SInt 5], RvSds [5%N]).
Proof. vm_compute. auto. Qed.
Example C76_ex_given : one_ref win (AList [SInt 3; SInt 7; SOther]) = Err ValueError /\ one_ref win (AList [SInt 3; SOther; SInt 7]) = Err TypeError /\
  one_ref win (AList [SInt 3; SInt 12]) = Ok (RvSds [3; 12]%N) /\ var_pspace win (AList [SInt 3; SInt 17]) = Err ValueError /\
  two_pspaces win (AList [SInt 3]) (AList [SInt 12]) ANone = Ok ([3]%N, Some [12]%N, None).
Proof. vm_compute. auto. Qed.
Example C76_ex_proper : proper win /\ proper win_pairs.
Proof. repeat split; cbn; try lia; try (exists 2%Z; reflexivity); intros s v; try discriminate. intros H1 H2. injection H1 as <-. injection H2 as <-. cbn. lia. Qed.
Definition sixteen : list N := map N.of_nat (seq 0 16).
Lemma sixteen_all : NoDup sixteen /\ forall m, In m sixteen <-> fits m 4.
Proof.
  split; [apply FinFun.Injective_map_NoDup; [intros a b; apply Nat2N.inj|apply seq_NoDup]|]. intros m. rewrite fits_pow2. unfold sixteen. rewrite in_map_iff. split.
  - intros (i & <- & Hi). apply in_seq in Hi. change (2 ^ N.of_nat 4)%N with 16%N. lia.
  - intros H. change (2 ^ N.of_nat 4)%N with 16%N in H. exists (N.to_nat m). split; [apply N2Nat.id|apply in_seq; lia].
Qed.
Example C76_ex_computes : computes sys2 wld 4 el2 ov2 /\ forall m, fits m 4 -> own_sd win m \/ ov2 m = @rO Qc_field.
Proof.
  split; [split; [|split]|].
  - intros m _. cbn. unfold ci_overlap, dict_sd_index, ov2. cbn [ci_sds sd_index_from ci_params]. rewrite (N.eqb_sym 3 m), (N.eqb_sym 12 m).
    destruct (N.eqb_spec m 3) as [->|]; [reflexivity|]. destruct (N.eqb_spec m 12) as [->|]; reflexivity.
  - intros a b _ _ _. reflexivity.
  - intros a Fa _. destruct sixteen_all as [N A]. apply A in Fa. unfold sixteen in Fa. cbn in Fa.
    repeat (destruct Fa as [<-|Fa]; [eexists; split; [vm_compute; reflexivity|exists sixteen; split; [exact N|split; [exact A|apply Qc_is_canon; vm_compute; reflexivity]]]|]). destruct Fa.
  - intros m _. unfold ov2. destruct (N.eqb_spec m 3) as [->|]; [|destruct (N.eqb_spec m 12) as [->|]; [|right; apply Qc_is_canon; reflexivity]].
    + left. assert (In 3%N [5; 6; 12; 3; 9; 10]%N) by (cbn; auto 10). destruct (C76_default win (proj1 C76_ex_proper)) as (l & _ & _ & _ & V & _ & M).
      rewrite (proj1 C76_ex_default) in V. injection V as V. subst l. now apply M.
    + left. assert (In 12%N [5; 6; 12; 3; 9; 10]%N) by (cbn; auto 10). destruct (C76_default win (proj1 C76_ex_proper)) as (l & _ & _ & _ & V & _ & M).
      rewrite (proj1 C76_ex_default) in V. injection V as V. subst l. now apply M.
Qed.
(** (16 - 24 - 24 + 36) / 5 *)
Example C76_ex_energy : match one_energy sys2 wld (RefSds [5; 6; 12; 3; 9; 10]%N), two_energy sys2 wld [5; 6; 12; 3; 9; 10]%N None None with
  | Ok a, Ok b => (this a, this b) | _, _ => (0%Q, 0%Q) end = (4 # 5, 4 # 5)%Q.
Proof. vm_compute. reflexivity. Qed.

(** the reference of the projected equations: stored as given, in the order given; anything else raises TypeError *)
Theorem C76_projected_reference : forall w a, a <> ANone ->
  (forall rv, proj_ref w a = Ok rv <->
    (exists ms, (a = AList (map SInt ms) \/ exists m, a = AOne (SInt m) /\ ms = [m]) /\ rv = RvSds ms) \/
    (exists ne ns, a = AOne (SCI ne ns) /\ rv = RvCI ne ns)) /\
  (forall x, proj_ref w a = Err x -> x = TypeError).
Proof.
  intros w a Ha. assert (I : forall l ms, ints l = Ok ms <-> l = map SInt ms).
  { induction l as [|s l IH]; intros ms; cbn [ints].
    - split; [intros H; injection H as <-; reflexivity|]. intros H. destruct ms; [reflexivity|discriminate].
    - destruct s as [m|ne ns|]; try (split; [discriminate|]; intros H; destruct ms; discriminate).
      destruct (ints l) as [r|x] eqn:E; cbn [bind].
      + pose proof (proj1 (IH r) eq_refl) as ->. split; [intros H; injection H as <-; reflexivity|].
        intros H. destruct ms as [|b ms]; [discriminate|]. cbn [map] in H. injection H as -> H. apply map_sint in H. now subst.
      + split; [discriminate|]. intros H. destruct ms as [|b ms]; [discriminate|]. cbn [map] in H. injection H as -> H.
        apply IH in H. discriminate. }
  assert (T : forall l x, ints l = Err x -> x = TypeError).
  { induction l as [|s l IH]; intros x; cbn [ints]; [discriminate|].
    destruct s as [m|ne ns|]; try congruence. destruct (ints l) as [r|y]; cbn [bind]; [discriminate|]. intros H. apply IH. congruence. }
  destruct a as [|l|s]; [congruence| |]; cbn [proj_ref].
  - split.
    + intros rv. destruct (ints l) as [ms|x] eqn:E; cbn [bind].
      * apply I in E as ->. split; [intros H; injection H as <-; left; exists ms; auto|].
        intros [(ms' & [H|(m & H & _)] & ->)|(ne & ns & H & _)]; try discriminate. injection H as H. apply map_sint in H. now subst.
      * split; [discriminate|]. intros [(ms' & [H|(m & H & _)] & ->)|(ne & ns & H & _)]; try discriminate. injection H as H. apply I in H. congruence.
    + intros x. destruct (ints l) as [ms|y] eqn:E; cbn [bind]; [discriminate|]. intros H. apply (T l). congruence.
  - split.
    + intros rv. destruct s as [m|ne ns|].
      * split; [intros H; injection H as <-; left; exists [m]; split; [right; eauto|reflexivity]|].
        intros [(ms & [H|(b & H & ->)] & ->)|(ne & ns & H & _)]; try discriminate. congruence.
      * split; [intros H; injection H as <-; right; eauto|]. intros [(ms & [H|(b & H & _)] & _)|(ne' & ns' & H & ->)]; try discriminate. congruence.
      * split; [discriminate|]. intros [(ms & [H|(b & H & _)] & _)|(ne' & ns' & H & ->)]; discriminate.
    + intros x. destruct s; congruence.
Qed.
Print Assumptions C76_projected_reference.
Example C76_projected_reference_ex : exists w, proj_ref w (AList [SInt 5; SInt 3; SInt 5]) = Ok (RvSds [5; 3; 5]%N) /\
  proj_ref w (AList [SInt 5; SCI 2 4]) = Err TypeError.
Proof. exists (mkwinfo 2 4 None None). vm_compute. split; reflexivity. Qed.
