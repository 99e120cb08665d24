(** C41 for hCI: the determinants of the hierarchy configuration interaction *)
From Coq Require Import List ZArith NArith Arith Bool Lia QArith Qround Permutation.
From Verif Require Import Py Slater SdList Alg BitSpec BitLemmas SlaterBits SlaterBits2 SdSpec SdLemmas P_Slater1 P_SdList
  WfnCI WfnHCI CILemmas CISpaceLemmas P_CISpace HCILemmas HCIEx.
Import ListNotations.
Local Open Scope nat_scope.

(** *** Specification *)
(** hierarchy of a determinant of excitation order [e] and seniority [s] *)
Definition hier_value (p : hpattern) (e s : nat) : Q :=
  let e := inject_Z (Z.of_nat e) in let s := inject_Z (Z.of_nat s) in
  match p with
  | PosDiag => e / 2 + s / 4
  | NegDiag => e - s / 2
  | Hch => e - s / 4
  | Vch => e - s
  end%Q.
(** hierarchies included for the requested hierarchy [H] *)
Definition hier_ok (v : hversion) (p : hpattern) (H h : Q) : Prop :=
  match v with
  | VNew =>
      match p with
      | PosDiag | Hch => exists i, (h == inject_Z (Z.of_nat i) / 2)%Q /\ (h < H + (1#2))%Q
      | NegDiag => exists i, (h == inject_Z (Z.of_nat i))%Q /\ (h < H + 1)%Q
      | Vch => exists i, (h == - H + inject_Z (Z.of_nat i))%Q /\ (h < H + 1)%Q
      end
  | _ => (h == H)%Q
  end.
(** the determinants whose hierarchy is included *)
Definition hier_space (v : hversion) (p : hpattern) (H : Q) (ne ns : nat) (m : N) : Prop :=
  has_electrons m ne /\ fits m ns /\
  exists g e s, is_aufbau g ne (ns / 2) /\ excitation g m e /\ has_seniority m (ns / 2) s /\ hier_ok v p H (hier_value p e s).
(** list(set(..)) lists every element once, in some order *)
Definition set_order (order : list N -> list N) : Prop := forall l, NoDup (order l) /\ forall x, In x (order l) <-> In x l.

Lemma inj_Z : forall a b, (inject_Z a == inject_Z b)%Q -> a = b.
Proof. intros a b. apply inject_Z_injective. Qed.
Lemma hier_relation : forall p e s h, ((h - fst (alpha p) * inject_Z (Z.of_nat e)) / snd (alpha p) == inject_Z (Z.of_nat s))%Q <->
  (h == hier_value p e s)%Q.
Proof.
  intros p e s h. set (x := inject_Z (Z.of_nat e)). set (y := inject_Z (Z.of_nat s)).
  assert (G : ((h - fst (alpha p) * x) / snd (alpha p) == y)%Q <-> (h == fst (alpha p) * x + snd (alpha p) * y)%Q).
  { assert (N : ~ (snd (alpha p) == 0)%Q) by (destruct p; intros Q; discriminate Q).
    split.
    - intros <-. field. auto.
    - intros ->. field. auto. }
  rewrite G. destruct p; cbn [alpha fst snd hier_value]; fold x y.
  all: match goal with |- (_ == ?a)%Q <-> (_ == ?b)%Q => assert (E : (a == b)%Q) by field; now rewrite E end.
Qed.
Lemma pos_hier : forall v p H, exists hs, pos_hierarchies v p (Some H) = Ok (map Some hs) /\
  (forall h, In h hs -> hier_ok v p H h) /\ (forall h, hier_ok v p H h -> exists h', In h' hs /\ (h' == h)%Q).
Proof.
  intros v p H. unfold pos_hierarchies. destruct v.
  - exists [H]. split; [reflexivity|]. split; [intros h [<-|[]]; reflexivity|]. intros h E. exists H. split; [now left|]. symmetry. exact E.
  - destruct p; (eexists; split; [reflexivity|]); split; intros h Hh.
    1,3,5,7: apply arange_In in Hh as (i & -> & L); [|reflexivity]; exists i; split; [|exact L]; field.
    all: destruct Hh as (i & E & L).
    1,3: assert (E' : (0 + inject_Z (Z.of_nat i) * (1 # 2) == h)%Q) by (rewrite E; field).
    3: assert (E' : (0 + inject_Z (Z.of_nat i) * 1 == h)%Q) by (rewrite E; field).
    4: assert (E' : (- (1) * H + inject_Z (Z.of_nat i) * 1 == h)%Q) by (rewrite E; field).
    all: eexists; split; [apply arange_In2; [reflexivity|rewrite E'; exact L]|exact E'].
  - exists [H]. split; [reflexivity|]. split; [intros h [<-|[]]; reflexivity|]. intros h E. exists H. split; [now left|]. symmetry. exact E.
Qed.

(** *** the pairs *)
Lemma e_s_pair_In : forall p ne h e z e' , In (e', z) (e_s_pair p ne h (Z.of_nat e)) <->
  e' = Z.of_nat e /\ in_S_list ne (Z.of_nat e) z = true /\ exists s, z = Z.of_nat s /\ (h == hier_value p e s)%Q.
Proof.
  intros p ne h e z e'. unfold e_s_pair. cbv zeta. set (x := ((h - _) / _)%Q).
  destruct (q_int x) as [z'|] eqn:E.
  - apply q_int_spec in E. destruct (Z.leb_spec 0 z'); cbn [andb].
    + destruct (in_S_list ne (Z.of_nat e) z') eqn:S.
      * split.
        -- intros [[= <- <-]|[]]. split; auto. split; auto. exists (Z.to_nat z'). split; [lia|].
           apply hier_relation. fold x. rewrite E. rewrite Z2Nat.id by lia. reflexivity.
        -- intros (-> & S' & s & -> & V). left. f_equal. apply hier_relation in V. fold x in V. rewrite E in V.
           apply inj_Z in V. congruence.
      * split; [intros []|]. intros (-> & S' & s & -> & V). apply hier_relation in V. fold x in V. rewrite E in V.
        apply inj_Z in V. congruence.
    + split; [intros []|]. intros (-> & S' & s & -> & V). apply hier_relation in V. fold x in V. rewrite E in V.
      apply inj_Z in V. lia.
  - split; [intros []|]. intros (-> & S' & s & -> & V). apply hier_relation in V. fold x in V. apply q_int_spec in V. congruence.
Qed.
Lemma pairs_In : forall p ne hs, exists prs, calculate_e_s_pairs p ne (map Some hs) = Ok prs /\
  forall e s, In (e, s) prs <-> exists h e' s', In h hs /\ e' <= Z.to_nat ne /\ (0 <= ne)%Z /\ e = Z.of_nat e' /\ s = Z.of_nat s' /\
     in_S_list ne e s = true /\ (h == hier_value p e' s')%Q.
Proof.
  intros p ne hs. unfold calculate_e_s_pairs.
  assert (M : mapM (fun h : option Q => match h with
                       | None => Err TypeError
                       | Some h => Ok (flat_map (fun e => e_s_pair p ne h (Z.of_nat e)) (range (ne + 1)))
                       end) (map Some hs)
            = Ok (map (fun h => flat_map (fun e => e_s_pair p ne h (Z.of_nat e)) (range (ne + 1))) hs)).
  { induction hs as [|h t IH]; [reflexivity|]. cbn [map mapM]. rewrite IH. reflexivity. }
  rewrite M. cbn [bind]. eexists. split; [reflexivity|]. intros e s. rewrite in_concat. split.
  - intros (l & Hl & H). apply in_map_iff in Hl as (h & <- & Hh). apply in_flat_map in H as (i & Hi & H).
    apply e_s_pair_In in H as (-> & S & s' & -> & V). unfold range in Hi. apply in_seq in Hi.
    exists h, i, s'. repeat split; auto; lia.
  - intros (h & e' & s' & Hh & L & P & -> & -> & S & V). eexists. split; [apply in_map; exact Hh|]. apply in_flat_map. exists e'.
    split; [unfold range; apply in_seq; lia|]. apply e_s_pair_In. eauto.
Qed.
(** every determinant has a pair allowed by the ranges *)
Lemma feasible : forall g m ne ns e s, (ne <= ns)%Z -> (0 < ne)%Z -> Z.Even ns -> is_aufbau g (Z.to_nat ne) (Z.to_nat ns / 2) ->
  has_electrons g (Z.to_nat ne) -> fits g (Z.to_nat ns) -> has_electrons m (Z.to_nat ne) -> fits m (Z.to_nat ns) ->
  excitation g m e -> has_seniority m (Z.to_nat ns / 2) s -> in_S_list ne (Z.of_nat e) (Z.of_nat s) = true.
Proof.
  intros g m ne ns e s B P [q Ev] A Eg Fg Em Fm X S. set (k := Z.to_nat ns / 2) in *.
  assert (Ek : Z.to_nat ns = k + k).
  { unfold k. rewrite Ev. replace (Z.to_nat (2 * q)) with (Z.to_nat q * 2) by lia. rewrite Nat.div_mul; lia. }
  rewrite Ek in *.
  pose proof (aufbau_seniority g (Z.to_nat ne) k ltac:(lia) A) as Sg.
  destruct (sen_electrons m k s _ Fm Em S) as [d D].
  pose proof (sen_bound g m k e s _ Fg Fm X S Sg) as Bd.
  assert (Ne : ne = Z.of_nat (s + 2 * d)) by lia.
  assert (Md : Z.to_nat ne mod 2 = s mod 2). { rewrite <- D, (Nat.mul_comm 2), Nat.mod_add by lia. reflexivity. }
  pose proof (paired_even g m k e s _ Fg X S Sg) as Pe. rewrite Md in *.
  pose proof (Nat.div_mod s 2 ltac:(lia)) as Ds. pose proof (Nat.mod_upper_bound s 2 ltac:(lia)) as Us.
  set (h := s / 2) in *. set (r := s mod 2) in *.
  unfold in_S_list. assert (R : r = 0 \/ r = 1) by lia. destruct R as [R|R]; rewrite R in *.
  - assert (E0 : (ne mod 2 = 0)%Z). { subst ne. replace (Z.of_nat (s + 2 * d)) with (Z.of_nat (h + d) * 2)%Z by lia. apply Z.mod_mul. lia. }
    assert (E1 : (Z.of_nat s mod 2 = 0)%Z). { replace (Z.of_nat s) with (Z.of_nat h * 2)%Z by lia. apply Z.mod_mul. lia. }
    rewrite E0, E1. cbn [Z.eqb]. destruct (Z.eqb_spec (Z.of_nat e mod 2) 0) as [E2|E2]; rewrite !andb_true_iff, ?Z.leb_le, ?Z.ltb_lt, ?Z.eqb_eq.
    + lia.
    + split; [|auto]. split; [|lia]. destruct (Nat.eq_dec s 0) as [->|]; [|lia]. destruct (Pe eq_refl eq_refl) as [q' ->].
      exfalso. apply E2. replace (Z.of_nat (2 * q')) with (Z.of_nat q' * 2)%Z by lia. apply Z.mod_mul. lia.
  - assert (E0 : (ne mod 2 = 1)%Z). { subst ne. replace (Z.of_nat (s + 2 * d)) with (1 + Z.of_nat (h + d) * 2)%Z by lia. rewrite Z.mod_add by lia. reflexivity. }
    assert (E1 : ((Z.of_nat s - 1) mod 2 = 0)%Z). { replace (Z.of_nat s - 1)%Z with (Z.of_nat h * 2)%Z by lia. apply Z.mod_mul. lia. }
    rewrite E0, E1. cbn [Z.eqb]. rewrite !andb_true_iff, ?Z.leb_le, ?Z.ltb_lt. lia.
Qed.

(** *** the determinants of one pair *)
Lemma sd_list_pair : forall ne ns g e s, (0 < ne <= ns)%Z -> Z.Even ns -> ground ne ns = Ok g ->
  exists l, sd_list ne ns None (Some [Z.of_nat e]) None (Some (Z.of_nat s)) true = Ok l /\
    forall m, In m l <-> fits m (Z.to_nat ns) /\ has_seniority m (Z.to_nat ns / 2) s /\ (m = g \/ excitation g m e).
Proof.
  intros ne ns g e s B Ev G. destruct (ground_electrons _ _ _ G) as [Eg Fg].
  rewrite (sd_list_value _ _ _ _ _ _ _ g); auto.
  2:{ split; [intros k Q; discriminate|intros ? ? Q; discriminate]. }
  2:{ intros k [<-|[]]. lia. }
  assert (W : forall m, sat (ns / 2) None (Some (Z.of_nat s)) true m = true <-> has_seniority m (Z.to_nat ns / 2) s).
  { intros m. rewrite sat_wanted by (eapply half_pos; eauto). rewrite half_nat by lia. cbn [wanted_sd]. unfold wanted_h. split.
    - intros (_ & v & [= Q] & S). apply Nat2Z.inj in Q. now subst.
    - intros S. split; [right; intros ? Q; discriminate|]. eauto. }
  eexists. split; [reflexivity|]. intros m. cbn [take]. rewrite in_app_iff, filter_In, candidates_In, W; auto; try lia.
  2:{ intros k [<-|[]]. lia. }
  split.
  - intros [H|((k & [Q|[]] & F & X) & S)].
    + destruct (sat (ns / 2) None (Some (Z.of_nat s)) true g) eqn:Sg; [|destruct H]. destruct H as [<-|[]]. apply W in Sg. auto.
    + apply Nat2Z.inj in Q. subst k. auto.
  - intros (F & S & [->|X]).
    + left. apply W in S. rewrite S. now left.
    + right. split; auto. exists e. split; [now left|auto].
Qed.
Lemma mapM_lists : forall {A B} (f : A -> res (list B)) (P : A -> B -> Prop) l,
  (forall a, In a l -> exists r, f a = Ok r /\ forall b, In b r <-> P a b) ->
  exists ls, mapM f l = Ok ls /\ forall b, In b (concat ls) <-> exists a, In a l /\ P a b.
Proof.
  intros A B f P. induction l as [|a l IH]; intros H.
  - exists []. split; [reflexivity|]. intros b. cbn. firstorder.
  - destruct (H a (or_introl eq_refl)) as (r & E & R). destruct IH as (ls & E2 & R2); [intros; apply H; now right|].
    exists (r :: ls). cbn [mapM]. rewrite E, E2. split; [reflexivity|]. intros b. cbn [concat]. rewrite in_app_iff, R, R2. cbn [In]. split.
    + intros [Q|(a' & I & Q)]; [exists a; auto|exists a'; auto].
    + intros (a' & [<-|I] & Q); [auto|right; eauto].
Qed.

Lemma aufbau_of_ground : forall ne ns g g', ground ne ns = Ok g -> is_aufbau g' (Z.to_nat ne) (Z.to_nat ns / 2) -> g' = g.
Proof. intros ne ns g g' G A. eapply aufbau_unique; [exact A|]. now apply ground_aufbau. Qed.

(** the assembled list *)
Lemma hci_listed : forall v p H ne ns, (0 < ne <= ns)%Z -> Z.Even ns ->
  exists hs prs g ls, pos_hierarchies v p (Some H) = Ok hs /\ calculate_e_s_pairs p ne hs = Ok prs /\ ground ne ns = Ok g /\
    mapM (fun es => sd_list ne ns None (Some [fst es]) None (Some (snd es)) true) prs = Ok ls /\
    (forall m, In m (concat ls) -> m = g \/ hier_space v p H (Z.to_nat ne) (Z.to_nat ns) m) /\
    (forall m, hier_space v p H (Z.to_nat ne) (Z.to_nat ns) m -> In m (concat ls)) /\
    (forall m, In m (concat ls) -> exists e s, hier_ok v p H (hier_value p e s) /\ in_S_list ne (Z.of_nat e) (Z.of_nat s) = true).
Proof.
  intros v p H ne ns B Ev. destruct (pos_hier v p H) as (hs & E1 & H1 & H2). destruct (pairs_In p ne hs) as (prs & E2 & Hp).
  destruct (ground_defined _ _ B Ev) as [g G]. destruct (ground_electrons _ _ _ G) as [Eg Fg]. pose proof (ground_aufbau _ _ _ G) as A.
  exists (map Some hs), prs, g.
  destruct (mapM_lists (fun es => sd_list ne ns None (Some [fst es]) None (Some (snd es)) true)
     (fun es m => fits m (Z.to_nat ns) /\ has_seniority m (Z.to_nat ns / 2) (Z.to_nat (snd es)) /\ (m = g \/ excitation g m (Z.to_nat (fst es)))) prs)
     as (ls & E3 & Hl).
  { intros [e s] Hes. apply Hp in Hes as (h & e' & s' & _ & _ & _ & -> & -> & _ & _). cbn [fst snd]. rewrite !Nat2Z.id.
    apply sd_list_pair; auto. }
  exists ls. split; auto. split; auto. split; auto. split; auto.
  assert (Res : forall v' H' h h', (h == h')%Q -> hier_ok v' p H' h -> hier_ok v' p H' h').
  { intros v' H' h h' Q. unfold hier_ok. destruct v', p; try (intros (i & Y & L); exists i; now rewrite <- Q); now rewrite Q. }
  split; [|split].
  - intros m Hm. apply Hl in Hm as ([e s] & Hes & Fm & S & R). cbn [fst snd] in *.
    apply Hp in Hes as (h & e' & s' & Hh & _ & _ & -> & -> & _ & V). rewrite Nat2Z.id in *. destruct R as [->|X]; [now left|right].
    split; [apply (excitation_electrons g m _ (Z.to_nat ns)); eauto|]. split; auto. exists g, e', s'. repeat split; auto; try apply X.
    eapply Res; [exact V|]. auto.
  - intros m (Em & Fm & g' & e & s & A' & X & S & O). apply (aufbau_of_ground _ _ _ _ G) in A'. subst g'.
    apply Hl. exists (Z.of_nat e, Z.of_nat s). cbn [fst snd]. rewrite !Nat2Z.id. split; [|auto].
    destruct (H2 _ O) as (h & Hh & Q). apply Hp. exists h, e, s. repeat split; auto; try lia.
    + destruct (same_electrons_excitation g m (Z.to_nat ne) (Z.to_nat ns) Fg Fm Eg Em) as (j & J & Xj).
      now rewrite (excitation_unique _ _ _ _ X Xj).
    + eapply feasible; eauto; lia.
  - intros m Hm. apply Hl in Hm as ([e s] & Hes & _). apply Hp in Hes as (h & e' & s' & Hh & _ & _ & -> & -> & S & V).
    exists e', s'. split; auto. eapply Res; [exact V|]. auto.
Qed.

Section P.
Context {K : CRing}.

Lemma start : forall ne ns, (0 < ne <= ns)%Z -> Z.Even ns -> assign_nelec CIGeneral ne = Ok ne /\ assign_nspin ns = Ok ns.
Proof.
  intros ne ns B Ev. unfold assign_nelec, assign_nspin. destruct (Z.leb_spec ne 0); [lia|]. destruct (Z.leb_spec ns 0); [lia|].
  destruct Ev as [q ->]. rewrite Z.mul_comm, Z.mod_mul by lia. auto.
Qed.

(** C41: when some determinant has an included hierarchy the constructor succeeds, and its determinants
    are the aufbau determinant and the determinants of included hierarchy, each once *)
Theorem C41_hci : forall order v p H ne ns, set_order order -> v <> VOther -> (0 < ne <= ns)%Z -> Z.Even ns ->
  (exists m, hier_space v p H (Z.to_nat ne) (Z.to_nat ns) m) ->
  exists (w : ciwfn K) g, new_hci order ne ns (Some p) (Some H) (Some v) None RefNone = Ok (w, RefSd g) /\
    is_aufbau g (Z.to_nat ne) (Z.to_nat ns / 2) /\ NoDup (ci_sds w) /\ length (ci_params w) = length (ci_sds w) /\
    forall m, In m (ci_sds w) <-> m = g \/ hier_space v p H (Z.to_nat ne) (Z.to_nat ns) m.
Proof.
  intros order v p H ne ns So Vo B Ev [m0 H0]. destruct (start ne ns B Ev) as [A1 A2].
  destruct (hci_listed v p H ne ns B Ev) as (hs & prs & g & ls & E1 & E2 & G & E3 & I1 & I2 & _).
  destruct (ground_electrons _ _ _ G) as [Eg Fg].
  destruct (So (g :: concat ls)) as [Nd Or].
  assert (Q : hci_assign_sds order p ne ns hs None = Ok (order (g :: concat ls))).
  { unfold hci_assign_sds. rewrite E2, G. cbn [bind]. rewrite E3. cbn [bind].
    destruct (Nat.eqb_spec (length (g :: concat ls)) 1) as [L|L].
    - cbn in L. apply I2 in H0. destruct (concat ls); [destruct H0|discriminate L].
    - apply (proj1 (base_given ne ns None None (order (g :: concat ls)) ltac:(lia) (half_pos _ _ B Ev))).
      + intros Z0. assert (In g []) by (rewrite <- Z0; apply Or; now left). contradiction.
      + intros m Hm. apply Or in Hm. split.
        * destruct Hm as [<-|Hm]; auto. destruct (I1 m Hm) as [->|S]; auto. apply S.
        * split; intros ? Y; discriminate. }
  unfold new_hci. rewrite A1, A2. cbn [bind].
  destruct v; [|clear Vo|congruence].
  all: rewrite E1; cbn [bind]; rewrite Q; cbn [bind hci_assign_refwfn]; rewrite G; cbn [bind];
    (eexists; exists g; split; [reflexivity|]); split; [now apply ground_aufbau|]; split; [exact Nd|]; split;
    [cbn [ci_params ci_sds]; destruct (order (g :: concat ls)); [reflexivity|]; cbn; now rewrite map_length|];
    cbn [ci_sds]; intros m; rewrite Or; split;
    [intros [<-|Hm]; auto|intros [->|Hm]; [now left|right; auto]].
Qed.

(** the hierarchies of the documented list and an even number of electrons always give a wavefunction *)
Theorem C41_hci_even : forall order p H ne ns, set_order order -> p <> Vch -> (0 <= H)%Q -> (0 < ne <= ns)%Z -> Z.Even ne -> Z.Even ns ->
  exists (w : ciwfn K) g, new_hci order ne ns (Some p) (Some H) (Some VNew) None RefNone = Ok (w, RefSd g) /\
    is_aufbau g (Z.to_nat ne) (Z.to_nat ns / 2) /\ NoDup (ci_sds w) /\
    forall m, In m (ci_sds w) <-> hier_space VNew p H (Z.to_nat ne) (Z.to_nat ns) m.
Proof.
  intros order p H ne ns So Vp Hp B En Ev. destruct (ground_defined _ _ B Ev) as [g0 G]. destruct (ground_electrons _ _ _ G) as [Eg Fg].
  pose proof (ground_aufbau _ _ _ G) as A.
  assert (Z0 : Z.to_nat ne mod 2 = 0).
  { destruct En as [q ->]. replace (Z.to_nat (2 * q)) with (Z.to_nat q * 2) by lia. apply Nat.mod_mul. lia. }
  assert (Gs : hier_space VNew p H (Z.to_nat ne) (Z.to_nat ns) g0).
  { split; auto. split; auto. exists g0, 0, 0. split; auto. split; [now apply excitation_0|]. split.
    - assert (Y : Z.to_nat ns = Z.to_nat ns / 2 * 2).
      { destruct Ev as [q ->]. replace (Z.to_nat (2 * q)) with (Z.to_nat q * 2) by lia. rewrite Nat.div_mul; lia. }
      pose proof (aufbau_seniority g0 (Z.to_nat ne) (Z.to_nat ns / 2) ltac:(lia) A) as S. now rewrite Z0 in S.
    - destruct p; try congruence; exists 0; split; try reflexivity.
      all: apply Qle_lt_trans with (y := H); [eapply Qle_trans; [|exact Hp]; vm_compute; discriminate|]; rewrite <- (Qplus_0_r H) at 1; apply Qplus_lt_r; reflexivity. }
  destruct (C41_hci order VNew p H ne ns So ltac:(congruence) B Ev (ex_intro _ g0 Gs)) as (w & g & E & A' & N & _ & I).
  exists w, g. split; [exact E|]. split; [exact A'|]. split; [exact N|]. intros m. split.
  - intros Hm. apply I in Hm as [->|Hm]; auto. now rewrite (aufbau_of_ground _ _ _ _ G A').
  - intros Hm. apply I. auto.
Qed.

(** when no pair of excitation order and seniority has an included hierarchy the constructor raises its Warning *)
Theorem C41_hci_warns : forall order v p H ne ns, v <> VOther -> (0 < ne <= ns)%Z -> Z.Even ns ->
  (forall e s, hier_ok v p H (hier_value p e s) -> s mod 2 <> Z.to_nat ne mod 2) ->
  new_hci (K := K) order ne ns (Some p) (Some H) (Some v) None RefNone = Err (Exc 1).
Proof.
  intros order v p H ne ns Vo B Ev N. destruct (start ne ns B Ev) as [A1 A2].
  destruct (hci_listed v p H ne ns B Ev) as (hs & prs & g & ls & E1 & E2 & G & E3 & _ & _ & I3).
  assert (Q : hci_assign_sds order p ne ns hs None = Err (Exc 1)).
  { unfold hci_assign_sds. rewrite E2, G. cbn [bind]. rewrite E3. cbn [bind].
    destruct (concat ls) as [|x t] eqn:C; [reflexivity|]. exfalso. destruct (I3 x (or_introl eq_refl)) as (e & s & O & S).
    apply (N e s O). unfold in_S_list in S.
    assert (D : forall a, exists q r, a = 2 * q + r /\ r < 2 /\ a mod 2 = r).
    { intros a. exists (a / 2), (a mod 2). pose proof (Nat.div_mod a 2 ltac:(lia)). pose proof (Nat.mod_upper_bound a 2 ltac:(lia)). lia. }
    destruct (D s) as (q1 & r1 & D1 & U1 & M1). destruct (D (Z.to_nat ne)) as (q2 & r2 & D2 & U2 & M2). rewrite M1, M2.
    pose proof (Z.div_mod ne 2 ltac:(lia)). pose proof (Z.mod_pos_bound ne 2 ltac:(lia)).
    destruct (Z.eqb_spec (ne mod 2) 0) as [Z0|Z0].
    - assert (S' : (Z.of_nat s mod 2 =? 0)%Z = true).
      { destruct (Z.of_nat e mod 2 =? 0)%Z; rewrite !andb_true_iff in S; tauto. }
      apply Z.eqb_eq in S'. pose proof (Z.div_mod (Z.of_nat s) 2 ltac:(lia)). lia.
    - rewrite !andb_true_iff in S. destruct S as [_ S']. apply Z.eqb_eq in S'.
      pose proof (Z.div_mod (Z.of_nat s - 1) 2 ltac:(lia)). lia. }
  unfold new_hci. rewrite A1, A2. cbn [bind]. destruct v; [| |congruence]; rewrite E1; cbn [bind]; now rewrite Q.
Qed.

(** so with the default version an odd number of electrons is never accepted by three of the four patterns *)
Theorem C41_hci_odd_refuted : forall order p H ne ns, p <> Vch -> (0 < ne <= ns)%Z -> Z.Odd ne -> Z.Even ns ->
  new_hci (K := K) order ne ns (Some p) (Some H) None None RefNone = Err (Exc 1).
Proof.
  intros order p H ne ns Vp B [q Od] Ev.
  change (new_hci (K := K) order ne ns (Some p) (Some H) (Some VNew) None RefNone = Err (Exc 1)).
  apply C41_hci_warns; auto; [congruence|]. intros e s O M.
  assert (M1 : Z.to_nat ne mod 2 = 1).
  { subst ne. replace (Z.to_nat (2 * q + 1)) with (1 + Z.to_nat q * 2) by lia. rewrite Nat.mod_add by lia. reflexivity. }
  rewrite M1 in M. pose proof (Nat.div_mod s 2 ltac:(lia)) as D. rewrite M in D. set (r := s / 2) in *.
  assert (Es : Z.of_nat s = (2 * Z.of_nat r + 1)%Z) by lia.
  destruct p; try congruence; destruct O as (i & E & _); unfold hier_value in E; rewrite Es in E.
  all: clearbody r; unfold Qdiv in E; try change (/ 2)%Q with (1#2)%Q in E; try change (/ 4)%Q with (1#4)%Q in E;
    unfold Qeq, Qminus, Qplus, Qopp, Qmult, inject_Z in E; cbn [Qnum Qden Pos.mul] in E; lia.
Qed.

(** unknown names, a missing hierarchy and explicit determinants *)
Theorem C41_hci_rejects : forall order ne ns pat H ver sds ref,
  (ver = Some VOther \/ pat = None \/ H = None /\ ver <> Some VOld -> new_hci (K := K) order ne ns pat H ver sds ref = Err TypeError) /\
  ((exists l, sds = Some l) -> forall r, new_hci (K := K) order ne ns pat H ver sds ref <> Ok r).
Proof.
  intros order ne ns pat H ver sds ref. split.
  - unfold new_hci. intros [->|[->|[-> N]]].
    + reflexivity.
    + destruct ver as [[]|]; reflexivity.
    + destruct ver as [[]|], pat; try reflexivity; congruence.
  - intros [l ->] r E. unfold new_hci in E. destruct (match _ with VOther => true | _ => false end); [discriminate|].
    destruct pat; [|discriminate]. destruct (pos_hierarchies _ _ _); [|discriminate]. cbn [bind] in E.
    destruct (assign_nelec _ _); [|discriminate]. cbn [bind] in E. destruct (assign_nspin _); [|discriminate]. cbn [bind] in E.
    match type of E with context [hci_assign_sds ?a ?b ?c ?d ?f None] => destruct (hci_assign_sds a b c d f None) end; discriminate.
Qed.
End P.

(** a hierarchy which is not a multiple of the step is rounded up: 1 is included for 3/4 *)
Theorem C41_hci_overshoot_refuted : hier_ok VNew PosDiag (3#4) 1 /\ (3#4 < 1)%Q /\
  exists hs, pos_hierarchies VNew PosDiag (Some (3#4)) = Ok hs /\ length hs = 3.
Proof. split; [exists 2; split; reflexivity|]. split; [reflexivity|]. eexists. split; [vm_compute; reflexivity|reflexivity]. Qed.
Print Assumptions C41_hci.
Print Assumptions C41_hci_even.
Print Assumptions C41_hci_warns.
Print Assumptions C41_hci_odd_refuted.
Print Assumptions C41_hci_rejects.
Print Assumptions C41_hci_overshoot_refuted.


Example C41_hci_ex :
  zhci 2 4 PosDiag 1 None = Ok [6; 12; 3; 9; 5; 10]%N /\ zhci 2 4 PosDiag (1#2) None = Ok [5]%N /\
  zhci 2 6 NegDiag 2 (Some VOld) = Ok [9; 18; 36]%N /\ zhci 2 6 Hch 1 None = Ok [9; 10; 24; 12; 40; 3; 17; 5; 33]%N /\
  zhci 3 6 Vch 0 None = Ok [11; 25; 13; 41; 26; 19]%N /\ zhci 4 6 Hch (3#2) (Some VOld) = Ok [27; 60; 53; 46; 39]%N /\
  zhci 3 6 PosDiag 2 None = Err (Exc 1).
Proof. vm_compute. repeat split. Qed.
