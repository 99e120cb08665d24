(** C41: the determinants of the CI classes *)
From Coq Require Import List ZArith NArith Arith Bool Lia Permutation.
From Verif Require Import Py Slater SdList Alg BitSpec BitLemmas SlaterBits SlaterBits2 SdSpec SdLemmas P_Slater1 P_SdList
  SpinSpec HamSenLemmas HamLemmas Combos WfnCI CILemmas CIEx P_CI CISpaceLemmas.
Import ListNotations.

(** *** Specification *)
(** the two pair classes *)
Definition pair_class (c : ciclass) : bool := match c with CIDoubly | CIPairExc => true | _ => false end.
(** spin and seniority requested of the determinants; the pair classes only have paired determinants *)
Definition spin_of (c : ciclass) (spin2 : option Z) : option Z := if pair_class c then Some 0%Z else spin2.
Definition sen_of (c : ciclass) (sen : option Z) : option Z := if pair_class c then Some 0%Z else sen.
(** excitation orders of the classes restricted to some excitations of the aufbau determinant *)
Definition orders_in (c : ciclass) : option (list nat) :=
  match c with CISinglesDoubles => Some [0; 1; 2] | CIPairExc => Some [0; 2] | _ => None end.
(** the documented space *)
Definition in_space (c : ciclass) (ne ns : Z) (spin2 sen : option Z) (m : N) : Prop :=
  has_electrons m (Z.to_nat ne) /\ fits m (Z.to_nat ns) /\
  wanted m (Z.to_nat ns / 2) (spin_of c spin2) (sen_of c sen) /\
  match orders_in c with
  | None => True
  | Some l => exists g k, is_aufbau g (Z.to_nat ne) (Z.to_nat ns / 2) /\ In k l /\ excitation g m k
  end.
(** arguments accepted by the constructor *)
Definition accepted (c : ciclass) (ne ns : Z) (spin2 sen : option Z) : Prop :=
  (0 < ne <= ns)%Z /\ Z.Even ns /\ (pair_class c = true -> Z.Even ne /\ (spin2 = None \/ spin2 = Some 0%Z) /\ (sen = None \/ sen = Some 0%Z)) /\
  (forall s, spin2 = Some s -> (0 <= s)%Z) /\ (forall v, sen = Some v -> (0 <= v)%Z) /\
  (c = CIFull -> sen = None) /\
  (forall s v, spin2 = Some s -> sen = Some v -> (s <= v)%Z).
(** the seniority of the listed determinants is the requested one, not merely bounded by it *)
Definition sharp (c : ciclass) (ne ns : Z) (spin2 sen : option Z) : Prop :=
  forall m y, in_space c ne ns spin2 sen m -> sen_of c sen = Some y -> exists v, has_seniority m (Z.to_nat ns / 2) v /\ Z.of_nat v = y.

Section P.
Context {K : CRing}.

Lemma aufbau_unique : forall g g' ne k, is_aufbau g ne k -> is_aufbau g' ne k -> g = g'.
Proof. intros g g' ne k A B. apply bit_ext. intros i. now rewrite A, B. Qed.

(** listing of a class, on accepted arguments *)
Definition exc_of (c : ciclass) : option (list Z) :=
  match c with CISinglesDoubles => Some [1; 2]%Z | CIPairExc => Some [2]%Z | _ => None end.
Lemma assign_default : forall c ne ns sp se,
  assign_sds c ne ns sp se None = do l <- sd_list ne ns None (exc_of c) sp se false; base_assign_sds ne ns sp se (Some l).
Proof. intros [] ne ns sp se; cbn [assign_sds exc_of]; try reflexivity; apply base_default. Qed.
Lemma exc_of_pos : forall c ne k, In k (orders_of ne (exc_of c)) -> (0 <= k)%Z.
Proof.
  intros c ne k H. destruct c; cbn [exc_of orders_of] in H; try (apply in_map_iff in H as (i & <- & _); lia).
  - destruct H as [<-|[<-|[]]]; lia.
  - destruct H as [<-|[]]; lia.
Qed.
Lemma space_listed : forall c ne ns sp se, accepted c ne ns sp se ->
  exists l, sd_list ne ns None (exc_of c) (spin_of c sp) (sen_of c se) false = Ok l /\ NoDup l /\
    forall m, In m l <-> in_space c ne ns sp se m.
Proof.
  intros c ne ns sp se (B & Ev & Pc & Hs & Hv & Fc & C).
  assert (C' : forall s v, spin_of c sp = Some s -> sen_of c se = Some v -> (Z.abs s <= v)%Z).
  { intros s v. unfold spin_of, sen_of. destruct (pair_class c).
    - intros [= <-] [= <-]. cbn. lia.
    - intros -> ->. pose proof (Hs s eq_refl). pose proof (C s v eq_refl eq_refl). lia. }
  assert (Rest : forall o l0, exc_of c = Some o -> orders_in c = Some (0%nat :: l0) -> o = map Z.of_nat l0 ->
     NoDup o -> (forall k, In k o -> (0 < k)%Z) ->
     exists l, sd_list ne ns None (exc_of c) (spin_of c sp) (sen_of c se) false = Ok l /\ NoDup l /\
    forall m, In m l <-> in_space c ne ns sp se m).
  { intros o l0 Eo El Em No Po. rewrite Eo.
    destruct (C17_orders ne ns o (spin_of c sp) (sen_of c se) false B Ev C' No Po) as (g & l & G & E & N & I).
    exists l. split; auto. split; auto. intros m. rewrite I. unfold in_space. rewrite El. cbn [wanted_sd]. 
    destruct (ground_defined _ _ B Ev) as [g' G']. pose proof (ground_aufbau _ _ _ G') as A'.
    assert (g' = g) by (eapply aufbau_unique; eauto). subst g'. destruct (ground_electrons _ _ _ G') as [Eg Fg].
    split.
    - intros (Fm & W & R).
      assert (X : exists k, In k (0%nat :: l0) /\ excitation g m k).
      { destruct R as [->|(k & Hk & X)].
        - exists 0%nat. split; [now left|]. now apply excitation_0.
        - exists k. split; auto. right. subst o. apply in_map_iff in Hk as (k' & Hk & Hi). apply Nat2Z.inj in Hk. now subst. }
      destruct X as (k & Hk & X). split; [|split; [auto|split; [auto|]]].
      + apply (excitation_electrons g m _ (Z.to_nat ns)); eauto.
      + exists g, k. auto.
    - intros (_ & Fm & W & (g' & k & G'' & Hk & X)). assert (g' = g) by (eapply aufbau_unique; eauto). subst g'.
      split; auto. split; auto. destruct Hk as [<-|Hk].
      + left. now apply excitation_0.
      + right. exists k. split; auto. subst o. now apply in_map. }
  destruct c; cbn [exc_of] in *.
  4:{ apply (Rest [1; 2]%Z [1; 2]%nat); auto.
      - repeat constructor; cbn; intuition; discriminate.
      - intros k [<-|[<-|[]]]; lia. }
  4:{ apply (Rest [2]%Z [2]%nat); auto.
      - repeat constructor; cbn; intuition; discriminate.
      - intros k [<-|[]]; lia. }
  1: destruct (C17_complete ne ns (spin_of CIGeneral sp) (sen_of CIGeneral se) false B Ev C') as (l & E & N & I).
  2: destruct (C17_complete ne ns (spin_of CIFull sp) (sen_of CIFull se) false B Ev C') as (l & E & N & I).
  3: destruct (C17_complete ne ns (spin_of CIDoubly sp) (sen_of CIDoubly se) false B Ev C') as (l & E & N & I).
  all: exists l; split; auto; split; auto; intros m; rewrite I; unfold in_space; cbn [orders_in wanted_sd]; tauto.
Qed.
Lemma assigns : forall c ne ns sp se, accepted c ne ns sp se ->
  assign_nelec c ne = Ok ne /\ assign_nspin ns = Ok ns /\ assign_spin c sp = Ok (spin_of c sp) /\
  assign_seniority c se = Ok (sen_of c se).
Proof.
  intros c ne ns sp se (B & Ev & Pc & Hs & Hv & Fc & C).
  assert (M : (ns mod 2 = 0)%Z) by (destruct Ev as [q ->]; rewrite Z.mul_comm; apply Z.mod_mul; lia).
  split; [|split; [|split]].
  - unfold assign_nelec. destruct (Z.leb_spec ne 0); [lia|].
    assert (P : pair_class c = true -> (ne mod 2 = 0)%Z).
    { intros Q. destruct (Pc Q) as ([q ->] & _). rewrite Z.mul_comm. apply Z.mod_mul. lia. }
    destruct c; auto; rewrite P by auto; reflexivity.
  - unfold assign_nspin. destruct (Z.leb_spec ns 0); [lia|]. rewrite M. reflexivity.
  - unfold assign_spin, spin_of. destruct (pair_class c) eqn:Q.
    + destruct (Pc eq_refl) as (_ & [->| ->] & _); destruct c; try discriminate; reflexivity.
    + assert (R : match sp with Some s => (s <? 0)%Z | None => false end = false).
      { destruct sp as [s|]; auto. apply Z.ltb_ge. auto. }
      destruct c; try discriminate; rewrite R; destruct sp; reflexivity.
  - unfold assign_seniority, sen_of. destruct (pair_class c) eqn:Q.
    + destruct (Pc eq_refl) as (_ & _ & [->| ->]); destruct c; try discriminate; reflexivity.
    + assert (R : match se with Some s => (s <? 0)%Z | None => false end = false).
      { destruct se as [s|]; auto. apply Z.ltb_ge. auto. }
      destruct c; try discriminate; try rewrite R; destruct se; auto. now specialize (Fc eq_refl).
Qed.
Lemma half_pos : forall ne ns, (0 < ne <= ns)%Z -> Z.Even ns -> (0 < ns / 2)%Z.
Proof. intros ne ns B [q ->]. rewrite Z.mul_comm, Z.div_mul; lia. Qed.

(** C41: with accepted arguments, a nonempty space and sharp seniority the constructor succeeds and
    lists every determinant of the space once *)
Theorem C41_space : forall c ne ns (ps : option (list K)) sp se, accepted c ne ns sp se ->
  (exists m, in_space c ne ns sp se m) -> sharp c ne ns sp se ->
  exists w, new_ci c ne ns ps None sp se = Ok w /\ NoDup (ci_sds w) /\
    forall m, In m (ci_sds w) <-> in_space c ne ns sp se m.
Proof.
  intros c ne ns ps sp se A [m0 H0] S. destruct (assigns c ne ns sp se A) as (A1 & A2 & A3 & A4).
  destruct (space_listed c ne ns sp se A) as (l & E & N & I). destruct A as (B & Ev & _).
  unfold new_ci. rewrite A1, A2, A3, A4. cbn [bind]. rewrite assign_default, E. cbn [bind].
  rewrite (proj1 (base_given ne ns (spin_of c sp) (sen_of c se) l ltac:(lia) (half_pos _ _ B Ev))).
  - cbn [bind]. eexists. split; [reflexivity|]. auto.
  - intros ->. now apply I in H0.
  - intros m Hm. apply I in Hm. pose proof Hm as (Em & _ & (W & _) & _). split; auto. split.
    + rewrite half_nat by lia. exact W.
    + intros y Hy. rewrite half_nat by lia. eapply S; eauto.
Qed.

(** otherwise it raises ValueError *)
Theorem C41_rejects : forall c ne ns (ps : option (list K)) sp se,
  ~ accepted c ne ns sp se \/ (forall m, ~ in_space c ne ns sp se m) \/ ~ sharp c ne ns sp se ->
  new_ci c ne ns ps None sp se = Err ValueError.
Proof.
  intros c ne ns ps sp se H. unfold new_ci.
  destruct (assign_nelec c ne) as [ne'|e] eqn:A1.
  2:{ cbn [bind]. unfold assign_nelec in A1. destruct (ne <=? 0)%Z; [congruence|]. destruct c; try destruct (negb _); congruence. }
  cbn [bind]. destruct (assign_nspin ns) as [ns'|e] eqn:A2.
  2:{ cbn [bind]. unfold assign_nspin in A2. destruct (ns <=? 0)%Z; [congruence|]. destruct (_ =? 1)%Z; congruence. }
  cbn [bind]. destruct (assign_spin c sp) as [sp'|e] eqn:A3.
  2:{ cbn [bind]. unfold assign_spin in A3. destruct (match match c with CIGeneral => sp | _ => _ end with Some _ => _ | None => _ end); [congruence|].
      destruct c; try congruence; destruct (match match sp with Some _ => _ | None => _ end with Some _ => _ | None => _ end); congruence. }
  cbn [bind]. destruct (assign_seniority c se) as [se'|e] eqn:A4.
  2:{ cbn [bind]. unfold assign_seniority in A4. destruct c, se as [v|]; cbn in A4; try congruence;
      repeat match type of A4 with context [if ?b then _ else _] => destruct b end; congruence. }
  cbn [bind].
  assert (E1 : ne' = ne /\ (0 < ne)%Z /\ (pair_class c = true -> Z.Even ne)).
  { unfold assign_nelec in A1. destruct (Z.leb_spec ne 0); [discriminate|].
    assert (X : (ne mod 2 =? 0)%Z = true -> Z.Even ne).
    { intros Q. apply Z.eqb_eq in Q. exists (ne / 2)%Z. pose proof (Z.div_mod ne 2). lia. }
    destruct c; try (apply Ok_inj in A1; subst; split; auto; split; auto; discriminate);
      destruct (ne mod 2 =? 0)%Z; try discriminate; apply Ok_inj in A1; subst; auto. }
  assert (E2 : ns' = ns /\ (0 < ns)%Z /\ Z.Even ns).
  { unfold assign_nspin in A2. destruct (Z.leb_spec ns 0); [discriminate|].
    destruct (Z.eqb_spec (ns mod 2) 1); [discriminate|]. apply Ok_inj in A2. subst ns'. split; auto. split; auto.
    exists (ns / 2)%Z. pose proof (Z.div_mod ns 2). pose proof (Z.mod_pos_bound ns 2). lia. }
  assert (E3 : sp' = spin_of c sp /\ (forall s, sp = Some s -> (0 <= s)%Z) /\ (pair_class c = true -> sp = None \/ sp = Some 0%Z)).
  { unfold assign_spin, spin_of in *. destruct sp as [s|].
    - destruct c; cbn [pair_class] in *; destruct (Z.ltb_spec s 0); try discriminate;
        try destruct (Z.eqb_spec s 0); try discriminate; apply Ok_inj in A3; subst sp'; subst;
        (split; [auto|split; [intros ? [= <-]; auto|intros; try discriminate; auto]]).
    - destruct c; cbn in A3; apply Ok_inj in A3; subst; (split; [auto|split; [discriminate|auto]]). }
  assert (E4 : se' = sen_of c se /\ (forall s, se = Some s -> (0 <= s)%Z) /\ (pair_class c = true -> se = None \/ se = Some 0%Z) /\ (c = CIFull -> se = None)).
  { unfold assign_seniority, sen_of in *. destruct se as [s|].
    - destruct c; cbn [pair_class] in *; try discriminate; destruct (Z.ltb_spec s 0); try discriminate;
        try destruct (Z.eqb_spec s 0); try discriminate; apply Ok_inj in A4; subst se'; subst;
        (split; [auto|split; [intros ? [= <-]; auto|split; intros; try discriminate; auto]]).
    - destruct c; cbn in A4; apply Ok_inj in A4; subst; (split; [auto|split; [discriminate|split; auto]]). }
  destruct E1 as (-> & P1 & V1). destruct E2 as (-> & P2 & V2). destruct E3 as (-> & P3 & V3). destruct E4 as (-> & P4 & V4 & V5).
  rewrite assign_default.
  destruct (sd_list ne ns None (exc_of c) (spin_of c sp) (sen_of c se) false) as [l|e] eqn:E.
  2:{ cbn [bind]. f_equal. eapply sd_list_error; eauto. apply exc_of_pos. }
  cbn [bind].
  assert (A : accepted c ne ns sp se).
  { apply sd_list_ok_inv in E as ([_ C] & (g & G) & _). apply ground_value in G as (B & Ev & _).
    split; auto. split; auto. split; [intros Q; auto|]. split; auto. split; auto. split; auto.
    intros s v -> ->. unfold spin_of, sen_of in C. destruct (pair_class c).
    - destruct (V3 eq_refl) as [Q|[= ->]]; [discriminate|]. destruct (V4 eq_refl) as [Q|[= ->]]; [discriminate|]. lia.
    - specialize (C s v eq_refl eq_refl). lia. }
  destruct (space_listed c ne ns sp se A) as (l' & E' & N & I). rewrite E in E'. apply Ok_inj in E'. subst l'.
  destruct A as (B & Ev & Rest). pose proof (half_pos _ _ B Ev) as Hp.
  rewrite (proj2 (base_given ne ns (spin_of c sp) (sen_of c se) l ltac:(lia) Hp)); [reflexivity|].
  destruct H as [H|[H|H]].
  - destruct H. split; auto.
  - left. destruct l as [|x l]; auto. destruct (H x). apply I. now left.
  - right.
    assert (D : (exists m, In m l /\ ~ (has_electrons m (Z.to_nat ne) /\ exactly m (Z.to_nat (ns / 2)) (spin_of c sp) (sen_of c se))) \/
                forall m, In m l -> exactly m (Z.to_nat (ns / 2)) (spin_of c sp) (sen_of c se)).
    { clear - Hp. induction l as [|x l IH]; [right; intros m []|].
      destruct (exactly_dec x (Z.to_nat (ns / 2)) (spin_of c sp) (sen_of c se)) as [X|X]; [lia| |].
      - destruct IH as [(m & Hm & Q)|Q].
        + left. exists m. split; auto. now right.
        + right. intros m [<-|Hm]; auto.
      - left. exists x. split; [now left|]. tauto. }
    destruct D as [D|D]; auto. exfalso. apply H. intros m y Hm Hy. apply I in Hm. destruct (D m Hm) as [_ X].
    rewrite half_nat in X by lia. now apply X.
Qed.

(** *** The individual classes *)
Lemma paired_wanted : forall m k, (0 < k)%nat -> (wanted m k (Some 0%Z) (Some 0%Z) <-> paired k m).
Proof.
  intros m k P. destruct (C09_spin_seniority m (Z.of_nat k)) as (na & nb & v & s & _ & _ & Ca & Cb & Cv & _ & Es & L & _ & _ & _ & Z0); [lia|].
  rewrite Nat2Z.id in *. split.
  - intros [_ W]. destruct (W 0%Z eq_refl) as (v' & Cv' & L'). rewrite <- (counts_unique _ _ _ Cv Cv') in L'.
    intros i. apply (proj1 Z0); lia.
  - intros H. assert (v = 0)%nat by (apply Z0; exact H). subst v. split.
    + intros x [= <-]. exists na, nb. repeat split; auto. lia.
    + intros y [= <-]. exists 0%nat. split; [exact Cv|lia].
Qed.
Lemma sharp_pair : forall c ne ns sp se, pair_class c = true -> sharp c ne ns sp se.
Proof.
  intros c ne ns sp se P m y (_ & _ & (_ & W) & _). unfold sen_of in *. rewrite P in *. intros [= <-].
  destruct (W 0%Z eq_refl) as (v & Cv & L). exists v. split; auto. lia.
Qed.
Lemma sharp_none : forall c ne ns sp, pair_class c = false -> sharp c ne ns sp None.
Proof. intros c ne ns sp P m y _. unfold sen_of. rewrite P. discriminate. Qed.
Lemma aufbau_paired : forall g ne k, Nat.Even ne -> (ne <= 2 * k)%nat -> is_aufbau g ne k -> paired k g.
Proof.
  intros g ne k [q E] L A i. rewrite !A. unfold ground_bits.
  assert (E1 : Nat.div (ne + 1) 2 = q) by (symmetry; apply Nat.div_unique with (r := 1%nat); lia).
  assert (E2 : Nat.div ne 2 = q) by (symmetry; apply Nat.div_unique with (r := 0%nat); lia).
  rewrite E1, E2. destruct (Nat.ltb_spec i k), (Nat.ltb_spec i q), (Nat.leb_spec k i), (Nat.ltb_spec i (k + q)),
    (Nat.ltb_spec (i + k) q), (Nat.leb_spec k (i + k)), (Nat.ltb_spec (i + k) (k + q)); cbn; auto; lia.
Qed.
Lemma even_nat : forall z, (0 <= z)%Z -> Z.Even z -> Nat.Even (Z.to_nat z).
Proof. intros z P [q ->]. exists (Z.to_nat q). lia. Qed.
Lemma ground_in_space : forall c ne ns sp se g, accepted c ne ns sp se -> ground ne ns = Ok g ->
  wanted g (Z.to_nat ns / 2) (spin_of c sp) (sen_of c se) -> in_space c ne ns sp se g.
Proof.
  intros c ne ns sp se g A G W. destruct (ground_electrons _ _ _ G) as [E F]. pose proof (ground_aufbau _ _ _ G).
  split; [auto|split; [auto|split; [auto|]]]. destruct (orders_in c) as [l|] eqn:O; auto.
  exists g, 0%nat. split; auto. split; [|now apply excitation_0].
  destruct c; cbn in O; inversion O; now left.
Qed.
Lemma wanted_none : forall m k, wanted m k None None.
Proof. intros. split; intros ? Q; discriminate. Qed.
Lemma accepted_none : forall c ne ns, (0 < ne <= ns)%Z -> Z.Even ns -> (pair_class c = true -> Z.Even ne) -> accepted c ne ns None None.
Proof. intros c ne ns B Ev P. split; auto. split; auto. split; [intros Q; auto|]. repeat split; auto; intros; discriminate. Qed.
Lemma pair_ground : forall ne ns g, (0 < ne <= ns)%Z -> Z.Even ns -> Z.Even ne -> ground ne ns = Ok g ->
  wanted g (Z.to_nat ns / 2) (Some 0%Z) (Some 0%Z).
Proof.
  intros ne ns g B Ev Ee G. pose proof (even_nat ns ltac:(lia) Ev) as [q Q].
  assert (H2 : (Z.to_nat ns / 2 = q)%nat) by (rewrite Q, Nat.mul_comm; apply Nat.div_mul; lia).
  rewrite H2. apply paired_wanted; [lia|]. apply (aufbau_paired g (Z.to_nat ne)).
  - apply even_nat; auto; lia.
  - lia.
  - rewrite <- H2. now apply ground_aufbau.
Qed.

Theorem C41_fci : forall ne ns (ps : option (list K)), (0 < ne <= ns)%Z -> Z.Even ns ->
  exists w, new_ci CIFull ne ns ps None None None = Ok w /\ NoDup (ci_sds w) /\
    (forall m, In m (ci_sds w) <-> has_electrons m (Z.to_nat ne) /\ fits m (Z.to_nat ns)) /\
    length (ci_sds w) = binom (Z.to_nat ns) (Z.to_nat ne).
Proof.
  intros ne ns ps B Ev. destruct (ground_defined _ _ B Ev) as [g G].
  assert (A : accepted CIFull ne ns None None) by (apply accepted_none; auto; discriminate).
  destruct (C41_space CIFull ne ns ps None None A) as (w & E & N & I).
  - exists g. apply ground_in_space; auto. apply wanted_none.
  - now apply sharp_none.
  - assert (I' : forall m, In m (ci_sds w) <-> has_electrons m (Z.to_nat ne) /\ fits m (Z.to_nat ns)).
    { intros m. rewrite I. unfold in_space. cbn. pose proof (wanted_none m (Z.to_nat ns / 2)). tauto. }
    exists w. split; auto. split; auto. split; auto. apply count_dets; auto. intros m. rewrite I'. tauto.
Qed.
Theorem C41_doci : forall ne ns (ps : option (list K)), (0 < ne <= ns)%Z -> Z.Even ns -> Z.Even ne ->
  exists w, new_ci CIDoubly ne ns ps None None None = Ok w /\ NoDup (ci_sds w) /\
    (forall m, In m (ci_sds w) <-> has_electrons m (Z.to_nat ne) /\ paired (Z.to_nat ns / 2) m) /\
    length (ci_sds w) = binom (Z.to_nat ns / 2) (Z.to_nat ne / 2).
Proof.
  intros ne ns ps B Ev Ee. destruct (ground_defined _ _ B Ev) as [g G].
  assert (A : accepted CIDoubly ne ns None None) by (apply accepted_none; auto).
  pose proof (even_nat ns ltac:(lia) Ev) as [q Q].
  assert (H2 : (Z.to_nat ns / 2 = q)%nat) by (rewrite Q, Nat.mul_comm; apply Nat.div_mul; lia).
  destruct (C41_space CIDoubly ne ns ps None None A) as (w & E & N & I).
  - exists g. apply ground_in_space; auto. now apply (pair_ground ne).
  - now apply sharp_pair.
  - assert (I' : forall m, In m (ci_sds w) <-> has_electrons m (Z.to_nat ne) /\ paired (Z.to_nat ns / 2) m).
    { intros m. rewrite I. unfold in_space. cbn [orders_in spin_of sen_of pair_class]. rewrite paired_wanted by lia.
      split; [tauto|]. intros [X Y]. repeat split; auto. rewrite Q, <- H2. now apply paired_fits. }
    exists w. split; auto. split; auto. split; auto.
    rewrite H2 in *. pose (f := fun m => match split_spin m (Z.of_nat q) with Ok (a, _) => a | Err _ => 0%N end).
    assert (Hf : forall m, paired q m -> split_spin m (Z.of_nat q) = Ok (f m, f m) /\ fits (f m) q).
    { intros m Hm. destruct (paired_split q m ltac:(lia) Hm) as (a & Ea & Fa & _). unfold f. rewrite Ea. auto. }
    rewrite <- (map_length f). apply count_dets.
    + apply NoDup_map_inj; auto. intros a b Ha Hb Ef. apply I' in Ha, Hb.
      destruct (Hf a (proj2 Ha)) as [X _]. destruct (Hf b (proj2 Hb)) as [Y _]. rewrite Ef in X.
      apply split_combine in X, Y. congruence.
    + intros a. rewrite in_map_iff. split.
      * intros (m & <- & Hm). apply I' in Hm as [Em Pm]. destruct (Hf m Pm) as [X Fm]. split; auto.
        destruct (Nat.Even_or_Odd (total_occ (Some (f m)))) as [_|_].
        all: pose proof (total_occ_has (f m)) as T.
        all: pose proof (C06_electrons m (Z.of_nat q) (f m) (f m)) as Y.
        all: specialize (Y (total_occ (Some m)) (total_occ (Some (f m))) (total_occ (Some (f m))) X).
        all: assert (Z0 : (total_occ (Some m) = total_occ (Some (f m)) + total_occ (Some (f m)))%nat) by (apply Y; auto using total_occ_has).
        all: pose proof (total_occ_has m) as Tm; apply counts_electrons in Tm, Em; rewrite (counts_unique _ _ _ Em Tm), Z0.
        all: replace ((total_occ (Some (f m)) + total_occ (Some (f m)))%nat) with (total_occ (Some (f m)) * 2)%nat by lia.
        all: now rewrite Nat.div_mul by lia.
      * intros [Fa Ea]. destruct (proj2 (C06_combine a a (Z.of_nat q)) ltac:(lia)) as (m & Em & Bm).
        rewrite Nat2Z.id in Bm.
        pose proof Em as Sm. apply combine_split in Sm; [|now rewrite Nat2Z.id].
        exists m. split; [unfold f; now rewrite Sm|]. apply I'.
        assert (Pm : paired q m).
        { intros i. rewrite !Bm. replace (i + q - q)%nat with i by lia.
          destruct (Nat.ltb_spec i q) as [L|L].
          - rewrite (Fa (i + q)%nat) by lia. destruct (Nat.leb_spec q i); [lia|]. destruct (Nat.leb_spec q (i + q)); [|lia].
            cbn. now rewrite orb_false_r.
          - rewrite (Fa (i + q)%nat) by lia. rewrite (Fa i) by lia. now rewrite andb_false_r. }
        split; auto. pose proof (total_occ_has m) as Tm.
        pose proof (C06_electrons m (Z.of_nat q) a a (total_occ (Some m)) (Z.to_nat ne / 2) (Z.to_nat ne / 2) Sm) as Y.
        assert (Z0 : (total_occ (Some m) = Z.to_nat ne / 2 + Z.to_nat ne / 2)%nat) by (apply Y; auto).
        pose proof (even_nat ne ltac:(lia) Ee) as [r R]. rewrite R in *.
        rewrite (Nat.mul_comm 2 r), Nat.div_mul in Z0 by lia. rewrite Z0 in Tm. replace (2 * r)%nat with (r + r)%nat by lia. exact Tm.
Qed.
Theorem C41_cisd : forall ne ns (ps : option (list K)), (0 < ne <= ns)%Z -> Z.Even ns ->
  exists g w, is_aufbau g (Z.to_nat ne) (Z.to_nat ns / 2) /\
    new_ci CISinglesDoubles ne ns ps None None None = Ok w /\ NoDup (ci_sds w) /\
    (forall m, In m (ci_sds w) <-> fits m (Z.to_nat ns) /\ exists k, (k <= 2)%nat /\ excitation g m k).
Proof.
  intros ne ns ps B Ev. destruct (ground_defined _ _ B Ev) as [g G].
  assert (A : accepted CISinglesDoubles ne ns None None) by (apply accepted_none; auto; discriminate).
  destruct (C41_space CISinglesDoubles ne ns ps None None A) as (w & E & N & I).
  - exists g. apply ground_in_space; auto. apply wanted_none.
  - now apply sharp_none.
  - pose proof (ground_aufbau _ _ _ G) as Au. destruct (ground_electrons _ _ _ G) as [Eg Fg].
    exists g, w. repeat split; auto.
    + apply I in H. apply H.
    + apply I in H as (_ & _ & _ & (g' & k & A' & Hk & X)). assert (g' = g) by (eapply aufbau_unique; eauto). subst.
      exists k. split; auto. destruct Hk as [<-|[<-|[<-|[]]]]; lia.
    + intros (F & k & Lk & X). apply I. split; [|split; [auto|split; [apply wanted_none|]]].
      * apply (excitation_electrons g m _ (Z.to_nat ns)); eauto.
      * exists g, k. repeat split; try apply X; auto. cbn. lia.
Qed.
Theorem C41_cipairs : forall ne ns (ps : option (list K)), (0 < ne <= ns)%Z -> Z.Even ns -> Z.Even ne ->
  exists g w, is_aufbau g (Z.to_nat ne) (Z.to_nat ns / 2) /\
    new_ci CIPairExc ne ns ps None None None = Ok w /\ NoDup (ci_sds w) /\
    (forall m, In m (ci_sds w) <-> paired (Z.to_nat ns / 2) m /\ (m = g \/ excitation g m 2)).
Proof.
  intros ne ns ps B Ev Ee. destruct (ground_defined _ _ B Ev) as [g G].
  assert (A : accepted CIPairExc ne ns None None) by (apply accepted_none; auto).
  pose proof (even_nat ns ltac:(lia) Ev) as [q Q].
  assert (H2 : (Z.to_nat ns / 2 = q)%nat) by (rewrite Q, Nat.mul_comm; apply Nat.div_mul; lia).
  destruct (C41_space CIPairExc ne ns ps None None A) as (w & E & N & I).
  - exists g. apply ground_in_space; auto. now apply (pair_ground ne).
  - now apply sharp_pair.
  - pose proof (ground_aufbau _ _ _ G) as Au. destruct (ground_electrons _ _ _ G) as [Eg Fg].
    exists g, w. split; auto. split; auto. split; auto. intros m. rewrite I. unfold in_space.
    cbn [orders_in spin_of sen_of pair_class]. rewrite paired_wanted by lia. split.
    + intros (_ & _ & Pm & (g' & k & A' & Hk & X)). assert (g' = g) by (eapply aufbau_unique; eauto). subst g'.
      split; auto. destruct Hk as [<-|[<-|[]]]; auto. left. now apply excitation_0.
    + intros (Pm & X). assert (Fm : fits m (Z.to_nat ns)) by (rewrite Q, <- H2; now apply paired_fits).
      assert (Y : exists k, In k [0; 2]%nat /\ excitation g m k).
      { destruct X as [->|X]; [exists 0%nat|exists 2%nat]; split; cbn; auto. now apply excitation_0. }
      destruct Y as (k & Hk & Y). split; [|split; [auto|split; [auto|]]].
      * apply (excitation_electrons g m _ (Z.to_nat ns)); eauto.
      * exists g, k. auto.
Qed.

(** default parameters: the Hartree-Fock vector, whenever the aufbau determinant has the requested spin
    and seniority *)
Theorem C41_hartree_fock : forall c ne ns sp se (w : ciwfn K) g, new_ci c ne ns None None sp se = Ok w ->
  ground ne ns = Ok g -> wanted g (Z.to_nat ns / 2) (spin_of c sp) (sen_of c se) ->
  ci_overlap w g = Ok (rI : K) /\ forall m, m <> g -> ci_overlap w m = Ok (rO : K).
Proof.
  intros c ne ns sp se w g H G W.
  destruct (new_ci_sds _ _ _ _ _ _ _ _ H) as (_ & _ & _ & _ & _ & A3 & A4 & A5 & _ & _ & Ep).
  assert (E3 : ci_spin2 w = spin_of c sp).
  { unfold assign_spin, spin_of in *. destruct sp as [s|], c; cbn in *; try congruence;
      destruct (Z.ltb_spec s 0); try congruence; destruct (Z.eqb_spec s 0); cbn in *; congruence. }
  assert (E4 : ci_sen w = sen_of c se).
  { unfold assign_seniority, sen_of in *. destruct se as [s|], c; cbn in *; try congruence;
      destruct (Z.ltb_spec s 0); try congruence; destruct (Z.eqb_spec s 0); cbn in *; congruence. }
  rewrite E3, E4, assign_default in A5.
  destruct (consistent_dec (spin_of c sp) (sen_of c se)) as [C|(s & v & Es & Ev & L)].
  2:{ unfold sd_list in A5. rewrite Es, Ev in A5. apply Z.ltb_lt in L. rewrite L in A5. cbn in A5. discriminate. }
  destruct (sd_list_first ne ns (exc_of c) (spin_of c sp) (sen_of c se) false g G C (exc_of_pos c ne) W) as (t & T).
  assert (ND : NoDup (g :: t)).
  { assert (N1 : NoDup (orders_of ne (exc_of c))).
    { destruct c; cbn [exc_of orders_of]; try (apply FinFun.Injective_map_NoDup; [intros a b; lia|apply seq_NoDup]).
      - repeat constructor; cbn; intuition; discriminate.
      - repeat constructor; cbn; intuition. }
    assert (N2 : forall k, In k (orders_of ne (exc_of c)) -> (0 < k)%Z).
    { intros k Hk. destruct c; cbn [exc_of orders_of] in Hk; try (apply in_map_iff in Hk as (i & <- & _); lia).
      - destruct Hk as [<-|[<-|[]]]; lia.
      - destruct Hk as [<-|[]]; lia. }
    pose proof (ground_value _ _ _ G) as (B & Ev & _).
    destruct (C17_orders ne ns (orders_of ne (exc_of c)) (spin_of c sp) (sen_of c se) false B Ev) as (g' & l & _ & El & Nl & _); auto.
    { apply C. }
    assert (X : sd_list ne ns None (Some (orders_of ne (exc_of c))) (spin_of c sp) (sen_of c se) false
                = sd_list ne ns None (exc_of c) (spin_of c sp) (sen_of c se) false) by reflexivity.
    rewrite X, T in El. apply Ok_inj in El. now subst. }
  rewrite T in A5. cbn [bind] in A5.
  assert (Es : ci_sds w = g :: t).
  { unfold base_assign_sds in A5. cbn [bind] in A5. destruct (mapM _ _); [|discriminate]. cbn [bind] in A5. congruence. }
  rewrite Es in Ep. split.
  - destruct (C39_overlap w g) as [X _]. rewrite (X 0%nat).
    + rewrite Ep. reflexivity.
    + rewrite Es. apply NoDup_last; auto.
  - intros m D. destruct (in_dec N.eq_dec m (ci_sds w)) as [Hm|Hm].
    + apply In_nth_error in Hm as [i Hi]. destruct (C39_overlap w m) as [X _]. rewrite (X i).
      * rewrite Es in Hi. rewrite Ep. destruct i as [|i]; [cbn in Hi; congruence|]. cbn [nth_error] in *.
        rewrite nth_error_map. now rewrite Hi.
      * rewrite Es in *. apply NoDup_last; auto.
    + now apply C39_overlap.
Qed.

(** given determinants are kept, in their order, when they all have the electrons, spin and seniority of
    the wavefunction; FCI, CISD and CIPairs refuse any *)
Theorem C41_given : forall c ne ns (ps : option (list K)) sp se l,
  ((c = CIGeneral \/ c = CIDoubly) -> accepted c ne ns sp se -> l <> [] ->
   (forall m, In m l -> has_electrons m (Z.to_nat ne) /\ exactly m (Z.to_nat ns / 2) (spin_of c sp) (sen_of c se)) ->
   exists w, new_ci c ne ns ps (Some l) sp se = Ok w /\ ci_sds w = l) /\
  ((c = CIFull \/ c = CISinglesDoubles \/ c = CIPairExc) ->
   forall w, new_ci c ne ns ps (Some l) sp se <> Ok w) /\
  (forall m, In m l -> ~ (has_electrons m (Z.to_nat ne) /\ exactly m (Z.to_nat ns / 2) (spin_of c sp) (sen_of c se)) ->
   accepted c ne ns sp se -> new_ci c ne ns ps (Some l) sp se = Err ValueError).
Proof.
  intros c ne ns ps sp se l. split; [|split].
  - intros Hc A Nl Hl. destruct (assigns c ne ns sp se A) as (A1 & A2 & A3 & A4). unfold new_ci. rewrite A1, A2, A3, A4. cbn [bind].
    destruct A as (B & Ev & _).
    assert (X : assign_sds c ne ns (spin_of c sp) (sen_of c se) (Some l) = base_assign_sds ne ns (spin_of c sp) (sen_of c se) (Some l))
      by (destruct Hc; subst c; reflexivity).
    rewrite X. rewrite (proj1 (base_given ne ns (spin_of c sp) (sen_of c se) l ltac:(lia) (half_pos _ _ B Ev))); auto.
    + cbn [bind]. eexists. split; reflexivity.
    + rewrite half_nat by lia. auto.
  - intros Hc w H. apply new_ci_sds in H as (_ & _ & _ & _ & _ & _ & _ & H & _).
    destruct Hc as [->|[->| ->]]; discriminate H.
  - intros m Hm Bm A. destruct (assigns c ne ns sp se A) as (A1 & A2 & A3 & A4). unfold new_ci. rewrite A1, A2, A3, A4. cbn [bind].
    destruct A as (B & Ev & _).
    assert (X : assign_sds c ne ns (spin_of c sp) (sen_of c se) (Some l) = Err ValueError \/
                assign_sds c ne ns (spin_of c sp) (sen_of c se) (Some l) = base_assign_sds ne ns (spin_of c sp) (sen_of c se) (Some l))
      by (destruct c; auto).
    destruct X as [->| ->]; auto.
    rewrite (proj2 (base_given ne ns (spin_of c sp) (sen_of c se) l ltac:(lia) (half_pos _ _ B Ev))); auto.
    right. exists m. rewrite half_nat by lia. auto.
Qed.
End P.
Print Assumptions C41_space.
Print Assumptions C41_rejects.
Print Assumptions C41_fci.
Print Assumptions C41_doci.
Print Assumptions C41_cisd.
Print Assumptions C41_cipairs.
Print Assumptions C41_hartree_fock.
Print Assumptions C41_given.

(** The default space of CIWavefunction with a seniority is not what is documented: the listing keeps
    determinants of at most that seniority while assign_sds demands exactly that seniority, so the
    constructor raises whenever a determinant of smaller seniority exists. *)
Theorem C41_seniority_refuted :
  accepted CIGeneral 2 4 None (Some 2%Z) /\ in_space CIGeneral 2 4 None (Some 2%Z) 6 /\
  new_ci (K := Z_ring) CIGeneral 2 4 None None None (Some 2%Z) = Err ValueError.
Proof.
  split; [|split].
  - split; [lia|]. split; [now exists 2%Z|]. repeat split; try discriminate; intros; try congruence. inversion H; lia.
  - destruct (C17_complete 2 4 None (Some 2%Z) false ltac:(lia) (ex_intro _ 2%Z eq_refl) ltac:(discriminate)) as (l & E & _ & I).
    vm_compute in E. apply Ok_inj in E. subst l. cbn [wanted_sd] in I.
    destruct (proj1 (I 6%N)) as (X & Y & Z); [cbn; auto 7|]. unfold in_space. cbn. auto.
  - vm_compute. reflexivity.
Qed.
Print Assumptions C41_seniority_refuted.

Example C41_ex :
  zsds CIFull 2 4 None None = Ok [5; 6; 12; 3; 9; 10]%N /\ zsds CIDoubly 2 6 None None = Ok [9; 18; 36]%N /\
  zsds CIDoubly 3 6 None None = Err ValueError /\ zsds CIDoubly 2 6 (Some 2%Z) None = Err ValueError /\
  zsds CIFull 2 4 (Some 2%Z) None = Ok [3]%N /\ zsds CIFull 2 4 (Some 4%Z) None = Err ValueError /\
  zsds CIFull 2 4 None (Some 0%Z) = Err ValueError /\
  zsds CISinglesDoubles 3 6 (Some 1%Z) (Some 1%Z) = Ok [11; 13; 19; 37; 22; 38]%N /\
  zsds CIPairExc 4 8 None None = Ok [51; 85; 153; 102; 170]%N /\
  zsds CIGeneral 2 4 (Some 2%Z) (Some 2%Z) = Ok [3]%N /\ zsds CIGeneral 2 3 None None = Err ValueError /\
  zsds CIGeneral 5 4 None None = Err ValueError.
Proof. vm_compute. repeat split. Qed.
