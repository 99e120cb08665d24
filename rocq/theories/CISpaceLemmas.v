(** Lemmas about the determinants chosen by the CI constructors. *)
From Coq Require Import List ZArith NArith Arith Bool Lia Permutation.
From Verif Require Import Py Slater SdList Alg BitSpec BitLemmas SlaterBits SlaterBits2 SdSpec SdLemmas P_Slater1 P_SdList WfnCI CILemmas.
Import ListNotations.

(** the determinant has exactly the requested spin and seniority *)
Definition exactly (m : N) (k : nat) (spin2 sen : option Z) : Prop :=
  spin_is m k spin2 /\ forall y, sen = Some y -> exists v, has_seniority m k v /\ Z.of_nat v = y.

Lemma check_sd_spec : forall ne nsp sp se sd, (0 <= ne)%Z -> (0 < nsp)%Z ->
  (has_electrons sd (Z.to_nat ne) /\ exactly sd (Z.to_nat nsp) sp se -> check_sd ne nsp sp se sd = Ok tt) /\
  (~ (has_electrons sd (Z.to_nat ne) /\ exactly sd (Z.to_nat nsp) sp se) -> check_sd ne nsp sp se sd = Err ValueError).
Proof.
  intros ne nsp sp se sd P H. unfold check_sd.
  destruct (C09_spin_seniority sd nsp H) as (na & nb & v & s & S & V & Ca & Cb & Cv & _ & Es & _).
  assert (Hs : has_spin2 sd (Z.to_nat nsp) s) by (exists na, nb; auto).
  assert (T : Z.of_nat (total_occ (Some sd)) = ne <-> has_electrons sd (Z.to_nat ne)).
  { pose proof (total_occ_has sd) as X. split.
    - intros <-. now rewrite Nat2Z.id.
    - intros Y. apply counts_electrons in X, Y. rewrite (counts_unique _ _ _ X Y). lia. }
  rewrite S, V. cbn [bind].
  destruct (Z.eqb_spec (Z.of_nat (total_occ (Some sd))) ne) as [E|E]; cbn [negb].
  2:{ split; auto. intros [X _]. apply T in X. congruence. }
  apply T in E.
  destruct (match sp with Some x => negb (s =? x)%Z | None => false end) eqn:Q.
  { split; auto. intros [_ [X _]]. destruct sp as [x|]; [|discriminate]. specialize (X x eq_refl).
    rewrite (has_spin2_unique _ _ _ _ Hs X), Z.eqb_refl in Q. discriminate. }
  assert (Sp : spin_is sd (Z.to_nat nsp) sp).
  { intros x ->. apply negb_false_iff, Z.eqb_eq in Q. now subst. }
  destruct (match se with Some y => negb (Z.of_nat v =? y)%Z | None => false end) eqn:R.
  - split; auto. intros [_ [_ X]]. destruct se as [y|]; [|discriminate]. destruct (X y eq_refl) as (v' & Cv' & <-).
    rewrite (counts_unique _ _ _ Cv Cv'), Z.eqb_refl in R. discriminate.
  - split; auto. intros X. exfalso. apply X. split; auto. split; auto. intros y ->. apply negb_false_iff, Z.eqb_eq in R. eauto.
Qed.
Lemma mapM_check : forall ne nsp sp se l, (0 <= ne)%Z -> (0 < nsp)%Z ->
  ((forall m, In m l -> has_electrons m (Z.to_nat ne) /\ exactly m (Z.to_nat nsp) sp se) ->
     exists r, mapM (check_sd ne nsp sp se) l = Ok r) /\
  ((exists m, In m l /\ ~ (has_electrons m (Z.to_nat ne) /\ exactly m (Z.to_nat nsp) sp se)) ->
     mapM (check_sd ne nsp sp se) l = Err ValueError).
Proof.
  intros ne nsp sp se l P H. split.
  - intros A. induction l as [|m l IH]; [eexists; reflexivity|]. cbn [mapM].
    rewrite (proj1 (check_sd_spec ne nsp sp se m P H)) by (apply A; now left). cbn [bind].
    destruct IH as [r ->]; [intros; apply A; now right|]. eexists. reflexivity.
  - intros (m & Hm & B). induction l as [|x l IH]; [destruct Hm|]. cbn [mapM].
    destruct (check_sd ne nsp sp se x) as [u|e] eqn:E.
    + cbn [bind]. destruct Hm as [->|Hm]; [now rewrite (proj2 (check_sd_spec ne nsp sp se m P H) B) in E|].
      now rewrite IH.
    + cbn [bind]. f_equal.
      unfold check_sd in E. destruct (C09_spin_seniority x nsp H) as (na & nb & v & s & S & V & _).
      rewrite S, V in E. cbn [bind] in E.
      destruct (negb _); [congruence|]. destruct (match sp with Some _ => _ | None => _ end); [congruence|].
      destruct (match se with Some _ => _ | None => _ end); [congruence|discriminate].
Qed.
Lemma base_given : forall ne ns sp se l, (0 <= ne)%Z -> (0 < ns / 2)%Z ->
  (l <> [] -> (forall m, In m l -> has_electrons m (Z.to_nat ne) /\ exactly m (Z.to_nat (ns / 2)) sp se) ->
     base_assign_sds ne ns sp se (Some l) = Ok l) /\
  (l = [] \/ (exists m, In m l /\ ~ (has_electrons m (Z.to_nat ne) /\ exactly m (Z.to_nat (ns / 2)) sp se)) ->
     base_assign_sds ne ns sp se (Some l) = Err ValueError).
Proof.
  intros ne ns sp se l P H. unfold base_assign_sds. cbn [bind]. split.
  - intros Ne A. destruct (proj1 (mapM_check ne (ns / 2) sp se l P H) A) as [r ->]. cbn [bind]. destruct l; congruence.
  - intros [->|A]; [reflexivity|]. rewrite (proj2 (mapM_check ne (ns / 2) sp se l P H) A). reflexivity.
Qed.
Lemma base_default : forall ne ns sp se, base_assign_sds ne ns sp se None
  = do l <- sd_list ne ns None None sp se false; base_assign_sds ne ns sp se (Some l).
Proof. intros. unfold base_assign_sds. destruct (sd_list _ _ _ _ _ _ _); reflexivity. Qed.
Lemma exactly_dec : forall m k sp se, (0 < k)%nat -> exactly m k sp se \/ ~ exactly m k sp se.
Proof.
  intros m k sp se H. destruct (C09_spin_seniority m (Z.of_nat k)) as (na & nb & v & s & S & V & Ca & Cb & Cv & _ & Es & _); [lia|].
  rewrite Nat2Z.id in *. assert (Hs : has_spin2 m k s) by (exists na, nb; auto).
  destruct (match sp with Some x => (s =? x)%Z | None => true end) eqn:Q.
  - destruct (match se with Some y => (Z.of_nat v =? y)%Z | None => true end) eqn:R.
    + left. split.
      * intros x ->. apply Z.eqb_eq in Q. now subst.
      * intros y ->. apply Z.eqb_eq in R. eauto.
    + right. intros [_ X]. destruct se as [y|]; [|discriminate]. destruct (X y eq_refl) as (v' & Cv' & <-).
      rewrite (counts_unique _ _ _ Cv Cv'), Z.eqb_refl in R. discriminate.
  - right. intros [X _]. destruct sp as [x|]; [|discriminate]. specialize (X x eq_refl).
    rewrite (has_spin2_unique _ _ _ _ Hs X), Z.eqb_refl in Q. discriminate.
Qed.
(** every error of the listing is a ValueError when the orders are not negative *)
Lemma sd_list_error : forall ne ns exc sp se h e, (forall k, In k (orders_of ne exc) -> (0 <= k)%Z) ->
  sd_list ne ns None exc sp se h = Err e -> e = ValueError.
Proof.
  intros ne ns exc sp se h e Ho H. destruct (ground ne ns) as [g|e'] eqn:G.
  - destruct (match sp, se with Some s, Some v => (v <? Z.abs s)%Z | _, _ => false end) eqn:C.
    + unfold sd_list in H. rewrite C in H. cbn in H. congruence.
    + rewrite (sd_list_value _ _ _ _ _ _ _ g) in H; auto; [discriminate|]. split; [intros k Q; discriminate|].
      intros s v -> ->. now apply Z.ltb_ge in C.
  - unfold sd_list in H. rewrite G in H. destruct (match sp, se with Some _, Some _ => _ | _, _ => _ end); cbn in H; [congruence|].
    injection H as <-. eapply ground_error; eauto.
Qed.
Lemma sd_list_first : forall ne ns exc sp se h g, ground ne ns = Ok g -> consistent None sp se ->
  (forall k, In k (orders_of ne exc) -> (0 <= k)%Z) -> wanted_sd h g (Z.to_nat ns / 2) sp se ->
  exists t, sd_list ne ns None exc sp se h = Ok (g :: t).
Proof.
  intros ne ns exc sp se h g G C Ho W. rewrite (sd_list_value _ _ _ _ _ _ _ g) by auto.
  pose proof (ground_value _ _ _ G) as (B & [q Ev] & _).
  assert (Hns : (0 < ns / 2)%Z) by (rewrite Ev, Z.mul_comm, Z.div_mul; lia).
  assert (S : sat (ns / 2) sp se h g = true) by (apply sat_wanted; auto; rewrite half_nat by lia; auto).
  rewrite S. cbn [app]. eauto.
Qed.
Lemma consistent_dec : forall sp se, consistent None sp se \/ exists s v, sp = Some s /\ se = Some v /\ (v < Z.abs s)%Z.
Proof.
  intros [s|] [v|]; try (left; split; [intros k Q; discriminate|intros ? ? Q R; discriminate]).
  destruct (Z.le_gt_cases (Z.abs s) v).
  - left. split; [intros k Q; discriminate|]. intros ? ? [= <-] [= <-]. auto.
  - right. eauto 6.
Qed.
