(** Which rows of the table the pair coupled-cluster classes keep *)
From Coq Require Import List ZArith NArith Arith Bool Lia Permutation Sorted.
From Verif Require Import Py BitSpec BitLemmas Slater SlaterBits SlaterBits2 SignSpec SignLemmas Graphs GraphSpec MatchSpec MathTools PermLemmas SdLemmas Combos
  GeneralLemmas BicliqueLemmas P_Slater1 P_Slater2 Fock FockLemmas FockInner Alg WfnCI CILemmas CC CCRows CCRows2 CCGen CCSpec CCFock CCExp CCLemmas CCMain Pccd PccdSpec.
Import ListNotations.
Local Open Scope nat_scope.

Lemma memz_In : forall x l, memz x l = true <-> In x l.
Proof. intros x l. unfold memz. rewrite existsb_exists. split; [intros (y & H & E); apply Z.eqb_eq in E; now subst|]. intros H. exists x. now rewrite Z.eqb_refl. Qed.
Lemma memz_nIn : forall x l, memz x l = false <-> ~ In x l.
Proof. intros x l. rewrite <- memz_In. destruct (memz x l); split; congruence. Qed.
Lemma zoccs_In : forall sd z, In z (zoccs sd) <-> exists i, z = Z.of_nat i /\ bit sd i = true.
Proof.
  intros sd z. unfold zoccs. rewrite in_map_iff. split.
  - intros (i & <- & H). exists i. split; auto. now apply occ_indices_In in H.
  - intros (i & -> & H). exists i. split; auto. now apply occ_indices_In.
Qed.

(** the filter on the operators themselves *)
Fixpoint keep (ns : Z) (occs trash : list Z) (es : list (list Z)) : bool :=
  match es with
  | [] => true
  | e :: t =>
      if Nat.eqb (length e) 2 then
        if memz (nth 0 e 0%Z) trash then false
        else if memz (partner ns (nth 0 e 0%Z)) occs then keep ns occs (partner ns (nth 0 e 0%Z) :: nth 0 e 0%Z :: trash) t else false
      else match add_all (annihilators e) trash with None => false | Some tr => keep ns occs tr t end
  end.
Lemma keep_row_keep : forall ns ops occs es row trash, map (nth_error ops) row = map Some es -> keep_row ns ops occs trash row = Ok (keep ns occs trash es).
Proof.
  induction es as [|e es IH]; intros row trash E; destruct row as [|i row]; try discriminate; [reflexivity|]. cbn [map] in E. injection E as E1 E2.
  cbn [keep_row keep]. rewrite E1. destruct (Nat.eqb (length e) 2).
  - destruct (memz (nth 0 e 0%Z) trash); [reflexivity|]. fold (partner ns (nth 0 e 0%Z)). destruct (memz (partner ns (nth 0 e 0%Z)) occs); [|reflexivity]. now apply IH.
  - destruct (add_all (annihilators e) trash); [|reflexivity]. now apply IH.
Qed.
Lemma add_all_Some : forall js trash tr, add_all js trash = Some tr -> (forall z, In z tr <-> In z js \/ In z trash) /\ (forall z, In z js -> ~ In z trash) /\ NoDup js.
Proof.
  induction js as [|j js IH]; intros trash tr H; cbn [add_all] in H.
  - injection H as <-. split; [|split; [intros z []|constructor]]. intros z. cbn. tauto.
  - destruct (memz j trash) eqn:M; [discriminate|]. apply memz_nIn in M. apply IH in H as (A & B & C). split; [|split].
    + intros z. rewrite A. cbn [In]. intuition.
    + intros z [<-|Hz]; auto. intros X. apply (B z Hz). now right.
    + constructor; auto. intros X. apply (B j X). now left.
Qed.
Lemma add_all_ok : forall js trash, NoDup js -> (forall z, In z js -> ~ In z trash) -> exists tr, add_all js trash = Some tr.
Proof.
  induction js as [|j js IH]; intros trash N H; cbn [add_all]; [eauto|]. inversion N; subst.
  rewrite (proj2 (memz_nIn j trash)) by (apply H; now left). apply IH; auto. intros z Hz [<-|X]; [auto|]. apply (H z); auto. now right.
Qed.
Lemma emptied_eq : forall e, emptied e = annihilators e.
Proof. reflexivity. Qed.
Lemma single_ann : forall e, length e = 2 -> exists z v, e = [z; v] /\ annihilators e = [z] /\ nth 0 e 0%Z = z.
Proof. intros [|z [|v [|? ?]]] H; try discriminate. exists z, v. auto. Qed.
Lemma compatible_iff : forall ns w, compatible ns w = true <->
  (forall e e', In e w -> In e' w -> length e = 2 -> ~ In (partner ns (nth 0 e 0%Z)) (annihilators e')).
Proof.
  intros ns w. unfold compatible. rewrite forallb_forall. split.
  - intros H e e' He He' L. destruct (single_ann e L) as (z & v & -> & _ & ->). specialize (H _ He). cbn in H. rewrite forallb_forall in H.
    specialize (H _ He'). apply negb_true_iff in H. apply memz_nIn in H. exact H.
  - intros H e He. destruct e as [|z [|v [|? ?]]]; auto. apply forallb_forall. intros e' He'. apply negb_true_iff. apply (proj2 (memz_nIn _ _)). apply (H [z; v] e' He He' eq_refl).
Qed.
Lemma compatible_perm : forall ns w w', Permutation w w' -> compatible ns w = compatible ns w'.
Proof.
  intros ns w w' P. apply eq_true_iff_eq. rewrite !compatible_iff. split; intros H e e' He He'; apply H; (eapply Permutation_in; [|eassumption]); auto; now symmetry.
Qed.

Section Keep.
Variables (ns : Z) (occs : list Z).
(** the operators already seen *)
Lemma keep_true : forall es pre trash, NoDup (flat_map annihilators (pre ++ es)) ->
  (forall e e', In e (pre ++ es) -> In e' (pre ++ es) -> length e = 2 -> ~ In (partner ns (nth 0 e 0%Z)) (annihilators e')) ->
  (forall e, In e es -> length e = 2 -> In (partner ns (nth 0 e 0%Z)) occs) ->
  (forall z, In z trash -> In z (flat_map annihilators pre) \/ exists e, In e pre /\ length e = 2 /\ z = partner ns (nth 0 e 0%Z)) ->
  keep ns occs trash es = true.
Proof.
  induction es as [|e es IH]; intros pre trash N C O T; [reflexivity|]. cbn [keep].
  assert (A : pre ++ e :: es = (pre ++ [e]) ++ es) by now rewrite <- app_assoc.
  assert (Fr : forall z, In z (annihilators e) -> ~ In z trash).
  { intros z Hz Ht. apply T in Ht as [Ht|(e0 & H0 & L0 & ->)].
    - rewrite flat_map_app in N. apply NoDup_app_iff in N as (_ & _ & D). apply (D z Ht). cbn [flat_map]. apply in_app_iff. auto.
    - apply (C e0 e); auto; apply in_app_iff; [now left|right; now left]. }
  destruct (Nat.eqb_spec (length e) 2) as [L|L].
  - destruct (single_ann e L) as (z & v & -> & Ea & En). rewrite En. rewrite (proj2 (memz_nIn _ _)) by (apply Fr; rewrite Ea; now left).
    rewrite (proj2 (memz_In _ _)) by (rewrite <- En; apply O; [now left|auto]). apply (IH (pre ++ [[z; v]])).
    + now rewrite <- A.
    + now rewrite <- A.
    + intros e0 H0. apply O. now right.
    + intros y [<-|[<-|Hy]].
      * right. exists [z; v]. split; [apply in_app_iff; right; now left|]. auto.
      * left. rewrite flat_map_app. apply in_app_iff. right. cbn. now left.
      * apply T in Hy as [Hy|(e0 & H0 & H1)]; [left; rewrite flat_map_app; apply in_app_iff; auto|]. right. exists e0. split; auto. apply in_app_iff. auto.
  - assert (Ne : NoDup (annihilators e)).
    { rewrite flat_map_app in N. apply NoDup_app_iff in N as (_ & N & _). cbn [flat_map] in N. apply NoDup_app_iff in N. tauto. }
    destruct (add_all_ok (annihilators e) trash Ne Fr) as (tr & E). rewrite E. apply add_all_Some in E as (E & _ & _). apply (IH (pre ++ [e])).
    + now rewrite <- A.
    + now rewrite <- A.
    + intros e0 H0. apply O. now right.
    + intros y Hy. apply E in Hy as [Hy|Hy].
      * left. rewrite flat_map_app. apply in_app_iff. right. cbn [flat_map]. now rewrite app_nil_r.
      * apply T in Hy as [Hy|(e0 & H0 & H1)]; [left; rewrite flat_map_app; apply in_app_iff; auto|]. right. exists e0. split; auto. apply in_app_iff. auto.
Qed.
Lemma keep_false : forall es trash, keep ns occs trash es = true ->
  (forall e z, In e es -> In z (annihilators e) -> ~ In z trash) /\
  (forall e, In e es -> length e = 2 -> In (partner ns (nth 0 e 0%Z)) occs) /\
  ForallOrdPairs (fun e e' => length e = 2 -> ~ In (partner ns (nth 0 e 0%Z)) (annihilators e')) es.
Proof.
  induction es as [|e es IH]; intros trash H; [split; [intros e z []|split; [intros e []|constructor]]|]. cbn [keep] in H.
  destruct (Nat.eqb_spec (length e) 2) as [L|L].
  - destruct (memz (nth 0 e 0%Z) trash) eqn:M1; [discriminate|]. destruct (memz (partner ns (nth 0 e 0%Z)) occs) eqn:M2; [|discriminate].
    apply IH in H as (A & B & C). apply memz_nIn in M1. apply memz_In in M2. split; [|split].
    + intros e0 z [<-|He] Hz; [destruct (single_ann e L) as (z0 & v & -> & Ea & En); rewrite Ea in Hz; destruct Hz as [<-|[]]; now rewrite <- En|].
      intros X. apply (A e0 z He Hz). right. now right.
    + intros e0 [<-|He] L0; auto.
    + constructor; auto. apply Forall_forall. intros e' He' _ X. apply (A e' _ He' X). now left.
  - destruct (add_all (annihilators e) trash) as [tr|] eqn:E; [|discriminate]. apply add_all_Some in E as (E1 & E2 & E3). apply IH in H as (A & B & C). split; [|split].
    + intros e0 z [<-|He] Hz; [now apply E2|]. intros X. apply (A e0 z He Hz). apply E1. now right.
    + intros e0 [<-|He] L0; [contradiction|auto].
    + constructor; auto. apply Forall_forall. intros e' He' L0. contradiction.
Qed.
Lemma keep_sd : forall es, NoDup (flat_map annihilators es) ->
  (forall e, In e es -> length e = 2 -> (In (partner ns (nth 0 e 0%Z)) occs <-> ~ In (partner ns (nth 0 e 0%Z)) (flat_map annihilators es))) ->
  keep ns occs [] es = compatible ns es.
Proof.
  intros es N H. apply eq_true_iff_eq. rewrite compatible_iff. split.
  - intros Hk e e' He He' L X. apply keep_false in Hk as (_ & B & _). specialize (B e He L). apply H in B; auto. apply B. apply in_flat_map. eauto.
  - intros C. apply (keep_true es []); auto. intros e He L. apply H; auto. intros X. apply in_flat_map in X as (e' & He' & X). now apply (C e e').
Qed.
Lemma partner_involutive : forall z, (0 <= z < 2 * ns)%Z -> (0 <= partner ns z < 2 * ns)%Z /\ partner ns (partner ns z) = z /\ partner ns z <> z.
Proof. intros z H. unfold partner. destruct (Z.ltb_spec z ns); destruct (Z.ltb_spec (z + ns) ns); destruct (Z.ltb_spec (z - ns) ns); lia. Qed.
Lemma ordpairs_split : forall {A} (R : A -> A -> Prop) l x y, ForallOrdPairs R l -> In x l -> In y l -> x = y \/ R x y \/ R y x.
Proof.
  intros A R l x y H. induction H as [|u l Fu H IH]; intros Hx Hy; [destruct Hx|]. rewrite Forall_forall in Fu.
  destruct Hx as [<-|Hx], Hy as [<-|Hy]; auto.
Qed.
Lemma keep_ref : forall es, NoDup (flat_map annihilators es) ->
  (forall e, In e es -> annihilators e <> []) ->
  (forall e, In e es -> length (annihilators e) + length (annihilators e) = length e) ->
  (forall z, In z (flat_map annihilators es) -> (0 <= z < 2 * ns)%Z) ->
  StronglySorted le (map (@length Z) es) ->
  (forall e, In e es -> length e = 2 -> In (partner ns (nth 0 e 0%Z)) occs) ->
  keep ns occs [] es = compatible ns es.
Proof.
  intros es N Ne Le B S O. apply eq_true_iff_eq. rewrite compatible_iff. split.
  - intros Hk e e' He He' L X. apply keep_false in Hk as (_ & _ & C).
    assert (C' : ForallOrdPairs (fun e e' => length e <= length e' /\ (length e = 2 -> ~ In (partner ns (nth 0 e 0%Z)) (annihilators e'))) es).
    { clear - C S. induction C as [|u l Fu C IH]; [constructor|]. cbn [map] in S. inversion S; subst. constructor; auto. rewrite Forall_forall in *. intros y Hy. split; auto. apply H2. now apply in_map. }
    destruct (single_ann e L) as (z & v & -> & Ea & En). rewrite En in X.
    assert (Hz : (0 <= z < 2 * ns)%Z) by (apply B; apply in_flat_map; exists [z; v]; rewrite Ea; split; [auto|now left]).
    destruct (partner_involutive z Hz) as (P1 & P2 & P3).
    destruct (ordpairs_split _ _ _ _ C' He He') as [<-|[[_ Q]|[Q1 Q2]]].
    + rewrite Ea in X. destruct X as [X|[]]. congruence.
    + rewrite En in Q. now apply Q.
    + assert (L' : length e' = 2). { specialize (Ne e' He'). specialize (Le e' He'). cbn in Q1. destruct (annihilators e'); [congruence|]. cbn in Le. lia. }
      destruct (single_ann e' L') as (z' & v' & -> & Ea' & En'). rewrite Ea' in X. destruct X as [->|[]]. rewrite En', P2, Ea in Q2. apply Q2; auto. now left.
  - intros C. apply (keep_true es []); auto.
Qed.
End Keep.

(** the blocks of a row are ordered by size *)
Lemma capacities_sorted : forall l (g : Z -> nat), StronglySorted Z.lt l -> (forall x, In x l -> (0 < x)%Z) -> StronglySorted le (capacities (map (fun s => (Z.to_nat s, g s)) l)).
Proof.
  assert (SSle_app : forall l1 l2, StronglySorted le l1 -> StronglySorted le l2 -> (forall x y, In x l1 -> In y l2 -> x <= y) -> StronglySorted le (l1 ++ l2)).
  { induction l1 as [|x l1 IH]; intros l2 H1 H2 H; [auto|]. inversion H1; subst. cbn [app]. constructor.
    - apply IH; auto. intros a b Ha Hb. apply H; auto. now right.
    - apply Forall_app. split; auto. apply Forall_forall. intros y Hy. apply H; auto. now left. }
  assert (SSle_rep : forall n x, StronglySorted le (repeat x n)).
  { induction n as [|n IH]; intros x; [constructor|]. cbn [repeat]. constructor; auto. apply Forall_forall. intros y Hy. apply repeat_spec in Hy. lia. }
  intros l g S P. unfold capacities. induction S as [|x l S IH Fx]; [constructor|]. cbn [map flat_map fst snd]. apply SSle_app; auto.
  - apply IH. intros y Hy. apply P. now right.
  - intros u v Hu Hv. apply repeat_spec in Hu. subst u. apply in_flat_map in Hv as (q & Hq & Hv). apply in_map_iff in Hq as (y & <- & Hy). cbn [fst snd] in Hv. apply repeat_spec in Hv. subst v.
    rewrite Forall_forall in Fx. apply Fx in Hy. lia.
Qed.
Lemma part_rows_sorted : forall ranks a c, StronglySorted Z.lt a -> StronglySorted Z.lt c -> (forall r, In r ranks -> (0 < r)%Z) -> length a <= length c ->
  forall parts, parts_ok ranks a parts -> forall r, In r (flat_map (part_rows a c) (rev parts)) -> StronglySorted le (map (fun q => length (fst q)) r).
Proof.
  intros ranks a c Sa Sc Hpos Lac parts Hparts r Hr. apply in_flat_map in Hr as (p & Hp & Hr). apply in_rev in Hp.
  destruct (part_pos ranks a Hpos parts Hparts p Hp) as [Pp Ps].
  destruct (Nat.eq_dec (length a) (length c)) as [L|L].
  - unfold part_rows in Hr.
    destruct (part_facts a c Sa Sc p Pp Ps L) as (As & Cs & EA & EC & FA & FC & _ & _ & _ & _). rewrite EA, EC in Hr.
    apply in_flat_map in Hr as (annhs & HA & Hr). apply in_flat_map in Hr as (creas & HC & Hr).
    destruct (FA annhs HA) as (PA & LA & SA). destruct (FC creas HC) as (PC & LC & SC).
    destruct (part_pairings a c Sc p Pp Ps L annhs creas PA PC LA LC) as (rs & E & _ & I). rewrite E in Hr. apply I in Hr as (E1 & E2 & S).
    rewrite <- (map_map fst (@length Z)), E1, LA. apply (capacities_sorted (sorted_set p) (count_occ Z.eq_dec p)); [apply sorted_set_sorted|]. intros x Hx. apply Pp. now apply (proj1 (sorted_set_In p x)).
  - exfalso. destruct (part_rows_more a c Sa Sc p Pp Ps) as (As & EA & EC); [lia|]. unfold part_rows in Hr. rewrite EA, EC in Hr.
    apply in_flat_map in Hr as (annhs & HA & Hr). destruct Hr.
Qed.
