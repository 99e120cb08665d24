From Coq Require Import List ZArith NArith Bool Lia Arith Sorted Permutation.
From Verif Require Import Py BitSpec BitLemmas Slater SlaterBits SlaterBits2 SignSpec Fock FockLemmas
  SignLemmas Combos BulkLemmas SignVec.
Import ListNotations.

Lemma flat_map_length0 : forall {A B} (f : A -> list B) l, (forall x, In x l -> f x = []) -> flat_map f l = [].
Proof.
  intros A B f l H. induction l as [|x l IH]; auto. simpl. rewrite H by now left.
  apply IH. intros; apply H; now right.
Qed.

Fixpoint pairsF {A B} (F : A -> A -> B) (R : list A) : list B :=
  match R with
  | [] => []
  | x :: t => map (F x) t ++ pairsF F t
  end.

Lemma pairsF_combinations : forall {A B} (F : A -> A -> B) (G : list A -> B) R,
  (forall x y, G [x; y] = F x y) -> map G (combinations R 2) = pairsF F R.
Proof.
  intros A B F G R H. induction R as [|x R IH]; auto.
  rewrite combinations_2_cons, map_app, map_map, IH. cbn [pairsF]. f_equal.
  apply map_ext. intros; apply H.
Qed.

Lemma pairsF_map : forall {A B C} (F : B -> B -> C) (f : A -> B) R,
  pairsF F (map f R) = pairsF (fun x y => F (f x) (f y)) R.
Proof. induction R as [|x R IH]; auto. cbn [map pairsF]. now rewrite map_map, IH. Qed.

Lemma pairsF_repeat : forall {A B} (F : A -> A -> B) x b R,
  pairsF F (repeat x b ++ R)
  = flat_map (fun len => repeat (F x x) len ++ map (F x) R) (rev (seq 0 b)) ++ pairsF F R.
Proof.
  intros A B F x b R. induction b as [|b IH]; auto.
  rewrite seq_S, rev_app_distr. cbn [repeat app pairsF rev flat_map Nat.add].
  rewrite IH, map_app, map_repeat'. now rewrite <- !app_assoc.
Qed.

Lemma pairs_groups : forall {B} (F : nat -> nat -> B) (b : nat -> nat) K a,
  flat_map (fun j1 => flat_map (fun len => repeat (F j1 j1) len ++
               flat_map (fun j2 => repeat (F j1 j2) (b j2)) (seq (j1 + 1) (a + K - (j1 + 1))))
             (rev (seq 0 (b j1)))) (seq a K)
  = pairsF F (flat_map (fun j => repeat j (b j)) (seq a K)).
Proof.
  intros B F b. induction K as [|K IH]; intros a; auto.
  cbn [seq flat_map]. rewrite pairsF_repeat. f_equal.
  - apply flat_map_ext_in. intros len _. f_equal. rewrite map_flat_map.
    replace (a + S K - (a + 1)) with K by lia. rewrite Nat.add_1_r.
    apply flat_map_ext_in. intros j _. now rewrite map_repeat'.
  - rewrite <- IH. apply flat_map_ext_in. intros j1 _. apply flat_map_ext_in. intros len _.
    do 2 f_equal. f_equal. lia.
Qed.

Lemma pairs_index : forall {B} (G : nat -> nat -> list B) len a,
  flat_map (fun i1 => flat_map (G i1) (seq (i1 + 1) (a + len - (i1 + 1)))) (seq a len)
  = flat_map (fun l => l) (pairsF G (seq a len)).
Proof.
  intros B G. induction len as [|len IH]; intros a; auto.
  cbn [seq flat_map pairsF]. rewrite flat_map_app. f_equal.
  - rewrite flat_map_map. replace (a + S len - (a + 1)) with len by lia. now rewrite Nat.add_1_r.
  - rewrite <- IH. apply flat_map_ext_in. intros i _. do 2 f_equal. lia.
Qed.

Definition par_two (i1 i2 j1 j2 : nat) : bool :=
  xorb (xorb (Nat.odd i1) (negb (Nat.odd i2)))
       (xorb (xorb (Nat.odd j2) (xorb (Nat.ltb i1 j2) (Nat.ltb i2 j2)))
             (xorb (Nat.odd j1) (xorb (Nat.ltb i1 j1) (Nat.ltb i2 j1)))).

Lemma Zeven_of_nat : forall k, Z.even (Z.of_nat k) = negb (Nat.odd k).
Proof.
  intros. rewrite <- Nat.negb_even, negb_involutive.
  destruct (Nat.even k) eqn:E.
  - apply Nat.even_spec in E as [q ->]. apply Z.even_spec. exists (Z.of_nat q). lia.
  - assert (O : Nat.odd k = true) by (unfold Nat.odd; now rewrite E).
    apply Nat.odd_spec in O as [q ->]. rewrite <- Z.negb_odd. apply negb_false_iff, Z.odd_spec.
    exists (Z.of_nat q). lia.
Qed.

Lemma Zmod2_even : forall z, (z mod 2 =? 0)%Z = Z.even z.
Proof.
  intros. rewrite Zmod_even. now destruct (Z.even z).
Qed.

Lemma sgn_even : forall z b, Z.even z = negb b -> (if (z mod 2 =? 0)%Z then 1%Z else (-1)%Z) = sgn b.
Proof. intros z b H. rewrite Zmod2_even, H. now destruct b. Qed.

Lemma Zeven_b2n : forall b, Z.even (Z.of_nat (b2n b)) = negb b.
Proof. intros [|]; reflexivity. Qed.

Lemma two_same_sign : forall i1 i2 j,
  (if ((Z.of_nat i1 + Z.of_nat i2 - 1 + 2 * Z.of_nat j) mod 2 =? 0)%Z then 1%Z else (-1)%Z)
  = sgn (par_two i1 i2 j j).
Proof.
  intros. apply sgn_even. rewrite Z.even_add_mul_2, Z.even_sub, Z.even_add, !Zeven_of_nat.
  unfold par_two. destruct (Nat.odd i1), (Nat.odd i2), (Nat.odd j), (Nat.ltb i1 j), (Nat.ltb i2 j); reflexivity.
Qed.

Lemma two_diff_sign : forall i1 i2 j1 j2,
  (if ((Z.of_nat i1 + Z.of_nat i2 - 1 + Z.of_nat j2 + Z.of_nat j1
        - Z.of_nat (b2n (Nat.ltb i1 j2) + b2n (Nat.ltb i2 j2)
                    + b2n (Nat.ltb i1 j1) + b2n (Nat.ltb i2 j1))) mod 2 =? 0)%Z then 1%Z else (-1)%Z)
  = sgn (par_two i1 i2 j1 j2).
Proof.
  intros. apply sgn_even.
  rewrite !Z.even_sub, !Z.even_add, !Z.even_sub, !Z.even_add, !Nat2Z.inj_add, !Z.even_add,
    !Zeven_of_nat.
  unfold par_two. destruct (Nat.odd i1), (Nat.odd i2), (Nat.odd j1), (Nat.odd j2),
   (Nat.ltb i1 j1), (Nat.ltb i2 j1), (Nat.ltb i1 j2), (Nat.ltb i2 j2); reflexivity.
Qed.

Lemma sign_excite_two_value : forall occs virs, increasing occs -> increasing virs ->
  sign_excite_two occs virs
  = flat_map (fun l => l)
      (pairsF (fun i1 i2 => pairsF (fun v1 v2 => sgn (par_two i1 i2 (rank occs v1) (rank occs v2))) virs)
              (seq 0 (length occs))).
Proof.
  intros occs virs Ho Hv. unfold sign_excite_two. rewrite <- pairs_index.
  apply flat_map_ext_in. intros i1 _. rewrite Nat.add_0_l. apply flat_map_ext_in. intros i2 _.
  rewrite <- (pairsF_map (fun j1 j2 => sgn (par_two i1 i2 j1 j2)) (rank occs) virs).
  rewrite <- bins_ranks by auto.
  rewrite <- (pairs_groups (fun j1 j2 => sgn (par_two i1 i2 j1 j2))
                           (fun j => nth j (bin_sizes occs virs) 0) (length occs + 1) 0).
  apply flat_map_ext_in. intros j1 _. rewrite Nat.add_0_l. cbv zeta.
  destruct (Nat.eqb_spec (nth j1 (bin_sizes occs virs) 0) 0) as [E|E].
  - now rewrite E.
  - apply flat_map_ext_in. intros len _. rewrite two_same_sign. f_equal.
    apply flat_map_ext_in. intros j2 _. rewrite two_diff_sign.
    destruct (Nat.eqb_spec (nth j2 (bin_sizes occs virs) 0) 0) as [E2|E2]; auto. now rewrite E2.
Qed.

Lemma applys_two : forall n a1 a2 v1 v2, bit n a1 = true -> bit n a2 = true ->
  bit n v1 = false -> bit n v2 = false -> a1 < a2 -> v1 < v2 ->
  exists m, applys [Ann a1; Ann a2; Cre v2; Cre v1] (Some (false, n))
  = Some (xorb (xorb (par n a1) (negb (par n a2)))
            (xorb (xorb (par n v2) (xorb (Nat.ltb a1 v2) (Nat.ltb a2 v2)))
                  (xorb (par n v1) (xorb (Nat.ltb a1 v1) (Nat.ltb a2 v1)))), m).
Proof.
  intros n a1 a2 v1 v2 A1 A2 V1 V2 La Lv.
  assert (a1 <> v1) by congruence. assert (a1 <> v2) by congruence.
  assert (a2 <> v1) by congruence. assert (a2 <> v2) by congruence.
  assert (a1 <> a2) by lia. assert (v2 <> v1) by lia.
  cbn [applys fold_left]. unfold Ann, Cre. cbn [apply1 fst snd]. rewrite A1.
  cbn [Bool.eqb apply1 fst snd]. rewrite bit_flip_neq, A2 by auto.
  cbn [Bool.eqb apply1 fst snd]. rewrite !bit_flip_neq, V2 by auto.
  cbn [Bool.eqb apply1 fst snd]. rewrite !bit_flip_neq, V1 by auto.
  cbn [Bool.eqb]. eexists. f_equal. f_equal. rewrite !par_flip.
  rewrite (proj2 (Nat.ltb_lt a1 a2)) by lia. rewrite (proj2 (Nat.ltb_ge v2 v1)) by lia.
  destruct (par n a1), (par n a2), (par n v1), (par n v2), (Nat.ltb a1 v1), (Nat.ltb a1 v2),
    (Nat.ltb a2 v1), (Nat.ltb a2 v2); reflexivity.
Qed.

Lemma par_nth : forall n i, i < length (occ_indices (Some n)) ->
  par n (nth i (occ_indices (Some n)) 0) = Nat.odd i.
Proof.
  intros n i H. unfold par. rewrite <- rank_occ_nbelow, rank_self; auto. apply occ_indices_increasing.
Qed.
Lemma ltb_rank : forall occs i v, increasing occs -> i < length occs ->
  Nat.ltb (nth i occs 0) v = Nat.ltb i (rank occs v).
Proof.
  intros occs i v H Hi. apply eq_true_iff_eq. rewrite !Nat.ltb_lt. now apply rank_nth.
Qed.
Lemma par_rank : forall n v, par n v = Nat.odd (rank (occ_indices (Some n)) v).
Proof. intros. unfold par. now rewrite rank_occ_nbelow. Qed.

Lemma nth_increasing : forall l i j, increasing l -> i < j -> j < length l -> nth i l 0 < nth j l 0.
Proof.
  intros l i j H. revert i j. induction H as [|o l H IH F]; intros i j Hi Hj; [simpl in Hj; lia|].
  destruct j as [|j]; [lia|]. destruct i as [|i]; cbn [nth].
  - rewrite Forall_forall in F. apply F, nth_In. simpl in Hj. lia.
  - apply IH; simpl in Hj; lia.
Qed.

Lemma sign_excite_two_entry : forall n i1 i2 v1 v2, let occs := occ_indices (Some n) in
  i1 < i2 -> i2 < length occs -> bit n v1 = false -> bit n v2 = false -> v1 < v2 ->
  sign_excite (Some n) [nth i1 occs 0; nth i2 occs 0] [v2; v1]
  = Ok (sgn (par_two i1 i2 (rank occs v1) (rank occs v2))).
Proof.
  intros n i1 i2 v1 v2 occs L1 L2 V1 V2 Lv.
  assert (Io : increasing occs) by apply occ_indices_increasing.
  rewrite sign_excite_eq. cbn [map app].
  destruct (applys_two n (nth i1 occs 0) (nth i2 occs 0) v1 v2) as (m & ->); auto.
  - apply occ_indices_In, nth_In. fold occs. lia.
  - apply occ_indices_In, nth_In. auto.
  - apply nth_increasing; auto.
  - do 2 f_equal. unfold par_two.
    rewrite !(ltb_rank occs) by (auto; lia).
    assert (P1 : par n (nth i1 occs 0) = Nat.odd i1) by (apply par_nth; fold occs; lia).
    assert (P2 : par n (nth i2 occs 0) = Nat.odd i2) by (apply par_nth; fold occs; lia).
    rewrite P1, P2, !par_rank. fold occs. reflexivity.
Qed.

(** ** assembling the entry-by-entry statements *)
Definition signs_agree (n : N) (p : list nat * list nat) (s : Z) : Prop :=
  sign_excite (Some n) (fst p) (rev (snd p)) = Ok s.

Lemma Forall2_map_same : forall {A B C} (R : B -> C -> Prop) (f : A -> B) (g : A -> C) l,
  (forall x, In x l -> R (f x) (g x)) -> Forall2 R (map f l) (map g l).
Proof.
  induction l as [|x l IH]; intros H; simpl; constructor.
  - apply H. now left.
  - apply IH. intros; apply H; now right.
Qed.

Lemma Forall2_flat_map : forall {A B C D} (R : B -> C -> Prop) (f : A -> list B) (g : D -> list C) l l',
  Forall2 (fun a d => Forall2 R (f a) (g d)) l l' -> Forall2 R (flat_map f l) (flat_map g l').
Proof. induction 1; simpl; auto. now apply Forall2_app. Qed.

Lemma list_prod_flat : forall {A B} (l1 : list A) (l2 : list B),
  list_prod l1 l2 = flat_map (fun a => map (pair a) l2) l1.
Proof. induction l1 as [|a l1 IH]; intros; simpl; auto. now rewrite IH. Qed.

Lemma vector_one : forall n virs, increasing virs -> (forall v, In v virs -> bit n v = false) ->
  Forall2 (signs_agree n)
    (list_prod (combinations (occ_indices (Some n)) 1) (combinations virs 1))
    (sign_excite_one (occ_indices (Some n)) virs).
Proof.
  intros n virs Hv Hb. set (occs := occ_indices (Some n)).
  assert (Io : increasing occs) by apply occ_indices_increasing.
  rewrite sign_excite_one_value by auto. rewrite !combinations_1, list_prod_flat, flat_map_map.
  apply Forall2_flat_map. rewrite <- (nth_seq_map occs) at 1.
  rewrite <- (map_id (seq 0 (length occs))) at 2.
  apply Forall2_map_same. intros i Hi. apply in_seq in Hi. rewrite !map_map.
  apply Forall2_map_same. intros v Hin. unfold signs_agree. cbn [fst snd rev app].
  apply sign_excite_one_entry; auto. fold occs; lia.
Qed.

Lemma vector_two : forall n virs, increasing virs -> (forall v, In v virs -> bit n v = false) ->
  Forall2 (signs_agree n)
    (list_prod (combinations (occ_indices (Some n)) 2) (combinations virs 2))
    (sign_excite_two (occ_indices (Some n)) virs).
Proof.
  intros n virs Hv Hb. set (occs := occ_indices (Some n)).
  assert (Io : increasing occs) by apply occ_indices_increasing.
  rewrite sign_excite_two_value by auto. rewrite list_prod_flat.
  apply Forall2_flat_map. rewrite <- (nth_seq_map occs) at 1. rewrite combinations_map.
  rewrite <- (pairsF_combinations _ (fun c => pairsF (fun v1 v2 =>
     sgn (par_two (nth 0 c 0) (nth 1 c 0) (rank occs v1) (rank occs v2))) virs)) by reflexivity.
  apply Forall2_map_same. intros c Hc.
  apply combinations_increasing_In in Hc as (Ic & Sc & Lc); [|apply increasing_seq].
  destruct c as [|i1 [|i2 [|]]]; try discriminate. cbn [nth map].
  rewrite <- (pairsF_combinations _ (fun d => sgn (par_two i1 i2 (rank occs (nth 0 d 0)) (rank occs (nth 1 d 0)))))
    by reflexivity.
  apply Forall2_map_same. intros d Hd.
  apply combinations_increasing_In in Hd as (Id & Sd & Ld); auto.
  destruct d as [|v1 [|v2 [|]]]; try discriminate. unfold signs_agree. cbn [fst snd rev app nth].
  apply SS_cons_inv in Ic as [_ Ic]. apply SS_cons_inv in Id as [_ Id].
  inversion Ic; inversion Id; subst.
  assert (In i2 (seq 0 (length occs))) by (apply Sc; right; now left).
  apply in_seq in H.
  apply sign_excite_two_entry; auto.
  - fold occs. lia.
  - apply Hb, Sd. now left.
  - apply Hb, Sd. right. now left.
Qed.

(** ** two_ab *)
Definition par_ab (ia ib ja jb : nat) : bool :=
  xorb (xorb (Nat.odd ia) (Nat.odd ib))
       (xorb (xorb (Nat.odd ja) (Nat.odd jb)) (xorb (Nat.ltb ia ja) (Nat.ltb ib jb))).

Lemma ab_sign : forall ia ib ja jb m,
  (let nj0 := ia + ib + jb + ja in
   let nj1 := if Nat.ltb ia ja then nj0 - 1 else nj0 in
   let nj2 := if Nat.ltb ib jb then nj1 - 1 else nj1 in
   if Nat.eqb (nj2 mod 2) 0 then repeat 1%Z m else repeat (-1)%Z m)
  = repeat (sgn (par_ab ia ib ja jb)) m.
Proof.
  intros. cbv zeta. rewrite even_sgn_rep. do 2 f_equal. unfold par_ab.
  destruct (Nat.ltb_spec ia ja), (Nat.ltb_spec ib jb).
  - rewrite !Nat.odd_sub, !Nat.odd_add by lia. simpl (Nat.odd 1).
    destruct (Nat.odd ia), (Nat.odd ib), (Nat.odd ja), (Nat.odd jb); reflexivity.
  - rewrite !Nat.odd_sub, !Nat.odd_add by lia. simpl (Nat.odd 1).
    destruct (Nat.odd ia), (Nat.odd ib), (Nat.odd ja), (Nat.odd jb); reflexivity.
  - rewrite !Nat.odd_sub, !Nat.odd_add by lia. simpl (Nat.odd 1).
    destruct (Nat.odd ia), (Nat.odd ib), (Nat.odd ja), (Nat.odd jb); reflexivity.
  - rewrite !Nat.odd_add.
    destruct (Nat.odd ia), (Nat.odd ib), (Nat.odd ja), (Nat.odd jb); reflexivity.
Qed.

Lemma concat_repeat_flat : forall {A B} (g : A -> list B) x k,
  flat_map g (repeat x k) = concat (repeat (g x) k).
Proof. induction k; simpl; congruence. Qed.

Lemma flat_map_flat_map : forall {A B C} (f : B -> list C) (g : A -> list B) l,
  flat_map f (flat_map g l) = flat_map (fun x => flat_map f (g x)) l.
Proof. induction l as [|x l IH]; auto. simpl. now rewrite flat_map_app, IH. Qed.

Lemma sign_excite_two_ab_value : forall oa ob va vb,
  increasing oa -> increasing ob -> increasing va -> increasing vb ->
  sign_excite_two_ab oa ob va vb
  = flat_map (fun ia => flat_map (fun ib => flat_map (fun a => map (fun b =>
      sgn (par_ab ia ib (rank oa a) (rank ob b))) vb) va) (seq 0 (length ob))) (seq 0 (length oa)).
Proof.
  intros oa ob va vb Hoa Hob Hva Hvb. unfold sign_excite_two_ab.
  apply flat_map_ext_in. intros ia _. apply flat_map_ext_in. intros ib _. 
  transitivity (flat_map (fun ja => map (fun jb => sgn (par_ab ia ib ja jb)) (map (rank ob) vb))
                         (map (rank oa) va)).
  - rewrite <- !bins_ranks by auto. rewrite flat_map_flat_map. apply flat_map_ext_in. intros ja _.
    rewrite concat_repeat_flat.
    destruct (Nat.eqb_spec (nth ja (bin_sizes oa va) 0) 0) as [E|E]; [now rewrite E|].
    do 2 f_equal. rewrite map_flat_map. apply flat_map_ext_in. intros jb _. rewrite map_repeat'.
    destruct (Nat.eqb_spec (nth jb (bin_sizes ob vb) 0) 0) as [E2|E2]; [now rewrite E2|].
    apply ab_sign.
  - rewrite flat_map_map. apply flat_map_ext_in. intros a _. now rewrite map_map.
Qed.

Lemma applys_ab : forall n a b va vb, bit n a = true -> bit n b = true ->
  bit n va = false -> bit n vb = false -> a < b -> va < b -> a < vb -> va < vb ->
  exists m, applys [Ann a; Ann b; Cre vb; Cre va] (Some (false, n))
  = Some (xorb (xorb (par n a) (par n b))
            (xorb (xorb (par n vb) (Nat.ltb b vb)) (xorb (par n va) (Nat.ltb a va))), m).
Proof.
  intros n a b va vb A B VA VB L1 L2 L3 L4.
  destruct (applys_two n a b va vb) as (m & E); auto. exists m. rewrite E. do 2 f_equal.
  rewrite (proj2 (Nat.ltb_lt a vb)) by lia. rewrite (proj2 (Nat.ltb_ge b va)) by lia.
  destruct (par n a), (par n b), (par n vb), (par n va), (Nat.ltb b vb), (Nat.ltb a va); reflexivity.
Qed.

Lemma rank_app_low : forall oa ob v, (forall o, In o ob -> v <= o) -> rank (oa ++ ob) v = rank oa v.
Proof.
  intros. unfold rank. rewrite filter_app, app_length. rewrite (filter_false _ ob); [simpl; lia|].
  intros x Hx. apply Nat.ltb_ge. auto.
Qed.
Lemma rank_app_high : forall oa ob v, (forall o, In o oa -> o < v) -> rank (oa ++ ob) v = length oa + rank ob v.
Proof.
  intros. unfold rank. rewrite filter_app, app_length. rewrite (filter_true _ oa); auto.
  intros x Hx. apply Nat.ltb_lt. auto.
Qed.

(** alpha lists hold orbitals below [k], beta lists orbitals from [k] on *)
Lemma vector_two_ab : forall n k oa ob va vb,
  occ_indices (Some n) = oa ++ ob ->
  increasing va -> increasing vb ->
  (forall v, In v va \/ In v vb -> bit n v = false) ->
  (forall o, In o oa \/ In o va -> o < k) -> (forall o, In o ob \/ In o vb -> k <= o) ->
  Forall2 (fun p s => signs_agree n ([fst (fst p); snd (fst p)], [fst (snd p); snd (snd p)]) s)
    (list_prod (list_prod oa ob) (list_prod va vb))
    (sign_excite_two_ab oa ob va vb).
Proof.
  intros n k oa ob va vb E Hva Hvb Hb Lo Hi.
  pose proof (occ_indices_increasing (Some n)) as Io. rewrite E in Io.
  apply increasing_app in Io as (Ia & Ib & _).
  rewrite sign_excite_two_ab_value by auto.
  rewrite !list_prod_flat, flat_map_flat_map.
  apply Forall2_flat_map.
  rewrite <- (nth_seq_map oa) at 1. rewrite <- (map_id (seq 0 (length oa))) at 2.
  apply Forall2_map_same. intros ia Hia. apply in_seq in Hia.
  rewrite flat_map_map. apply Forall2_flat_map.
  rewrite <- (nth_seq_map ob) at 1. rewrite <- (map_id (seq 0 (length ob))) at 2.
  apply Forall2_map_same. intros ib Hib. apply in_seq in Hib.
  rewrite map_flat_map. apply Forall2_flat_map.
  rewrite <- (map_id va) at 1 2. apply Forall2_map_same. intros a Ha.
  rewrite map_map. apply Forall2_map_same. intros b Hb'. unfold signs_agree. cbn [fst snd rev app].
  set (x := nth ia oa 0). set (y := nth ib ob 0).
  assert (Hx : In x oa) by (apply nth_In; lia). assert (Hy : In y ob) by (apply nth_In; lia).
  assert (x < k) by auto. assert (a < k) by auto. assert (k <= y) by auto. assert (k <= b) by auto.
  rewrite sign_excite_eq. cbn [map app].
  destruct (applys_ab n x y a b) as (m & ->); try lia.
  - apply occ_indices_In. rewrite E. apply in_or_app. auto.
  - apply occ_indices_In. rewrite E. apply in_or_app. auto.
  - auto.
  - auto.
  - do 2 f_equal. rewrite !par_rank, E.
    rewrite (rank_app_low oa ob x) by (intros o Ho; specialize (Hi o (or_introl Ho)); lia).
    rewrite (rank_app_low oa ob a) by (intros o Ho; specialize (Hi o (or_introl Ho)); lia).
    rewrite (rank_app_high oa ob y) by (intros o Ho; specialize (Lo o (or_introl Ho)); lia).
    rewrite (rank_app_high oa ob b) by (intros o Ho; specialize (Lo o (or_introl Ho)); lia).
    unfold x, y at 1. rewrite !rank_self by (auto; lia). fold x.
    unfold x, y. rewrite !ltb_rank by (auto; lia). rewrite !Nat.odd_add. unfold par_ab.
    destruct (Nat.odd ia), (Nat.odd ib), (Nat.odd (length oa)), (Nat.odd (rank oa a)),
      (Nat.odd (rank ob b)), (Nat.ltb ia (rank oa a)), (Nat.ltb ib (rank ob b)); reflexivity.
Qed.
