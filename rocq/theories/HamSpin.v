(** The spin-adapted Hamiltonians against the generalized one on expanded integrals. *)
From Coq Require Import List ZArith NArith Bool Lia Arith Permutation Sorted.
From Verif Require Import Py BitSpec BitLemmas Slater SlaterBits SlaterBits2 Fock FockLemmas SignLemmas Alg Combos PermLemmas
  HamSpec HamGen FockInner HamLemmas HamSC HamMain HamRes SpinSpec.
Import ListNotations.

Lemma alpha_ok : forall n i, (i < 2 * n)%nat -> alpha n i = Ok (up n i).
Proof.
  intros n i H. unfold alpha, is_alpha, up.
  destruct (Z.leb_spec (Z.of_nat n) 0); [lia|]. destruct (Z.ltb_spec (Z.of_nat i) 0); [lia|].
  destruct (Z.ltb_spec (2 * Z.of_nat n) (Z.of_nat i)); [lia|]. cbn [orb]. f_equal.
  destruct (Z.ltb_spec (Z.of_nat i) (Z.of_nat n)), (Nat.ltb_spec i n); auto; lia.
Qed.
Lemma spatial_ok : forall n i, (i < 2 * n)%nat -> spatial n i = Ok (place n i).
Proof.
  intros n i H. unfold spatial, spatial_index, place. change (is_alpha (Z.of_nat i) (Z.of_nat n)) with (alpha n i).
  rewrite alpha_ok by auto.
  destruct (Z.leb_spec (Z.of_nat n) 0); [lia|]. destruct (Z.ltb_spec (Z.of_nat i) 0); [lia|].
  destruct (Z.ltb_spec (2 * Z.of_nat n) (Z.of_nat i)); [lia|]. cbn [orb bind].
  destruct (up n i); cbn [bind]; f_equal; lia.
Qed.
Lemma place_lt : forall n i, (i < 2 * n)%nat -> (place n i < n)%nat.
Proof. intros n i H. unfold place, up. destruct (Nat.ltb_spec i n); lia. Qed.
Lemma up_lt : forall n i, (i < n)%nat -> up n i = true.
Proof. intros. unfold up. now apply Nat.ltb_lt. Qed.
Lemma up_ge : forall n i, (n <= i)%nat -> up n i = false.
Proof. intros. unfold up. now apply Nat.ltb_ge. Qed.
Lemma place_low : forall n i, (i < n)%nat -> place n i = i.
Proof. intros. unfold place. now rewrite up_lt. Qed.
Lemma place_high : forall n i, (n <= i)%nat -> place n i = (i - n)%nat.
Proof. intros. unfold place. now rewrite up_ge. Qed.
Lemma place_add : forall n i, place n (i + n) = i.
Proof. intros. rewrite place_high by lia. lia. Qed.

(** occupied orbitals by spin *)
Definition lows (n : nat) (l : list nat) : list nat := filter (fun i => Nat.ltb i n) l.
Definition highs (n : nat) (l : list nat) : list nat := filter (fun i => Nat.leb n i) l.
Lemma lows_highs : forall n l, increasing l -> l = lows n l ++ highs n l.
Proof.
  intros n. induction l as [|x l IH]; intros I; auto. apply SS_cons_inv in I as [I F]. cbn [lows highs filter].
  destruct (Nat.ltb_spec x n), (Nat.leb_spec n x); try lia.
  - cbn [app]. f_equal. auto.
  - assert (E : lows n l = []).
    { apply no_In. intros y Hy. apply filter_In in Hy as [Hy L]. apply Nat.ltb_lt in L. rewrite Forall_forall in F.
      specialize (F y Hy). lia. }
    fold (lows n l). rewrite E. cbn [app]. f_equal. rewrite IH, E by auto. cbn [app]. fold (highs n l).
    clear. unfold highs. induction l as [|y l IH]; auto. cbn [filter]. destruct (Nat.leb n y) eqn:E; auto.
    cbn [filter]. rewrite E. now f_equal.
Qed.
Lemma lows_In : forall n l i, In i (lows n l) <-> In i l /\ (i < n)%nat.
Proof. intros. unfold lows. now rewrite filter_In, Nat.ltb_lt. Qed.
Lemma highs_In : forall n l i, In i (highs n l) <-> In i l /\ (n <= i)%nat.
Proof. intros. unfold highs. now rewrite filter_In, Nat.leb_le. Qed.

Lemma split_occ : forall m n, (0 < n)%nat -> exists a b, split_spin m (Z.of_nat n) = Ok (a, b) /\
  (forall i, bit a i = Nat.ltb i n && bit m i) /\ (forall i, bit b i = bit m (i + n)) /\
  occ_indices (Some a) = lows n (occ_indices (Some m)) /\
  map (fun i => i + n)%nat (occ_indices (Some b)) = highs n (occ_indices (Some m)) /\
  occ_indices (Some b) = map (fun i => i - n)%nat (highs n (occ_indices (Some m))).
Proof.
  intros m n H. destruct (split_spin_ok m (Z.of_nat n)) as (a & b & E & A & B); [lia|]. rewrite Nat2Z.id in *.
  exists a, b. split; auto. split; auto. split; auto.
  assert (HB : map (fun i => i + n)%nat (occ_indices (Some b)) = highs n (occ_indices (Some m))).
  { apply increasing_ext.
    - pose proof (occ_indices_increasing (Some b)) as I. induction I as [|x l I IH F]; cbn [map]; constructor; auto.
      rewrite Forall_map. eapply Forall_impl; [|exact F]. cbn beta. intros; lia.
    - apply increasing_filter, occ_indices_increasing.
    - intros x. rewrite in_map_iff, highs_In, occ_indices_In. split.
      + intros (y & <- & Hy). apply occ_indices_In in Hy. rewrite B in Hy. split; auto. lia.
      + intros [Hx L]. exists (x - n)%nat. split; [lia|]. apply occ_indices_In. rewrite B.
        replace (x - n + n)%nat with x by lia. auto. }
  split; [|split; auto].
  - apply increasing_ext; [apply occ_indices_increasing|apply increasing_filter, occ_indices_increasing|].
    intros x. rewrite lows_In, !occ_indices_In, A, andb_true_iff, Nat.ltb_lt. tauto.
  - rewrite <- HB, map_map. rewrite <- (map_id (occ_indices (Some b))) at 1. apply map_ext. intros; lia.
Qed.

Section Spin.
Context {K : CRing}.
Local Open Scope cr_scope.
Add Ring K_ring16 : (rth K).

(** the generalized Hamiltonian with the expanded integrals *)
Definition gen_of_r (h : rham K) : gham K :=
  cache_two_ints (mkgham (2 * rh_n h) (expand1 (rh_n h) (rh_one h)) (expand2 (rh_n h) (rh_two h))
    (fun _ _ => 0) (fun _ _ => 0)).
Definition gen_of_u (h : uham K) : gham K :=
  cache_two_ints (mkgham (2 * uh_n h) (uexpand1 (uh_n h) (uh_one0 h) (uh_one1 h))
    (uexpand2 (uh_n h) (uh_two0 h) (uh_two1 h) (uh_two2 h)) (fun _ _ => 0) (fun _ _ => 0)).
Definition r_cached (h : rham K) : Prop :=
  forall i j, rh_ijij h i j = rh_two h i j i j /\ rh_ijji h i j = rh_two h i j j i.
Definition u_cached (h : uham K) : Prop :=
  forall i j, uh_0_ijij h i j = uh_two0 h i j i j /\ uh_1_ijij h i j = uh_two1 h i j i j /\
              uh_2_ijij h i j = uh_two2 h i j i j /\ uh_0_ijji h i j = uh_two0 h i j j i /\
              uh_2_ijji h i j = uh_two2 h i j j i.

Lemma pairs_app : forall {A} (l1 l2 : list A) (f : A * A -> K),
  sumf f (pairs (l1 ++ l2)) = sumf f (pairs l1) + sumf f (list_prod l1 l2) + sumf f (pairs l2).
Proof.
  intros A l1 l2 f. induction l1 as [|x l1 IH]; cbn [app pairs list_prod].
  - cbn. ring.
  - change (map (fun y => (x, y)) l2) with (map (pair x) l2). rewrite map_app, !sumf_app, IH. ring.
Qed.
Lemma pairs_In2 : forall {A} (l : list A) p, In p (pairs l) -> In (fst p) l /\ In (snd p) l.
Proof.
  induction l as [|x l IH]; intros p H; [destruct H|]. cbn [pairs] in H. apply in_app_iff in H as [H|H].
  - apply in_map_iff in H as (y & <- & Hy). simpl; auto.
  - apply IH in H. simpl; tauto.
Qed.
Lemma pairs_map : forall {A B} (g : A -> B) (l : list A), pairs (map g l) = map (fun p => (g (fst p), g (snd p))) (pairs l).
Proof.
  induction l as [|x l IH]; auto. cbn [map pairs]. rewrite map_app, !map_map, IH. reflexivity.
Qed.
Lemma sumf_prod : forall {A B} (f : A -> B -> K) l1 l2,
  sumf (fun p => f (fst p) (snd p)) (list_prod l1 l2) = sumf (fun x => sumf (f x) l2) l1.
Proof.
  induction l1 as [|x l1 IH]; intros l2; auto. cbn [list_prod]. rewrite sumf_app, sumf_cons, IH, sumf_map. reflexivity.
Qed.

Lemma zero_dec : forall n (one_a one_b aa ab bb aax bbx : int1 K) (g : gham K) (l : list nat), increasing l ->
  (forall i, In i l -> i < 2 * n)%nat ->
  (forall i, (i < n)%nat -> one_a i i = gh_one g i i) -> (forall i, one_b i i = gh_one g (i + n) (i + n))%nat ->
  (forall i j, (i < n)%nat -> (j < n)%nat -> aa i j = gh_ijij g i j /\ aax i j = gh_ijji g i j) ->
  (forall i j, bb i j = gh_ijij g (i + n) (j + n) /\ bbx i j = gh_ijji g (i + n) (j + n))%nat ->
  (forall i j, (i < n)%nat -> ab i j = gh_ijij g i (j + n)%nat /\ gh_ijji g i (j + n)%nat = 0) ->
  spin_sd_zero n one_a one_b aa ab bb aax bbx (lows n l) (map (fun i => i - n)%nat (highs n l))
  = Ok (sumf (fun i => gh_one g i i) l, sumf (fun p => gh_ijij g (fst p) (snd p)) (pairs l),
        - sumf (fun p => gh_ijji g (fst p) (snd p)) (pairs l)).
Proof.
  intros n one_a one_b aa ab bb aax bbx g l I B Ha Hb Haa Hbb Hab. unfold spin_sd_zero, block_sum.
  assert (L : forall i, In i (lows n l) -> (i < n)%nat) by (intros i Hi; apply lows_In in Hi; tauto).
  assert (H : forall i, In i (highs n l) -> (n <= i < 2 * n)%nat).
  { intros i Hi. apply highs_In in Hi as [Hi ?]. apply B in Hi. lia. }
  rewrite chk_ok.
  2:{ intros i Hi. apply in_app_iff in Hi as [Hi|Hi]; [now apply L|].
      apply in_map_iff in Hi as (x & <- & Hx). apply H in Hx. lia. }
  assert (E : l = lows n l ++ map (fun i => i + n)%nat (map (fun i => i - n)%nat (highs n l))).
  { rewrite (lows_highs n l I) at 1. f_equal. rewrite map_map. rewrite <- (map_id (highs n l)) at 1.
    apply map_ext_in. intros i Hi. apply H in Hi. lia. }
  set (lo := lows n l) in *. set (hl := map (fun i => i - n)%nat (highs n l)) in *. clearbody lo hl. clear H I B. subst l.
  rewrite !psum_sumf, !triu_sum_pairs, !pairs_app, pairs_map, !sumf_app, !sumf_map.
  f_equal. f_equal; [f_equal|].
  - f_equal; apply sumf_ext; intros i Hi; auto.
  - cbn [fst snd].
    rewrite (sumf_ext (fun p => aa (fst p) (snd p)) (fun p => gh_ijij g (fst p) (snd p))).
    2:{ intros p Hp. apply pairs_In2 in Hp as [H1 H2]. apply Haa; apply L; auto. }
    rewrite (sumf_ext (fun p => bb (fst p) (snd p)) (fun p => gh_ijij g (fst p + n) (snd p + n))%nat).
    2:{ intros p Hp. apply Hbb. }
    rewrite (sumf_prod (gh_ijij g)).
    rewrite (sumf_ext (fun x => psum (ab x) hl) (fun x => sumf (gh_ijij g x) (map (fun i => i + n)%nat hl))).
    2:{ intros x Hx. rewrite psum_sumf, sumf_map. apply sumf_ext. intros j Hj. apply Hab. auto. }
    ring.
  - cbn [fst snd].
    rewrite (sumf_ext (fun p => aax (fst p) (snd p)) (fun p => gh_ijji g (fst p) (snd p))).
    2:{ intros p Hp. apply pairs_In2 in Hp as [H1 H2]. apply Haa; apply L; auto. }
    rewrite (sumf_ext (fun p => bbx (fst p) (snd p)) (fun p => gh_ijji g (fst p + n) (snd p + n))%nat).
    2:{ intros p Hp. apply Hbb. }
    rewrite (sumf_prod (gh_ijji g)).
    rewrite (sumf_zero (fun x => sumf (gh_ijji g x) (map (fun i => i + n)%nat hl))).
    2:{ intros x Hx. rewrite sumf_map. apply sumf_zero. intros j Hj. apply Hab. auto. }
    ring.
Qed.

Lemma sum_split : forall n (F : nat -> K) l, increasing l ->
  sumf F l = sumf F (lows n l) + sumf (fun i => F (i + n)%nat) (map (fun i => i - n)%nat (highs n l)).
Proof.
  intros n F l I. rewrite (lows_highs n l I) at 1. rewrite sumf_app, sumf_map. f_equal. apply sumf_ext.
  intros i Hi. apply highs_In in Hi as [_ Hi]. f_equal. lia.
Qed.
Lemma up_add : forall n i, up n (i + n) = false.
Proof. intros. apply up_ge. lia. Qed.

Lemma chk_one : forall {A} n a b l (v : A), (a < 2 * n)%nat -> (b < 2 * n)%nat -> (forall i, In i l -> i < 2 * n)%nat ->
  chk n (place n a :: place n b :: lows n l ++ map (fun i => i - n)%nat (highs n l)) v = Ok v.
Proof.
  intros A n a b l v Ha Hb Hl. apply chk_ok. intros i [<-|[<-|Hi]]; [now apply place_lt|now apply place_lt|].
  apply in_app_iff in Hi as [Hi|Hi].
  - apply lows_In in Hi. tauto.
  - apply in_map_iff in Hi as (x & <- & Hx). apply highs_In in Hx as [Hx ?]. apply Hl in Hx. lia.
Qed.

Lemma r_one_dec : forall (h : rham K) a b l, increasing l -> (forall i, In i l -> i < 2 * rh_n h)%nat ->
  (a < 2 * rh_n h)%nat -> (b < 2 * rh_n h)%nat ->
  r_sd_one h [a] [b] (lows (rh_n h) l) (map (fun i => i - rh_n h)%nat (highs (rh_n h) l))
  = Ok (gh_one (gen_of_r h) a b, sumf (fun i => gh_two (gen_of_r h) i a i b) l,
        - sumf (fun i => gh_two (gen_of_r h) i a b i) l).
Proof.
  intros h a b l I B Ha Hb. unfold r_sd_one. rewrite !spatial_ok, !alpha_ok by auto. cbn [bind].
  rewrite chk_one by auto. rewrite !psum_sumf. rewrite !(sum_split (rh_n h) _ l I).
  set (hl := map (fun i => i - rh_n h)%nat (highs (rh_n h) l)). set (lo := lows (rh_n h) l).
  cbn [gen_of_r cache_two_ints gh_one gh_two]. unfold expand1, expand2.
  assert (L : forall i, In i lo -> up (rh_n h) i = true /\ place (rh_n h) i = i).
  { intros i Hi. apply lows_In in Hi as [_ Hi]. split; [now apply up_lt|now apply place_low]. }
  assert (H : forall i, up (rh_n h) (i + rh_n h) = false /\ place (rh_n h) (i + rh_n h) = i).
  { intros i. split; [apply up_add|apply place_add]. }
  unfold same_spin. destruct (up (rh_n h) a), (up (rh_n h) b); cbn [eqb negb].
  - f_equal. f_equal; [f_equal; f_equal|]; [apply sumf_ext; intros i Hi|apply sumf_ext; intros i Hi|].
    + destruct (L i Hi) as [-> ->]. reflexivity.
    + destruct (H i) as [-> ->]. reflexivity.
    + match goal with |- context [sumf ?f hl] => rewrite (sumf_zero f hl) end.
      2:{ intros i Hi. destruct (H i) as [-> ->]. reflexivity. }
      f_equal. match goal with |- ?x = ?y + 0 => enough (x = y) as -> by ring end.
      apply sumf_ext. intros i Hi. destruct (L i Hi) as [-> ->]. reflexivity.
  - f_equal. unfold t_zero. f_equal; [f_equal|].
    + rewrite !sumf_zero; [ring| |]; intros i Hi; [destruct (H i) as [-> ->]|destruct (L i Hi) as [-> ->]]; reflexivity.
    + rewrite !sumf_zero; [ring| |]; intros i Hi; [destruct (H i) as [-> ->]|destruct (L i Hi) as [-> ->]]; reflexivity.
  - f_equal. unfold t_zero. f_equal; [f_equal|].
    + rewrite !sumf_zero; [ring| |]; intros i Hi; [destruct (H i) as [-> ->]|destruct (L i Hi) as [-> ->]]; reflexivity.
    + rewrite !sumf_zero; [ring| |]; intros i Hi; [destruct (H i) as [-> ->]|destruct (L i Hi) as [-> ->]]; reflexivity.
  - f_equal. f_equal; [f_equal; f_equal|]; [apply sumf_ext; intros i Hi|apply sumf_ext; intros i Hi|].
    + destruct (L i Hi) as [-> ->]. reflexivity.
    + destruct (H i) as [-> ->]. reflexivity.
    + match goal with |- context [sumf ?f lo] => rewrite (sumf_zero f lo) end.
      2:{ intros i Hi. destruct (L i Hi) as [-> ->]. reflexivity. }
      f_equal. match goal with |- ?x = 0 + ?y => enough (x = y) as -> by ring end.
      apply sumf_ext. intros i Hi. destruct (H i) as [-> ->]. reflexivity.
Qed.

Lemma u_one_dec : forall (h : uham K) a b l, increasing l -> (forall i, In i l -> i < 2 * uh_n h)%nat ->
  (a < 2 * uh_n h)%nat -> (b < 2 * uh_n h)%nat ->
  u_sd_one h [a] [b] (lows (uh_n h) l) (map (fun i => i - uh_n h)%nat (highs (uh_n h) l))
  = Ok (gh_one (gen_of_u h) a b, sumf (fun i => gh_two (gen_of_u h) i a i b) l,
        - sumf (fun i => gh_two (gen_of_u h) i a b i) l).
Proof.
  intros h a b l I B Ha Hb. unfold u_sd_one. rewrite !spatial_ok, !alpha_ok by auto. cbn [bind].
  rewrite chk_one by auto. rewrite !psum_sumf. rewrite !(sum_split (uh_n h) _ l I).
  set (hl := map (fun i => i - uh_n h)%nat (highs (uh_n h) l)). set (lo := lows (uh_n h) l).
  cbn [gen_of_u cache_two_ints gh_one gh_two]. unfold uexpand1, uexpand2.
  assert (L : forall i, In i lo -> up (uh_n h) i = true /\ place (uh_n h) i = i).
  { intros i Hi. apply lows_In in Hi as [_ Hi]. split; [now apply up_lt|now apply place_low]. }
  assert (H : forall i, up (uh_n h) (i + uh_n h) = false /\ place (uh_n h) (i + uh_n h) = i).
  { intros i. split; [apply up_add|apply place_add]. }
  unfold same_spin. destruct (up (uh_n h) a), (up (uh_n h) b); cbn [eqb negb].
  - f_equal. f_equal; [f_equal; f_equal|]; [apply sumf_ext; intros i Hi|apply sumf_ext; intros i Hi|].
    + destruct (L i Hi) as [-> ->]. reflexivity.
    + destruct (H i) as [-> ->]. reflexivity.
    + match goal with |- context [sumf ?f hl] => rewrite (sumf_zero f hl) end.
      2:{ intros i Hi. destruct (H i) as [-> ->]. reflexivity. }
      f_equal. match goal with |- ?x = ?y + 0 => enough (x = y) as -> by ring end.
      apply sumf_ext. intros i Hi. destruct (L i Hi) as [-> ->]. reflexivity.
  - f_equal. unfold t_zero. f_equal; [f_equal|].
    + rewrite !sumf_zero; [ring| |]; intros i Hi; [destruct (H i) as [-> ->]|destruct (L i Hi) as [-> ->]]; reflexivity.
    + rewrite !sumf_zero; [ring| |]; intros i Hi; [destruct (H i) as [-> ->]|destruct (L i Hi) as [-> ->]]; reflexivity.
  - f_equal. unfold t_zero. f_equal; [f_equal|].
    + rewrite !sumf_zero; [ring| |]; intros i Hi; [destruct (H i) as [-> ->]|destruct (L i Hi) as [-> ->]]; reflexivity.
    + rewrite !sumf_zero; [ring| |]; intros i Hi; [destruct (H i) as [-> ->]|destruct (L i Hi) as [-> ->]]; reflexivity.
  - f_equal. f_equal; [f_equal; f_equal|]; [apply sumf_ext; intros i Hi|apply sumf_ext; intros i Hi|].
    + destruct (L i Hi) as [-> ->]. reflexivity.
    + destruct (H i) as [-> ->]. reflexivity.
    + match goal with |- context [sumf ?f lo] => rewrite (sumf_zero f lo) end.
      2:{ intros i Hi. destruct (L i Hi) as [-> ->]. reflexivity. }
      f_equal. match goal with |- ?x = 0 + ?y => enough (x = y) as -> by ring end.
      apply sumf_ext. intros i Hi. destruct (H i) as [-> ->]. reflexivity.
Qed.

Lemma r_two_dec : forall (h : rham K) a b c d, (forall i, In i [a; b; c; d] -> i < 2 * rh_n h)%nat ->
  r_sd_two h [a; b] [c; d] = Ok (0, gh_two (gen_of_r h) a b c d, - gh_two (gen_of_r h) a b d c).
Proof.
  intros h a b c d H.
  assert (Ha : (a < 2 * rh_n h)%nat) by (apply H; simpl; auto).
  assert (Hb : (b < 2 * rh_n h)%nat) by (apply H; simpl; auto).
  assert (Hc : (c < 2 * rh_n h)%nat) by (apply H; simpl; auto).
  assert (Hd : (d < 2 * rh_n h)%nat) by (apply H; simpl; auto).
  unfold r_sd_two. cbv zeta. rewrite !spatial_ok, !alpha_ok by auto. cbn [bind].
  assert (C : forall v : K, chk (rh_n h) [place (rh_n h) a; place (rh_n h) b; place (rh_n h) c; place (rh_n h) d] v = Ok v).
  { intros v. apply chk_ok. intros i [<-|[<-|[<-|[<-|[]]]]]; now apply place_lt. }
  rewrite !C. cbn [gen_of_r cache_two_ints gh_two]. unfold expand2, same_spin.
  destruct (up (rh_n h) a), (up (rh_n h) b), (up (rh_n h) c), (up (rh_n h) d); cbn [eqb andb bind];
    f_equal; f_equal; ring.
Qed.

Lemma u_two_dec : forall (h : uham K) a b c d, (forall i, In i [a; b; c; d] -> i < 2 * uh_n h)%nat ->
  u_sd_two h [a; b] [c; d] = Ok (0, gh_two (gen_of_u h) a b c d, - gh_two (gen_of_u h) a b d c).
Proof.
  intros h a b c d H.
  assert (Ha : (a < 2 * uh_n h)%nat) by (apply H; simpl; auto).
  assert (Hb : (b < 2 * uh_n h)%nat) by (apply H; simpl; auto).
  assert (Hc : (c < 2 * uh_n h)%nat) by (apply H; simpl; auto).
  assert (Hd : (d < 2 * uh_n h)%nat) by (apply H; simpl; auto).
  unfold u_sd_two. cbv zeta. rewrite (alpha_ok _ a), (alpha_ok _ b) by auto. cbn [bind].
  assert (C : forall (v : K) a b c d, (a < 2 * uh_n h)%nat -> (b < 2 * uh_n h)%nat -> (c < 2 * uh_n h)%nat -> (d < 2 * uh_n h)%nat ->
     chk (uh_n h) [place (uh_n h) a; place (uh_n h) b; place (uh_n h) c; place (uh_n h) d] v = Ok v).
  { intros. apply chk_ok. intros i [<-|[<-|[<-|[<-|[]]]]]; now apply place_lt. }
  cbn [gen_of_u cache_two_ints gh_two]. unfold uexpand2, same_spin.
  destruct (up (uh_n h) a) eqn:Ua, (up (uh_n h) b) eqn:Ub; cbn [andb negb];
    rewrite !spatial_ok, !alpha_ok by auto; cbn [bind]; rewrite !C by auto; rewrite ?Ua, ?Ub;
    destruct (up (uh_n h) c), (up (uh_n h) d); cbn [eqb andb bind];
    f_equal; f_equal; ring.
Qed.

Lemma spin_decomposed_eq : forall n (g : gham K) zero one two m1 m2, (0 < n)%nat -> gh_n g = (2 * n)%nat ->
  fits m1 (2 * n) -> fits m2 (2 * n) -> ~ (m1 = 0%N /\ m2 = 0%N) ->
  (forall l, increasing l -> (forall i, In i l -> i < 2 * n)%nat ->
     zero (lows n l) (map (fun i => i - n)%nat (highs n l))
     = Ok (sumf (fun i => gh_one g i i) l, sumf (fun p => gh_ijij g (fst p) (snd p)) (pairs l),
        - sumf (fun p => gh_ijji g (fst p) (snd p)) (pairs l))) ->
  (forall a b l, increasing l -> (forall i, In i l -> i < 2 * n)%nat -> (a < 2 * n)%nat -> (b < 2 * n)%nat ->
     one [a] [b] (lows n l) (map (fun i => i - n)%nat (highs n l))
     = Ok (gh_one g a b, sumf (fun i => gh_two g i a i b) l, - sumf (fun i => gh_two g i a b i) l)) ->
  (forall a b c d, (forall i, In i [a; b; c; d] -> i < 2 * n)%nat ->
     two [a; b] [c; d] = Ok (0, gh_two g a b c d, - gh_two g a b d c)) ->
  spin_decomposed n zero one two m1 m2 = integrate_sd_sd_decomposed g m1 m2.
Proof.
  intros n g zero one two m1 m2 N G F1 F2 Z H0 H1 H2. unfold spin_decomposed.
  destruct (split_occ (shared_sd m1 m2) n N) as (x & y & Es & _ & _ & Ex & _ & Ey). rewrite Es. cbn [bind fst snd]. rewrite Ex, Ey.
  change (occ_indices (Some (shared_sd m1 m2))) with (shared_orbs m1 m2).
  assert (SI : increasing (shared_orbs m1 m2)) by apply occ_indices_increasing.
  assert (SB : forall i, In i (shared_orbs m1 m2) -> (i < 2 * n)%nat).
  { intros i Hi. apply shared_orbs_In in Hi as [Hi _]. exact (fits_lt _ _ _ F1 Hi). }
  destruct (sign_code m1 m2) as (s & E1 & E2).
  destruct (diff_cases m1 m2) as [->|[(a & b & D)|[(a & b & c & d & D)|H]]].
  - unfold integrate_sd_sd_decomposed. rewrite diff_same in *. cbn [fst snd length Nat.eqb negb Nat.ltb Nat.leb rev] in *.
    rewrite E1. cbn [bind]. rewrite H0 by auto. rewrite shared_same in *.
    assert (M : m2 <> 0%N) by tauto.
    assert (L : length (occ_indices (Some m2)) <> 0%nat).
    { intros L. apply length_zero_iff_nil in L. apply M. apply bit_ext. intros i. rewrite bit_0.
      destruct (bit m2 i) eqn:B; auto. apply occ_indices_In in B. rewrite L in B. destruct B. }
    destruct (Nat.eqb_spec (length (occ_indices (Some m2))) 0) as [X|X]; [contradiction|]. cbn [negb andb].
    unfold sd_sd_zero. rewrite chk_ok by (rewrite G; auto). now rewrite !psum_sumf, !triu_sum_pairs.
  - unfold integrate_sd_sd_decomposed. rewrite D in *. cbn [fst snd length Nat.eqb negb Nat.ltb Nat.leb andb] in *.
    rewrite E1. cbn [bind].
    assert (A : (a < 2 * n)%nat).
    { assert (In a (fst (diff_orbs m1 m2))) as A by (rewrite D; now left). apply diff_orbs_In1 in A as [A _].
      exact (fits_lt _ _ _ F1 A). }
    assert (B : (b < 2 * n)%nat).
    { assert (In b (snd (diff_orbs m1 m2))) as B by (rewrite D; now left). apply diff_orbs_In2 in B as [B _].
      exact (fits_lt _ _ _ F2 B). }
    rewrite H1 by auto. unfold sd_sd_one. rewrite chk_ok; [now rewrite !psum_sumf|].
    rewrite G. intros i [<-|[<-|Hi]]; auto.
  - unfold integrate_sd_sd_decomposed. rewrite D in *. cbn [fst snd length Nat.eqb negb Nat.ltb Nat.leb andb] in *.
    rewrite E1. cbn [bind].
    assert (HA : forall x, In x [a; b] -> (x < 2 * n)%nat).
    { intros i Hx. change [a; b] with (fst ([a; b], [c; d])) in Hx. rewrite <- D in Hx.
      apply diff_orbs_In1 in Hx as [Hx _]. exact (fits_lt _ _ _ F1 Hx). }
    assert (HB : forall x, In x [c; d] -> (x < 2 * n)%nat).
    { intros i Hx. change [c; d] with (snd ([a; b], [c; d])) in Hx. rewrite <- D in Hx.
      apply diff_orbs_In2 in Hx as [Hx _]. exact (fits_lt _ _ _ F2 Hx). }
    assert (HAB : forall i, In i [a; b; c; d] -> (i < 2 * n)%nat).
    { intros i [<-|[<-|[<-|[<-|[]]]]]; solve [apply HA; simpl; auto | apply HB; simpl; auto]. }
    rewrite H2 by auto. unfold sd_sd_two. rewrite chk_ok; [reflexivity|]. now rewrite G.
  - rewrite (dec_far g) by auto. destruct (diff_orbs m1 m2) as [d1 d2]. cbn [fst snd] in H.
    destruct (Nat.eqb_spec (length d1) (length d2)) as [E|E]; cbn [negb]; auto.
    destruct (Nat.ltb_spec 2 (length d1)); auto. lia.
Qed.

Theorem r_decomposed_eq : forall (h : rham K) m n, r_cached h -> (0 < rh_n h)%nat ->
  fits m (2 * rh_n h) -> fits n (2 * rh_n h) -> ~ (m = 0%N /\ n = 0%N) ->
  r_decomposed h m n = integrate_sd_sd_decomposed (gen_of_r h) m n.
Proof.
  intros h m n C P F1 F2 Z. apply spin_decomposed_eq; auto.
  - intros l I B. apply zero_dec; auto; intros; cbn [gen_of_r cache_two_ints gh_one gh_ijij gh_ijji gh_two];
      unfold expand1, expand2, same_spin;
      repeat first [rewrite up_add | rewrite up_lt by auto | rewrite place_add | rewrite place_low by auto]; cbn [eqb andb];
      try split; auto; apply C.
  - intros. now apply r_one_dec.
  - intros. now apply r_two_dec.
Qed.
Theorem u_decomposed_eq : forall (h : uham K) m n, u_cached h -> (0 < uh_n h)%nat ->
  fits m (2 * uh_n h) -> fits n (2 * uh_n h) -> ~ (m = 0%N /\ n = 0%N) ->
  u_decomposed h m n = integrate_sd_sd_decomposed (gen_of_u h) m n.
Proof.
  intros h m n C P F1 F2 Z. apply spin_decomposed_eq; auto.
  - intros l I B. apply zero_dec; auto; intros; cbn [gen_of_u cache_two_ints gh_one gh_ijij gh_ijji gh_two];
      unfold uexpand1, uexpand2, same_spin;
      repeat first [rewrite up_add | rewrite up_lt by auto | rewrite place_add | rewrite place_low by auto]; cbn [eqb andb];
      try split; auto; apply C.
  - intros. now apply u_one_dec.
  - intros. now apply u_two_dec.
Qed.

Lemma spin_vacuum : forall n zero one two, (0 < n)%nat -> zero [] [] = Ok t_zero ->
  spin_decomposed (K := K) n zero one two 0 0 = Ok t_zero.
Proof.
  intros n zero one two N H. unfold spin_decomposed.
  destruct (split_occ (shared_sd 0 0) n N) as (x & y & Es & _ & _ & Ex & _ & Ey). rewrite Es. cbn [bind fst snd]. rewrite Ex, Ey.
  cbn. change (lows n []) with (@nil nat). rewrite H. cbn [bind]. f_equal. unfold t_scale, t_zero. f_equal; [f_equal|]; ring.
Qed.
Lemma r_vacuum : forall (h : rham K), (0 < rh_n h)%nat -> r_decomposed h 0 0 = Ok t_zero.
Proof.
  intros h N. apply spin_vacuum; auto. unfold r_sd_zero, spin_sd_zero. cbn. unfold t_zero, block_sum, triu_sum. cbn. f_equal. f_equal; [f_equal|]; ring.
Qed.
Lemma u_vacuum : forall (h : uham K), (0 < uh_n h)%nat -> u_decomposed h 0 0 = Ok t_zero.
Proof.
  intros h N. apply spin_vacuum; auto. unfold u_sd_zero, spin_sd_zero. cbn. unfold t_zero, block_sum, triu_sum. cbn. f_equal. f_equal; [f_equal|]; ring.
Qed.

(** symmetry of the expansion *)
Lemma expand2_sym : forall k (two : int2 K), two_sym two -> two_sym (expand2 k two).
Proof.
  intros k two S i j p q. unfold expand2. rewrite (andb_comm (same_spin k j q)).
  destruct (_ && _); auto.
Qed.
Lemma uexpand2_sym : forall k (aa ab bb : int2 K), two_sym aa -> two_sym bb -> two_sym (uexpand2 k aa ab bb).
Proof.
  intros k aa ab bb A B i j p q. unfold uexpand2. rewrite (andb_comm (same_spin k j q)).
  destruct (_ && _); auto. destruct (up k i), (up k j); auto.
Qed.
End Spin.
