(** Projection onto a determinant for the spin-adapted Hamiltonians. *)
From Coq Require Import List ZArith NArith Bool Lia Arith Permutation Sorted.
From Verif Require Import Py BitSpec BitLemmas Slater SlaterBits SlaterBits2 Fock FockLemmas SignLemmas Alg Combos BulkLemmas BulkAB
  SignVec2 PermLemmas HamSpec HamGen FockInner HamLemmas HamSC HamMain HamWfn HamRes SpinSpec HamSpin HamSpinSign.
Import ListNotations.

Lemma Forall2_imp' : forall {A B} (P Q : A -> B -> Prop) l l', (forall x y, In x l -> P x y -> Q x y) ->
  Forall2 P l l' -> Forall2 Q l l'.
Proof.
  intros A B P Q l l' H F. induction F; constructor.
  - apply H; auto. now left.
  - apply IHF. intros; apply H; auto. now right.
Qed.
Lemma Forall2_map_l : forall {A B C} (P : B -> C -> Prop) (f : A -> B) l l',
  Forall2 (fun x y => P (f x) y) l l' -> Forall2 P (map f l) l'.
Proof. intros A B C P f l l' F. induction F; constructor; auto. Qed.

Definition up_pair (n : nat) (p : list nat * list nat) : list nat * list nat :=
  (map (fun i => i + n)%nat (fst p), map (fun i => i + n)%nat (snd p)).

Lemma lows_filter : forall n P l, lows n (filter P l) = filter P (lows n l).
Proof.
  intros. unfold lows. induction l as [|x l IH]; auto. cbn [filter].
  destruct (P x) eqn:E1, (Nat.ltb x n) eqn:E2; cbn [filter]; rewrite ?E1, ?E2, ?IH; auto.
Qed.
Lemma highs_filter : forall n P l, highs n (filter P l) = filter P (highs n l).
Proof.
  intros. unfold highs. induction l as [|x l IH]; auto. cbn [filter].
  destruct (P x) eqn:E1, (Nat.leb n x) eqn:E2; cbn [filter]; rewrite ?E1, ?E2, ?IH; auto.
Qed.
Lemma filter_all : forall {A} (P : A -> bool) l, (forall x, In x l -> P x = true) -> filter P l = l.
Proof.
  induction l as [|x l IH]; intros H; auto. cbn [filter]. rewrite H by now left. f_equal. apply IH. intros; apply H; now right.
Qed.
Lemma filter_map_comm : forall {A B} (P : B -> bool) (g : A -> B) l, filter P (map g l) = map g (filter (fun x => P (g x)) l).
Proof. induction l as [|x l IH]; auto. cbn [map filter]. destruct (P (g x)); cbn [map]; now rewrite IH. Qed.

Section Moved.
Context {K : CRing}.
Local Open Scope cr_scope.
Add Ring K_ring17 : (rth K).

Lemma dec_one_moved : forall (g : gham K) m a c s, fits m (gh_n g) -> bit m a = true -> bit m c = false -> (c < gh_n g)%nat ->
  signs_agree m ([a], [c]) s ->
  let sh := filter (fun x => negb (setbits [a] x)) (occ_indices (Some m)) in
  decT g m (moved m [a] [c]) = t_scale (sgnr s)
    (gh_one g a c, sumf (fun i => gh_two g i a i c) sh, - sumf (fun i => gh_two g i a c i) sh).
Proof.
  intros g m a c s F Ha Hc Hn R sh.
  unfold signs_agree in R. cbn [fst snd] in R.
  assert (Ha' : forall i, In i [a] -> bit m i = true) by (intros i [<-|[]]; auto).
  assert (Hc' : forall i, In i [c] -> bit m i = false) by (intros i [<-|[]]; auto).
  assert (I1 : forall x, increasing [x]) by (intros; repeat constructor).
  unfold decT, integrate_sd_sd_decomposed. rewrite moved_diff, moved_shared by auto. fold sh.
  cbn [length Nat.eqb negb Nat.ltb Nat.leb andb]. rewrite R. cbn [bind].
  unfold sd_sd_one. rewrite chk_ok; [cbn [bind value3]; now rewrite !psum_sumf|].
  intros i [<-|[<-|Hi]]; auto.
  - exact (fits_lt _ _ _ F Ha).
  - apply filter_In in Hi as [Hi _]. apply occ_indices_In in Hi. exact (fits_lt _ _ _ F Hi).
Qed.
Lemma dec_two_moved : forall (g : gham K) m a b c d s, fits m (gh_n g) -> bit m a = true -> bit m b = true ->
  bit m c = false -> bit m d = false -> (a < b)%nat -> (c < d)%nat -> (d < gh_n g)%nat ->
  signs_agree m ([a; b], [c; d]) s ->
  decT g m (moved m [a; b] [c; d]) = t_scale (sgnr s) (0, gh_two g a b c d, - gh_two g a b d c).
Proof.
  intros g m a b c d s F Ha Hb Hc Hd Lab Lcd Hn R.
  unfold signs_agree in R. cbn [fst snd] in R.
  assert (Ha' : forall i, In i [a; b] -> bit m i = true) by (intros i [<-|[<-|[]]]; auto).
  assert (Hc' : forall i, In i [c; d] -> bit m i = false) by (intros i [<-|[<-|[]]]; auto).
  assert (I1 : forall x y, (x < y)%nat -> increasing [x; y]) by (intros; repeat constructor; auto).
  unfold decT, integrate_sd_sd_decomposed. rewrite moved_diff by auto.
  cbn [length Nat.eqb negb Nat.ltb Nat.leb andb]. rewrite R. cbn [bind].
  unfold sd_sd_two. rewrite chk_ok; [reflexivity|].
  intros i [<-|[<-|[<-|[<-|[]]]]]; [exact (fits_lt _ _ _ F Ha)|exact (fits_lt _ _ _ F Hb)|lia|auto].
Qed.
End Moved.

Section SpinWfn.
Context {K : CRing}.
Local Open Scope cr_scope.
Add Ring K_ring18 : (rth K).
Variable h : uham K.
Notation n := (uh_n h).
Hypothesis Pos : (0 < n)%nat.
Notation g := (gen_of_u h).
Variable m : N.
Hypothesis F : fits m (2 * n).

Notation occs := (occ_indices (Some m)).
Notation virs := (vir_indices (Some m) (Z.of_nat (2 * n))).
Notation oa := (lows n occs).
Notation va := (lows n virs).
Notation ob := (highs n occs).
Notation vb := (highs n virs).
Notation dn := (map (fun i => (i - n)%nat)).
Notation mv := (fun p => moved m (fst p) (snd p)).
Notation block o v k := (list_prod (combinations o k) (combinations v k)).

Lemma oa_In : forall i, In i oa <-> (i < n)%nat /\ bit m i = true.
Proof. intros. rewrite lows_In, occ_indices_In. tauto. Qed.
Lemma ob_In : forall i, In i ob <-> (n <= i)%nat /\ bit m i = true.
Proof. intros. rewrite highs_In, occ_indices_In. tauto. Qed.
Lemma virs_In : forall i, In i virs <-> (i < 2 * n)%nat /\ bit m i = false.
Proof. intros. exact (vir_In g m i). Qed.
Lemma va_In : forall i, In i va <-> (i < n)%nat /\ bit m i = false.
Proof. intros. rewrite lows_In, virs_In. split; intros; [tauto|]. repeat split; try tauto; lia. Qed.
Lemma vb_In : forall i, In i vb <-> (n <= i < 2 * n)%nat /\ bit m i = false.
Proof. intros. rewrite highs_In, virs_In. tauto. Qed.
Lemma occs_incr : increasing occs. Proof. apply occ_indices_increasing. Qed.
Lemma virs_incr : increasing virs. Proof. exact (vir_incr g m). Qed.
Lemma oa_incr : increasing oa. Proof. apply increasing_filter, occs_incr. Qed.
Lemma ob_incr : increasing ob. Proof. apply increasing_filter, occs_incr. Qed.
Lemma va_incr : increasing va. Proof. apply increasing_filter, virs_incr. Qed.
Lemma vb_incr : increasing vb. Proof. apply increasing_filter, virs_incr. Qed.
Lemma dn_incr : forall l, increasing l -> (forall i, In i l -> (n <= i)%nat) -> increasing (dn l).
Proof.
  induction l as [|x l IH]; intros I H; [constructor|]. apply SS_cons_inv in I as [I G]. cbn [map]. constructor.
  - apply IH; auto. intros; apply H; now right.
  - rewrite Forall_map. rewrite Forall_forall in *. intros y Hy. specialize (G y Hy).
    specialize (H x (or_introl eq_refl)). lia.
Qed.
Lemma up_dn : forall l, (forall i, In i l -> (n <= i)%nat) -> map (fun i => i + n)%nat (dn l) = l.
Proof.
  intros l H. rewrite map_map. rewrite <- (map_id l) at 2. apply map_ext_in. intros i Hi. apply H in Hi. lia.
Qed.
Lemma ob_up : map (fun i => i + n)%nat (dn ob) = ob.
Proof. apply up_dn. intros i Hi. apply ob_In in Hi. tauto. Qed.
Lemma vb_up : map (fun i => i + n)%nat (dn vb) = vb.
Proof. apply up_dn. intros i Hi. apply vb_In in Hi. lia. Qed.
Lemma dvb_In : forall i, In i (dn vb) -> (i < n)%nat /\ bit m (i + n) = false.
Proof.
  intros i Hi. apply in_map_iff in Hi as (x & <- & Hx). apply vb_In in Hx as [L B]. split; [lia|].
  replace (x - n + n)%nat with x by lia. auto.
Qed.
Lemma dob_In : forall i, In i (dn ob) -> (i < n)%nat /\ bit m (i + n) = true.
Proof.
  intros i Hi. apply in_map_iff in Hi as (x & <- & Hx). apply ob_In in Hx as [L B].
  assert (x < 2 * n)%nat by exact (fits_lt _ _ _ F B). split; [lia|].
  replace (x - n + n)%nat with x by lia. auto.
Qed.

Lemma block_In : forall o v k a c, increasing o -> increasing v -> In (a, c) (block o v k) ->
  increasing a /\ increasing c /\ length a = k /\ length c = k /\ incl a o /\ incl c v.
Proof.
  intros o v k a c Io Iv H. apply in_prod_iff in H as [Ha Hc].
  apply combinations_increasing_In in Ha as (A1 & A2 & A3); auto.
  apply combinations_increasing_In in Hc as (C1 & C2 & C3); auto.
  repeat split; auto.
Qed.

(** signs within one spin *)
Lemma low_signs : forall k ss a, (forall i, bit a i = Nat.ltb i n && bit m i) ->
  Forall2 (signs_agree a) (block oa va k) ss -> Forall2 (signs_agree m) (block oa va k) ss.
Proof.
  intros k ss a A. apply Forall2_imp'. intros [x y] s Hp R. unfold signs_agree in *. cbn [fst snd] in *.
  apply block_In in Hp as (_ & _ & _ & _ & Hx & Hy); auto using oa_incr, va_incr.
  rewrite <- R. apply (sign_low n).
  - intros i L. rewrite A. now rewrite (proj2 (Nat.ltb_lt i n) L).
  - intros i Hi. apply Hx, oa_In in Hi. tauto.
  - intros i Hi. apply in_rev in Hi. apply Hy, va_In in Hi. tauto.
Qed.
Lemma high_signs : forall k ss b, (forall i, bit b i = bit m (i + n)) ->
  Forall2 (signs_agree b) (block (dn ob) (dn vb) k) ss ->
  Forall2 (fun p => signs_agree m (up_pair n p)) (block (dn ob) (dn vb) k) ss.
Proof.
  intros k ss b B. apply Forall2_imp'. intros [x y] s Hp R. unfold signs_agree in *. cbn [fst snd up_pair] in *.
  apply block_In in Hp as (_ & _ & Lx & Ly & _ & _).
  - rewrite <- map_rev, <- R. apply sign_high; auto. rewrite rev_length. congruence.
  - apply dn_incr; [apply ob_incr|]. intros i Hi. apply ob_In in Hi. tauto.
  - apply dn_incr; [apply vb_incr|]. intros i Hi. apply vb_In in Hi. lia.
Qed.
Lemma up_block : forall k, map (up_pair n) (block (dn ob) (dn vb) k) = block ob vb k.
Proof.
  intros k. unfold up_pair. rewrite <- (list_prod_map (map (fun i => i + n)%nat) (map (fun i => i + n)%nat)).
  rewrite <- !combinations_map, ob_up, vb_up. reflexivity.
Qed.

Lemma sign_times_gen : forall {A} (L : list A) signs (T D : A -> triple K) (R : A -> Z -> Prop),
  Forall2 R L signs -> (forall p s, In p L -> R p s -> t_scale (sgnr s) (T p) = D p) ->
  sign_times signs (map T L) = map D L.
Proof.
  intros A L signs T D R G H. unfold sign_times. induction G as [|p s L signs X G IH]; auto.
  cbn [map combine fst snd]. f_equal.
  - apply H; auto. now left.
  - apply IH. intros; apply H; auto. now right.
Qed.

(** shape of the ravelled arrays of single excitations *)
Lemma one_shape : forall (T : nat -> nat -> list nat -> triple K) o v, increasing o ->
  flat_map (fun k => let a := nth k o 0%nat in let sh := nth k (shared_indices_remove_one_index o) [] in
                     map (fun w => T a w sh) v) (seq 0 (length o))
  = map (fun p => let a := nth 0 (fst p) 0%nat in let w := nth 0 (snd p) 0%nat in
                  T a w (filter (fun x => negb (setbits [a] x)) o)) (block o v 1).
Proof.
  intros T o v I. rewrite !combinations_1, list_prod_map, map_map, map_list_prod. cbn [fst snd nth].
  match goal with |- _ = flat_map ?G o =>
    transitivity (flat_map G (map (fun k => nth k o 0%nat) (seq 0 (length o)))); [|now rewrite nth_map_seq] end.
  rewrite flat_map_map. apply flat_map_ext'. intros k Hk. apply in_seq in Hk. cbv zeta.
  apply map_ext. intros w. f_equal.
  unfold shared_indices_remove_one_index.
  rewrite (nth_indep _ [] (remove_at o 0)) by (rewrite map_length, seq_length; lia).
  rewrite map_nth, seq_nth by lia. cbn [plus]. rewrite remove_at_filter by (auto; lia). reflexivity.
Qed.

Lemma shared_low : forall a, (a < n)%nat -> 
  lows n (filter (fun x => negb (setbits [a] x)) occs) = filter (fun x => negb (setbits [a] x)) oa /\
  highs n (filter (fun x => negb (setbits [a] x)) occs) = ob.
Proof.
  intros a L. rewrite lows_filter, highs_filter. split; auto. apply filter_all. intros x Hx.
  apply ob_In in Hx as [Hx _]. rewrite setbits_cons, setbits_nil. destruct (Nat.eqb_spec x a) as [U|U]; auto. lia.
Qed.
Lemma shared_high : forall b, 
  lows n (filter (fun x => negb (setbits [b + n]%nat x)) occs) = oa /\
  dn (highs n (filter (fun x => negb (setbits [b + n]%nat x)) occs)) = filter (fun x => negb (setbits [b] x)) (dn ob).
Proof.
  intros b. rewrite lows_filter, highs_filter. split.
  - apply filter_all. intros x Hx. apply oa_In in Hx as [Hx _]. rewrite setbits_cons, setbits_nil.
    destruct (Nat.eqb_spec x (b + n)) as [U|U]; auto. lia.
  - rewrite filter_map_comm. f_equal. apply filter_ext_in. intros x Hx. apply ob_In in Hx as [Hx _].
    rewrite !setbits_cons, !setbits_nil. destruct (Nat.eqb_spec x (b + n)) as [U|U], (Nat.eqb_spec (x - n) b) as [V|V]; auto; lia.
Qed.
Lemma occs_bound : forall P i, In i (filter P occs) -> (i < 2 * n)%nat.
Proof. intros P i Hi. apply filter_In in Hi as [Hi _]. apply occ_indices_In in Hi. exact (fits_lt _ _ _ F Hi). Qed.

Lemma one_alpha_dec : spin_sds_one_alpha (uh_one0 h) (uh_two0 h) (uh_two1 h) oa (dn ob) va
  = map (fun p => decT g m (mv p)) (block oa va 1).
Proof.
  unfold spin_sds_one_alpha. cbv zeta.
  rewrite (one_shape (fun a w sh => (uh_one0 h a w,
      psum (fun s => uh_two0 h s a s w) sh + psum (fun b => uh_two1 h a b w b) (dn ob),
      - psum (fun s => uh_two0 h s a w s) sh))) by apply oa_incr.
  destruct (split_occ m n Pos) as (x & y & _ & Bx & _ & Ex & _ & _).
  apply (sign_times_gen _ _ _ _ (signs_agree m)).
  - apply (low_signs 1 _ x Bx). rewrite <- Ex. apply vector_one; [apply va_incr|].
    intros v Hv. apply va_In in Hv as [L B]. rewrite Bx, B. apply andb_false_r.
  - intros [a c] s Hp R. apply block_In in Hp as (_ & _ & La & Lc & Ha & Hc); auto using oa_incr, va_incr.
    destruct a as [|a []]; try discriminate. destruct c as [|c []]; try discriminate. cbn [fst snd nth].
    assert (Aa : In a oa) by (apply Ha; now left). assert (Cc : In c va) by (apply Hc; now left).
    apply oa_In in Aa as [La1 Ba]. apply va_In in Cc as [Lc1 Bc].
    rewrite (dec_one_moved g m a c s); auto; [|cbn; lia]. f_equal.
    destruct (shared_low a La1) as [E1 E2].
    assert (X := u_one_dec h a c (filter (fun x => negb (setbits [a] x)) occs)).
    rewrite E1, E2 in X. unfold u_sd_one in X. rewrite !spatial_ok, !alpha_ok in X by lia.
    rewrite !up_lt, !place_low in X by lia. cbn [bind eqb negb] in X. rewrite chk_ok in X.
    + apply Ok_inj in X; auto; try lia.
      * apply increasing_filter, occs_incr.
      * apply occs_bound.
    + intros i [<-|[<-|Hi]]; auto. apply in_app_iff in Hi as [Hi|Hi].
      * apply filter_In in Hi as [Hi _]. apply oa_In in Hi. tauto.
      * apply dob_In in Hi. tauto.
Qed.

Lemma one_beta_dec : spin_sds_one_beta (uh_one1 h) (uh_two2 h) (uh_two1 h) oa (dn ob) (dn vb)
  = map (fun p => decT g m (mv p)) (block ob vb 1).
Proof.
  unfold spin_sds_one_beta. cbv zeta.
  assert (Iob : increasing (dn ob)) by (apply dn_incr; [apply ob_incr|]; intros i Hi; apply ob_In in Hi; tauto).
  assert (Ivb : increasing (dn vb)) by (apply dn_incr; [apply vb_incr|]; intros i Hi; apply vb_In in Hi; lia).
  rewrite (one_shape (fun b w sh => (uh_one1 h b w,
      psum (fun s => uh_two2 h s b s w) sh + psum (fun a => uh_two1 h a b a w) oa,
      - psum (fun s => uh_two2 h s b w s) sh))) by auto.
  destruct (split_occ m n Pos) as (x & y & _ & _ & By & _ & _ & Ey).
  rewrite <- up_block, map_map.
  apply (sign_times_gen _ _ _ _ (fun p => signs_agree m (up_pair n p))).
  - apply (high_signs 1 _ y By). rewrite <- Ey. apply vector_one; auto.
    intros v Hv. apply dvb_In in Hv as [L B]. now rewrite By.
  - intros [a c] s Hp R. apply block_In in Hp as (_ & _ & La & Lc & Ha & Hc); auto.
    destruct a as [|a []]; try discriminate. destruct c as [|c []]; try discriminate. cbn [fst snd nth up_pair map] in *.
    assert (Aa : In a (dn ob)) by (apply Ha; now left). assert (Cc : In c (dn vb)) by (apply Hc; now left).
    apply dob_In in Aa as [La1 Ba]. apply dvb_In in Cc as [Lc1 Bc].
    rewrite (dec_one_moved g m (a + n) (c + n) s); auto; [|cbn; lia]. f_equal.
    destruct (shared_high a) as [E1 E2].
    assert (X := u_one_dec h (a + n) (c + n) (filter (fun x => negb (setbits [a + n]%nat x)) occs)).
    rewrite E1, E2 in X. unfold u_sd_one in X. rewrite !spatial_ok, !alpha_ok in X by lia.
    rewrite !up_add, !place_add in X by lia. cbn [bind eqb negb] in X. rewrite chk_ok in X.
    + apply Ok_inj in X; auto; try lia.
      * rewrite <- X. f_equal. f_equal. ring.
      * apply increasing_filter, occs_incr.
      * apply occs_bound.
    + intros i [<-|[<-|Hi]]; auto. apply in_app_iff in Hi as [Hi|Hi].
      * apply oa_In in Hi. tauto.
      * apply filter_In in Hi as [Hi _]. apply dob_In in Hi. tauto.
Qed.

Lemma two_shape : forall (two : int2 K) o v,
  flat_map (fun ab => map (fun cd => let a := nth 0 ab 0%nat in let b := nth 1 ab 0%nat in
              let c := nth 0 cd 0%nat in let d := nth 1 cd 0%nat in
              (0, two a b c d, - two a b d c) : triple K) (combinations v 2)) (combinations o 2)
  = map (fun p => let a := nth 0 (fst p) 0%nat in let b := nth 1 (fst p) 0%nat in
              let c := nth 0 (snd p) 0%nat in let d := nth 1 (snd p) 0%nat in
              (0, two a b c d, - two a b d c)) (block o v 2).
Proof. intros. now rewrite map_list_prod. Qed.

Lemma incr2 : forall x y, increasing [x; y] -> (x < y)%nat.
Proof. intros x y I. apply SS_cons_inv in I as [_ I]. now inversion I. Qed.

Lemma two_aa_dec : spin_sds_two_same (uh_two0 h) oa va = map (fun p => decT g m (mv p)) (block oa va 2).
Proof.
  unfold spin_sds_two_same. rewrite two_shape.
  destruct (split_occ m n Pos) as (x & y & _ & Bx & _ & Ex & _ & _).
  apply (sign_times_gen _ _ _ _ (signs_agree m)).
  - apply (low_signs 2 _ x Bx). rewrite <- Ex. apply vector_two; [apply va_incr|].
    intros v Hv. apply va_In in Hv as [L B]. rewrite Bx, B. apply andb_false_r.
  - intros [a c] s Hp R. apply block_In in Hp as (Ia & Ic & La & Lc & Ha & Hc); auto using oa_incr, va_incr.
    destruct a as [|a [|b []]]; try discriminate. destruct c as [|c [|d []]]; try discriminate. cbn [fst snd nth].
    assert (Aa : In a oa) by (apply Ha; now left). assert (Cc : In c va) by (apply Hc; now left).
    assert (Ab : In b oa) by (apply Ha; right; now left). assert (Cd : In d va) by (apply Hc; right; now left).
    apply oa_In in Aa as [La1 Ba]. apply va_In in Cc as [Lc1 Bc].
    apply oa_In in Ab as [Lb1 Bb]. apply va_In in Cd as [Ld1 Bd].
    apply incr2 in Ia. apply incr2 in Ic.
    rewrite (dec_two_moved g m a b c d s); auto; [|cbn; lia]. f_equal.
    cbn [gen_of_u cache_two_ints gh_two]. unfold uexpand2, same_spin.
    rewrite !up_lt, !place_low by auto. reflexivity.
Qed.
Lemma two_bb_dec : spin_sds_two_same (uh_two2 h) (dn ob) (dn vb) = map (fun p => decT g m (mv p)) (block ob vb 2).
Proof.
  unfold spin_sds_two_same. rewrite two_shape.
  assert (Iob : increasing (dn ob)) by (apply dn_incr; [apply ob_incr|]; intros i Hi; apply ob_In in Hi; tauto).
  assert (Ivb : increasing (dn vb)) by (apply dn_incr; [apply vb_incr|]; intros i Hi; apply vb_In in Hi; lia).
  destruct (split_occ m n Pos) as (x & y & _ & _ & By & _ & _ & Ey).
  rewrite <- up_block, map_map.
  apply (sign_times_gen _ _ _ _ (fun p => signs_agree m (up_pair n p))).
  - apply (high_signs 2 _ y By). rewrite <- Ey. apply vector_two; auto.
    intros v Hv. apply dvb_In in Hv as [L B]. now rewrite By.
  - intros [a c] s Hp R. apply block_In in Hp as (Ia & Ic & La & Lc & Ha & Hc); auto.
    destruct a as [|a [|b []]]; try discriminate. destruct c as [|c [|d []]]; try discriminate. cbn [fst snd nth up_pair map] in *.
    assert (Aa : In a (dn ob)) by (apply Ha; now left). assert (Cc : In c (dn vb)) by (apply Hc; now left).
    assert (Ab : In b (dn ob)) by (apply Ha; right; now left). assert (Cd : In d (dn vb)) by (apply Hc; right; now left).
    apply dob_In in Aa as [La1 Ba]. apply dvb_In in Cc as [Lc1 Bc].
    apply dob_In in Ab as [Lb1 Bb]. apply dvb_In in Cd as [Ld1 Bd].
    apply incr2 in Ia. apply incr2 in Ic.
    rewrite (dec_two_moved g m (a + n) (b + n) (c + n) (d + n) s); auto; try lia; [|cbn; lia]. f_equal.
    cbn [gen_of_u cache_two_ints gh_two]. unfold uexpand2, same_spin.
    rewrite !up_add, !place_add. reflexivity.
Qed.

Notation block_ab := (map (fun p => ([fst (fst p); snd (fst p)], [fst (snd p); snd (snd p)]))
                          (list_prod (list_prod oa ob) (list_prod va vb))).

Lemma bin_sizes_dn : forall o v, (forall i, In i o -> (n <= i)%nat) -> (forall i, In i v -> (n <= i)%nat) ->
  bin_sizes (dn o) (dn v) = bin_sizes o v.
Proof.
  intros o v Ho Hv. unfold bin_sizes. rewrite map_length.
  assert (G : forall v st, (forall i, In i v -> (n <= i)%nat) ->
     fold_left (bin_sizes_step (dn o)) (dn v) st = fold_left (bin_sizes_step o) v st).
  { clear v Hv. induction v as [|x v IH]; intros [c bins] Hv; auto. cbn [map fold_left].
    assert (X : bin_sizes_step (dn o) (c, bins) (x - n) = bin_sizes_step o (c, bins) x).
    { unfold bin_sizes_step. rewrite map_length.
      assert (S : forall fuel c, skip_occ (x - n) (dn o) c fuel = skip_occ x o c fuel).
      { induction fuel as [|fuel IHf]; intros c'; auto. cbn [skip_occ]. rewrite map_length, IHf.
        destruct (Nat.ltb_spec c' (length o)) as [L|L]; auto. cbn [andb].
        rewrite (nth_indep _ 0%nat (0 - n)%nat) by (rewrite map_length; auto).
        rewrite (map_nth (fun i => (i - n)%nat)).
        assert (n <= nth c' o 0)%nat by (apply Ho, nth_In; auto). specialize (Hv x (or_introl eq_refl)).
        destruct (Nat.ltb_spec (nth c' o 0 - n)%nat (x - n)%nat), (Nat.ltb_spec (nth c' o 0%nat) x); auto; lia. }
      rewrite S. reflexivity. }
    rewrite X. apply IH. intros; apply Hv; now right. }
  now rewrite G.
Qed.

Lemma signs_ab_dn : sign_excite_two_ab oa (dn ob) va (dn vb) = sign_excite_two_ab oa ob va vb.
Proof.
  unfold sign_excite_two_ab. rewrite bin_sizes_dn, map_length; auto.
  - intros i Hi. apply ob_In in Hi. tauto.
  - intros i Hi. apply vb_In in Hi. lia.
Qed.

Lemma two_ab_dec : spin_sds_two_ab (uh_two1 h) oa (dn ob) va (dn vb) = map (fun p => decT g m (mv p)) block_ab.
Proof.
  unfold spin_sds_two_ab. rewrite signs_ab_dn, map_map.
  assert (Es : forall (A : Type) (G : nat * nat -> nat * nat -> A),
    flat_map (fun ab => map (G ab) (list_prod va (dn vb))) (list_prod oa (dn ob))
    = map (fun p => G (fst (fst p), snd (fst p) - n)%nat (fst (snd p), snd (snd p) - n)%nat)
        (list_prod (list_prod oa ob) (list_prod va vb))).
  { intros A G. rewrite map_list_prod. 
    rewrite <- (map_id oa), <- (map_id va), !list_prod_map, !map_id, flat_map_map.
    apply flat_map_ext'. intros x _. rewrite map_map. reflexivity. }
  rewrite (Es _ (fun ab cd => (0, uh_two1 h (fst ab) (snd ab) (fst cd) (snd cd), 0))).
  eapply sign_times_gen.
  - apply (vector_two_ab m n oa ob va vb).
    + apply lows_highs, occs_incr.
    + apply va_incr.
    + apply vb_incr.
    + intros v [Hv|Hv]; [apply va_In in Hv|apply vb_In in Hv]; tauto.
    + intros v [Hv|Hv]; [apply oa_In in Hv|apply va_In in Hv]; tauto.
    + intros v [Hv|Hv]; [apply ob_In in Hv; tauto|apply vb_In in Hv; lia].
  - intros [[a b] [c d]] s Hp R. cbn [fst snd] in *. apply in_prod_iff in Hp as [H1 H2].
    apply in_prod_iff in H1 as [Ha Hb]. apply in_prod_iff in H2 as [Hc Hd].
    apply oa_In in Ha as [La Ba]. apply ob_In in Hb as [Lb Bb]. apply va_In in Hc as [Lc Bc]. apply vb_In in Hd as [Ld Bd].
    rewrite (dec_two_moved g m a b c d s); auto; try lia; [|cbn; lia]. f_equal.
    cbn [gen_of_u cache_two_ints gh_two]. unfold uexpand2, same_spin.
    rewrite (up_lt n a), (up_ge n b), (up_lt n c), (up_ge n d) by lia.
    rewrite (place_low n a), (place_high n b), (place_low n c), (place_high n d) by lia. cbn [eqb andb]. f_equal. ring.
Qed.

Lemma zero_spin_dec : u_cached h ->
  spin_sds_zero (uh_one0 h) (uh_one1 h) (uh_0_ijij h) (uh_1_ijij h) (uh_2_ijij h) (uh_0_ijji h) (uh_2_ijji h) oa (dn ob)
  = [decT g m m].
Proof.
  intros C. unfold decT. destruct (N.eq_dec m 0) as [->|M].
  - change (occ_indices (Some 0%N)) with (@nil nat). cbn. unfold spin_sds_zero, block_sum, triu_sum. cbn.
    f_equal. f_equal; [f_equal|]; ring.
  - rewrite dec_same by auto. cbn [value3].
    assert (X := zero_dec n (uh_one0 h) (uh_one1 h) (uh_0_ijij h) (uh_1_ijij h) (uh_2_ijij h) (uh_0_ijji h) (uh_2_ijji h)
      g occs occs_incr).
    unfold spin_sd_zero in X. rewrite chk_ok in X.
    2:{ intros i Hi. apply in_app_iff in Hi as [Hi|Hi]; [apply oa_In in Hi; tauto|apply dob_In in Hi; tauto]. }
    unfold spin_sds_zero. f_equal. apply Ok_inj in X.
    + rewrite <- X. f_equal. f_equal. ring.
    + intros i Hi. apply occ_indices_In in Hi. exact (fits_lt _ _ _ F Hi).
    + intros; cbn [gen_of_u cache_two_ints gh_one]; unfold uexpand1, same_spin.
      rewrite !up_lt, !place_low by auto. reflexivity.
    + intros; cbn [gen_of_u cache_two_ints gh_one]; unfold uexpand1, same_spin.
      rewrite !up_add, !place_add by auto. reflexivity.
    + intros; cbn [gen_of_u cache_two_ints gh_ijij gh_ijji gh_two]; unfold uexpand2, same_spin.
      rewrite !up_lt, !place_low by auto. split; apply C.
    + intros; cbn [gen_of_u cache_two_ints gh_ijij gh_ijji gh_two]; unfold uexpand2, same_spin.
      rewrite !up_add, !place_add by auto. split; apply C.
    + intros; cbn [gen_of_u cache_two_ints gh_ijij gh_ijji gh_two]; unfold uexpand2, same_spin.
      rewrite !up_add, !place_add, up_lt, place_low by auto. split; [apply C|reflexivity].
Qed.

(** all excitations that conserve the spin *)
Definition spin_moves : list (list nat * list nat) :=
  [([], [])] ++ block oa va 1 ++ block ob vb 1 ++ block oa va 2 ++ block_ab ++ block ob vb 2.

Lemma moved_nil : moved m [] [] = m.
Proof. unfold moved. cbn. now rewrite N.lxor_0_r, N.lor_0_r. Qed.

Lemma prod_nil_r : forall {A B} (l : list A), list_prod l (@nil B) = [].
Proof. induction l; auto. Qed.

Lemma spin_wfn3_value : forall f ov ov_ab, u_cached h ->
  (forall k, ov oa va (Z.of_nat k) = Ok (map (fun p => f (mv p)) (block oa va k))) ->
  (forall k, ov ob vb (Z.of_nat k) = Ok (map (fun p => f (mv p)) (block ob vb k))) ->
  ov_ab oa ob va vb = Ok (map (fun p => f (mv p)) block_ab) ->
  spin_wfn3 n (spin_sds_zero (uh_one0 h) (uh_one1 h) (uh_0_ijij h) (uh_1_ijij h) (uh_2_ijij h) (uh_0_ijji h) (uh_2_ijji h))
    (spin_sds_one_alpha (uh_one0 h) (uh_two0 h) (uh_two1 h))
    (spin_sds_one_beta (uh_one1 h) (uh_two2 h) (uh_two1 h))
    (spin_sds_two_same (uh_two0 h)) (spin_sds_two_same (uh_two2 h)) (spin_sds_two_ab (uh_two1 h)) ov ov_ab m f
  = Ok (tsumf (fun d => t_scale (f d) (decT g m d)) (map mv spin_moves)).
Proof.
  intros f ov ov_ab C Ha Hb Hab. unfold spin_wfn3. cbv zeta.
  change (filter (fun i => Nat.ltb i n)) with (lows n). change (filter (fun i => Nat.leb n i)) with (highs n).
  rewrite chk_ok.
  2:{ intros i Hi. apply in_app_iff in Hi as [Hi|Hi]; [apply oa_In in Hi; tauto|apply dob_In in Hi; tauto]. }
  cbn [bind]. rewrite zero_spin_dec by auto.
  change [decT g m m] with (map (decT g m) [m]). change [f m] with (map f [m]). rewrite dot3_sum. cbn [bind].
  change 1%Z with (Z.of_nat 1). change 2%Z with (Z.of_nat 2). rewrite !Ha, !Hb, Hab. cbn [bind].
  rewrite one_alpha_dec, one_beta_dec, two_aa_dec, two_bb_dec, two_ab_dec, !dot3_sum. cbn [bind].
  assert (E : forall (b : bool) L, (b = false -> L = []) -> (if b then Ok (tsumf (fun p => t_scale (f (mv p)) (decT g m (mv p))) L)
     else Ok t_zero) = Ok (tsumf (fun p => t_scale (f (mv p)) (decT g m (mv p))) L)).
  { intros [|] L HL; auto. rewrite HL by auto. reflexivity. }
  rewrite !E.
  - cbn [bind]. f_equal. rewrite t_add_0_l. unfold spin_moves. rewrite !map_app, !tsumf_app, !t_add_assoc.
    cbn [map fst snd]. rewrite moved_nil. f_equal.
    unfold tsumf at 1 2 3 4 5. unfold tsumf. now rewrite !sumf_map.
  - rewrite !map_length. intros G. destruct (Nat.ltb_spec 1 (length ob)) as [L|L].
    + rewrite (combos2_short vb); [apply prod_nil_r|]. destruct (Nat.ltb_spec 1 (length vb)); [discriminate|auto].
    + now rewrite (combos2_short ob).
  - rewrite !map_length. intros G.
    assert (Z : length (list_prod (list_prod oa ob) (list_prod va vb)) = 0%nat).
    { rewrite !prod_length. destruct (Nat.ltb_spec 0 (length oa)), (Nat.ltb_spec 0 (length ob)),
        (Nat.ltb_spec 0 (length va)), (Nat.ltb_spec 0 (length vb)); try discriminate G; nia. }
    apply length_zero_iff_nil in Z. now rewrite Z.
  - intros G. destruct (Nat.ltb_spec 1 (length oa)) as [L|L].
    + rewrite (combos2_short va); [apply prod_nil_r|]. destruct (Nat.ltb_spec 1 (length va)); [discriminate|auto].
    + now rewrite (combos2_short oa).
Qed.
End SpinWfn.
