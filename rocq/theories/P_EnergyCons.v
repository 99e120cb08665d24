(** C58: the reference of the energy constraint. *)
From Coq Require Import List ZArith Arith Bool Lia Reals Lra.
From Verif Require Import Py EnergyCons EnergyConsSpec.
Import ListNotations.
Local Open Scope R_scope.

Lemma leb_spec : forall x y, leb x y = true <-> x <= y.
Proof. intros x y. unfold leb. destruct (Rle_dec x y); intuition discriminate. Qed.
Lemma ltb_spec : forall x y, ltb x y = true <-> x < y.
Proof. intros x y. unfold ltb. destruct (Rlt_dec x y); intuition discriminate. Qed.
Lemma push_length : forall n h x, (length h <= n)%nat -> (length (push n h x) <= n)%nat.
Proof.
  intros n h x H. unfold push. rewrite app_length. simpl. destruct (Nat.ltb_spec n (length h + 1)); [|rewrite app_length; simpl; lia].
  destruct h; simpl in *; [lia|]. rewrite app_length. simpl. lia.
Qed.
Lemma order_pow : forall b x, 1 < b -> 0 < x -> Rpower b (ln x / ln b - 1) = x / b.
Proof.
  intros b x Hb Hx. assert (0 < ln b) by (rewrite <- ln_1; apply ln_increasing; lra). unfold Rminus. rewrite Rpower_plus, Rpower_Ropp, Rpower_1 by lra.
  unfold Rpower. replace (ln x / ln b * ln b) with (ln x) by (field; lra). rewrite exp_ln by auto. reflexivity.
Qed.
Lemma order_lt : forall b x y, 1 < b -> 0 < x -> 0 < y -> (ln x / ln b < ln y / ln b + 1 <-> x < y * b).
Proof.
  intros b x y Hb Hx Hy. assert (Lb : 0 < ln b) by (rewrite <- ln_1; apply ln_increasing; lra).
  assert (E : ln y / ln b + 1 = ln (y * b) / ln b) by (rewrite ln_mult by lra; field; lra). rewrite E. split; intros H.
  - apply ln_lt_inv; auto; [apply Rmult_lt_0_compat; lra|]. apply Rmult_lt_reg_r with (/ ln b); [apply Rinv_0_lt_compat; auto|exact H].
  - apply Rmult_lt_compat_r; [apply Rinv_0_lt_compat; auto|]. apply ln_increasing; auto.
Qed.
Lemma order_min : forall b x y, 1 < b -> 0 < x -> 0 < y -> (ln x / ln b < ln y / ln b <-> x < y).
Proof.
  intros b x y Hb Hx Hy. assert (Lb : 0 < ln b) by (rewrite <- ln_1; apply ln_increasing; lra). split; intros H.
  - apply ln_lt_inv; auto. apply Rmult_lt_reg_r with (/ ln b); [apply Rinv_0_lt_compat; auto|exact H].
  - apply Rmult_lt_compat_r; [apply Rinv_0_lt_compat; auto|]. apply ln_increasing; auto.
Qed.
Lemma order_cons : forall b x l, 1 < b -> Forall (fun y => 0 < y) (x :: l) ->
  forallb (fun o => ltb (ln x / ln b - 1) o && ltb o (ln x / ln b + 1)) (map (fun i => ln i / ln b) (x :: l)) = true
  <-> Forall (fun y => x / b < y < x * b) (x :: l).
Proof.
  intros b x l Hb Pos. assert (Hx : 0 < x) by (inversion Pos; auto). rewrite forallb_forall, Forall_forall. rewrite Forall_forall in Pos.
  assert (One : forall y, 0 < y -> (ltb (ln x / ln b - 1) (ln y / ln b) && ltb (ln y / ln b) (ln x / ln b + 1) = true <-> x / b < y < x * b)).
  { intros y Hy. rewrite andb_true_iff, !ltb_spec, (order_lt b y x) by auto.
    assert (E : ln x / ln b - 1 < ln y / ln b <-> x / b < y); [|tauto].
    transitivity (ln x / ln b < ln y / ln b + 1); [split; lra|]. rewrite order_lt by auto. split; intros H.
    - apply Rmult_lt_reg_r with b; [lra|]. unfold Rdiv. rewrite Rmult_assoc, Rinv_l by lra. lra.
    - apply Rmult_lt_reg_r with (/ b); [apply Rinv_0_lt_compat; lra|]. rewrite (Rmult_assoc y), Rinv_r by lra. unfold Rdiv in H. lra. }
  split; intros H y I.
  - apply One; [auto|]. apply H. apply in_map_iff. exists y. auto.
  - apply in_map_iff in I. destruct I as (z & <- & Iz). apply One; auto.
Qed.

(** What one call does.  [d]: how far the energy is above the reference; [h]: the last differences, with this one. *)
Theorem C58_step : forall c e, ec_simple c = false -> 1 < ec_base c -> 0 < ec_min c -> (0 < ec_size c)%nat ->
  let d := e - ec_ref c in let h := push (ec_size c) (ec_hist c) d in let (c', r) := ec_objective c (Ok e) in
  r = Ok d
  /\ (d <= 0 -> ec_ref c' = ec_ref c + ec_base c * d /\ ec_hist c' = h)
  /\ (0 < d -> length h = ec_size c -> steady (ec_base c) (ec_min c) h -> ec_ref c' = e - hd 0 h / ec_base c /\ ec_hist c' = [])
  /\ (0 < d -> ~ (length h = ec_size c /\ steady (ec_base c) (ec_min c) h) -> ec_ref c' = ec_ref c /\ ec_hist c' = h)
  /\ ec_size c' = ec_size c /\ ec_base c' = ec_base c /\ ec_min c' = ec_min c /\ ec_simple c' = ec_simple c.
Proof.
  intros c e Hs Hb Hm Hz d h. unfold ec_objective. rewrite Hs. cbv zeta. fold d. fold h. clearbody h.
  destruct (leb d 0) eqn:Ed.
  { apply leb_spec in Ed. cbn [set_ec ec_ref ec_hist ec_size ec_base ec_min ec_simple]. repeat split; auto; intros; lra. }
  assert (Hd : 0 < d). { destruct (Rle_dec d 0) as [H|H]; [apply leb_spec in H; congruence|lra]. }
  destruct (Nat.eqb_spec (length h) (ec_size c)) as [L|L].
  2:{ cbn [set_ec ec_ref ec_hist ec_size ec_base ec_min ec_simple]. repeat split; auto; try (intros; lra); intros; first [reflexivity|contradiction|exfalso; tauto]. }
  destruct (existsb (fun i => leb i 0) h) eqn:Ex.
  { apply existsb_exists in Ex. destruct Ex as (x & Ix & Hx). apply leb_spec in Hx.
    assert (N : ~ steady (ec_base c) (ec_min c) h) by (intros [Pos _]; rewrite Forall_forall in Pos; specialize (Pos x Ix); lra).
    cbn [set_ec ec_ref ec_hist ec_size ec_base ec_min ec_simple]. repeat split; auto; try (intros; lra); intros; first [reflexivity|contradiction|exfalso; tauto]. }
  assert (Pos : Forall (fun x => 0 < x) h).
  { apply Forall_forall. intros x I. destruct (Rle_dec x 0) as [H|H]; [|lra]. exfalso.
    assert (X : existsb (fun i => leb i 0) h = true) by (apply existsb_exists; exists x; split; auto; apply leb_spec; auto). congruence. }
  destruct h as [|x t]; [simpl in L; lia|]. set (h := x :: t) in *. cbn [negb orb].
  assert (Em0 : map (fun i => ln i / ln (ec_base c)) h = ln x / ln (ec_base c) :: map (fun i => ln i / ln (ec_base c)) t) by reflexivity.
  rewrite Em0. cbv iota.
  assert (Hx : 0 < x) by (inversion Pos; auto).
  destruct (ltb (ln x / ln (ec_base c)) (ln (ec_min c) / ln (ec_base c))) eqn:Em.
  { apply ltb_spec in Em. apply order_min in Em; auto.
    assert (N : ~ steady (ec_base c) (ec_min c) h) by (intros (_ & H & _); lra).
    cbn [set_ec ec_ref ec_hist ec_size ec_base ec_min ec_simple]. repeat split; auto; try (intros; lra); intros; first [reflexivity|contradiction|exfalso; tauto]. }
  assert (Hmx : ec_min c <= x).
  { destruct (Rle_dec (ec_min c) x) as [H|H]; auto. exfalso. apply Rnot_le_lt in H. apply (order_min (ec_base c)) in H; auto. apply ltb_spec in H. congruence. }
  assert (St : forallb (fun o => ltb (ln x / ln (ec_base c) - 1) o && ltb o (ln x / ln (ec_base c) + 1)) (map (fun i => ln i / ln (ec_base c)) h) = true <-> steady (ec_base c) (ec_min c) h).
  { unfold h. rewrite order_cons by auto. unfold steady. unfold h in Pos. tauto. }
  rewrite Em0 in St.
  destruct (forallb _ _) eqn:Ef.
  - assert (S1 : steady (ec_base c) (ec_min c) h) by (apply St; auto). cbn [set_ec ec_ref ec_hist ec_size ec_base ec_min ec_simple]. rewrite order_pow by auto.
    assert (T : length h = ec_size c /\ steady (ec_base c) (ec_min c) h) by auto.
    repeat split; auto; try (intros; lra); intros; exfalso; contradiction.
  - assert (S1 : ~ steady (ec_base c) (ec_min c) h) by (intros X; apply St in X; discriminate).
    cbn [set_ec ec_ref ec_hist ec_size ec_base ec_min ec_simple]. repeat split; auto; try (intros; lra); intros; first [reflexivity|contradiction|exfalso; tauto].
Qed.

(** Moving down: the reference goes below the energy again (to the energy if the difference is 0). *)
Theorem C58_down : forall c e, ec_simple c = false -> 1 < ec_base c -> e <= ec_ref c ->
  let c' := fst (ec_objective c (Ok e)) in
  ec_ref c' = ec_ref c + ec_base c * (e - ec_ref c) /\ ec_ref c' <= ec_ref c /\ ec_ref c' <= e /\ (e < ec_ref c -> ec_ref c' < e).
Proof.
  intros c e Hs Hb He c'. assert (E : ec_ref c' = ec_ref c + ec_base c * (e - ec_ref c)).
  { unfold c', ec_objective. rewrite Hs. cbv zeta. replace (leb (e - ec_ref c) 0) with true by (symmetry; apply leb_spec; lra). reflexivity. }
  rewrite E. assert (X : (ec_base c - 1) * (e - ec_ref c) <= 0).
  { replace 0 with ((ec_base c - 1) * 0) by ring. apply Rmult_le_compat_l; lra. }
  assert (Y : ec_base c * (e - ec_ref c) <= 0) by (replace 0 with (ec_base c * 0) by ring; apply Rmult_le_compat_l; lra).
  split; auto. split; [lra|]. split; [lra|]. intros H. assert (Z : (ec_base c - 1) * (e - ec_ref c) < 0); [|lra].
  replace 0 with ((ec_base c - 1) * 0) by ring. apply Rmult_lt_compat_l; lra.
Qed.

(** simple: nothing changes, the difference is returned; the same if the energy raises. *)
Theorem C58_simple : forall c e, (ec_simple c = true -> ec_objective c (Ok e) = (c, Ok (e - ec_ref c)))
  /\ forall x, ec_objective c (Err x) = (c, Err x).
Proof. intros c e. split; [|reflexivity]. intros H. unfold ec_objective. rewrite H. reflexivity. Qed.

(** A queue size of zero is accepted, and raises an IndexError at the first energy above the reference. *)
Theorem C58_zero_refuted : forall c e, ec_simple c = false -> ec_size c = 0%nat -> ec_hist c = [] -> ec_ref c < e ->
  snd (ec_objective c (Ok e)) = Err IndexError.
Proof.
  intros c e Hs Hz Hh He. unfold ec_objective. rewrite Hs, Hz, Hh. cbv zeta. cbn [push app length Nat.ltb Nat.leb tl].
  destruct (leb (e - ec_ref c) 0) eqn:E; [apply leb_spec in E; lra|]. reflexivity.
Qed.

(** The history has at most queue_size entries, whatever happened. *)
Theorem C58_queue : forall ref size base m simple es, (length (ec_hist (ec_after (new_ec ref size base m simple) es)) <= size)%nat.
Proof.
  intros ref size base m simple es.
  assert (G : forall es c, (length (ec_hist c) <= ec_size c)%nat -> (length (ec_hist (ec_after c es)) <= ec_size c)%nat).
  { induction es0 as [|e l IH]; intros c H; [exact H|]. cbn [ec_after fold_left]. fold (ec_after (fst (ec_objective c e)) l).
    assert (X : ec_size (fst (ec_objective c e)) = ec_size c /\ (length (ec_hist (fst (ec_objective c e))) <= ec_size c)%nat).
    { destruct e as [e|x]; [|simpl; auto]. unfold ec_objective. assert (Pl := push_length (ec_size c) (ec_hist c) (e - ec_ref c) H).
      destruct (ec_simple c); [simpl; auto|]. cbv zeta. destruct (leb _ 0); [simpl; auto|]. destruct (_ || _); [simpl; auto|].
      destruct (map _ _); [simpl; auto|]. destruct (ltb _ _); [simpl; auto|]. destruct (forallb _ _); simpl; [split; [auto|lia]|auto]. }
    destruct X as [X1 X2]. rewrite <- X1. apply IH. lia. }
  apply (G es (new_ec ref size base m simple)). simpl. lia.
Qed.

(** * The differences in the history *)
Lemma lastn_snoc : forall A k (l : list A) x, (k <= length l)%nat -> lastn (S k) (l ++ [x]) = lastn k l ++ [x].
Proof.
  intros A k l x H. unfold lastn. rewrite app_length. simpl. replace (length l + 1 - S k)%nat with (length l - k)%nat by lia.
  rewrite skipn_app. replace (length l - k - length l)%nat with 0%nat by lia. reflexivity.
Qed.
Lemma lastn_tl : forall A k (l : list A), (k < length l)%nat -> lastn k (tl l) = lastn k l.
Proof. intros A k [|x l] H; [reflexivity|]. unfold lastn. cbn [tl length] in *. replace (S (length l) - k)%nat with (S (length l - k)) by lia. reflexivity. Qed.
Lemma lastn_all : forall A (l : list A), lastn (length l) l = l.
Proof. intros. unfold lastn. rewrite Nat.sub_diag. reflexivity. Qed.
Lemma lastn_0 : forall A (l : list A), lastn 0 l = [].
Proof. intros. unfold lastn. rewrite Nat.sub_0_r. apply skipn_all. Qed.
Lemma lastn_push : forall k n h x, (length h <= n)%nat -> (k < length (push n h x))%nat -> lastn (S k) (push n h x) = lastn k h ++ [x] /\ (k <= length h)%nat.
Proof.
  intros k n h x H Hk. unfold push in *. rewrite app_length in *. simpl in *. destruct (Nat.ltb_spec n (length h + 1)) as [L|L].
  - destruct h as [|y h]; simpl in *; [lia|]. rewrite app_length in Hk. simpl in Hk. split; [|lia].
    rewrite lastn_snoc by lia. f_equal. rewrite <- (lastn_tl _ k (y :: h)) by (simpl; lia). reflexivity.
  - rewrite app_length in Hk. simpl in Hk. split; [|lia]. apply lastn_snoc. lia.
Qed.
Lemma current_push : forall c es e, (length (ec_hist c) <= ec_size c)%nat -> current c es ->
  let h := push (ec_size c) (ec_hist c) (e - ec_ref c) in
  (length h <= length (es ++ [e]))%nat
  /\ forall k, (k <= length h)%nat -> Forall (fun x => 0 < x) (lastn k h) -> lastn k h = map (fun e => e - ec_ref c) (lastn k (es ++ [e])).
Proof.
  intros c es e Hl [L I] h. assert (Lh : (length h <= length (ec_hist c) + 1)%nat).
  { unfold h, push. rewrite app_length. simpl. destruct (Nat.ltb _ _); [|rewrite app_length; simpl; lia]. destruct (ec_hist c); simpl; rewrite ?app_length; simpl; lia. }
  split; [rewrite app_length; simpl; lia|]. intros [|k] Hk Pos; [rewrite !lastn_0; reflexivity|].
  destruct (lastn_push k (ec_size c) (ec_hist c) (e - ec_ref c) Hl) as [E Kl]; [fold h; lia|]. fold h in E. rewrite E in Pos |- *.
  apply Forall_app in Pos. destruct Pos as [Pos _]. rewrite (I k Kl Pos). rewrite lastn_snoc by lia. rewrite map_app. reflexivity.
Qed.

Theorem C58_invariant : forall ref size base m es, (0 < size)%nat -> 1 < base -> 0 < m ->
  let c := ec_after (new_ec ref size base m false) es in current c (computed es).
Proof.
  intros ref size base m es Hz Hb Hm.
  assert (G : forall es0 c pre, ec_simple c = false -> ec_size c = size -> ec_base c = base -> ec_min c = m -> (length (ec_hist c) <= size)%nat ->
    current c pre -> current (ec_after c es0) (pre ++ computed es0)).
  { induction es0 as [|[e|x] l IH]; intros c pre H1 H2 H3 H4 H5 H6.
    - simpl. rewrite app_nil_r. exact H6.
    - cbn [ec_after fold_left computed flat_map]. fold (ec_after (fst (ec_objective c (Ok e))) l). fold (computed l). rewrite app_assoc.
      assert (St := C58_step c e H1 ltac:(lra) ltac:(lra) ltac:(lia)). cbv zeta in St.
      destruct (ec_objective c (Ok e)) as [c' r] eqn:Eo. destruct St as (_ & S1 & S2 & S3 & Z1 & Z2 & Z3 & Z4). simpl fst.
      assert (Pl := push_length (ec_size c) (ec_hist c) (e - ec_ref c) ltac:(lia)).
      destruct (current_push c pre e ltac:(lia) H6) as [P1 P2].
      set (h := push (ec_size c) (ec_hist c) (e - ec_ref c)) in *.
      destruct (Rle_dec (e - ec_ref c) 0) as [D|D].
      + destruct (S1 D) as [R1 R2]. apply IH; try congruence; try (rewrite R2; lia).
        split; rewrite R2; auto. intros [|k] Hk Pos; [rewrite !lastn_0; reflexivity|]. exfalso.
        destruct (lastn_push k (ec_size c) (ec_hist c) (e - ec_ref c) ltac:(lia)) as [E _]; [fold h; lia|]. fold h in E. rewrite E in Pos.
        apply Forall_app in Pos. destruct Pos as [_ Pos]. inversion Pos. lra.
      + assert (D' : 0 < e - ec_ref c) by lra.
        assert (Dec : (length h = ec_size c /\ steady (ec_base c) (ec_min c) h) \/ ~ (length h = ec_size c /\ steady (ec_base c) (ec_min c) h)) by apply Classical_Prop.classic.
        destruct Dec as [[L S]|N].
        * destruct (S2 D' L S) as [R1 R2]. apply IH; try congruence; try (rewrite R2; simpl; lia). split; rewrite R2; [simpl; lia|].
          intros k Hk _. simpl in Hk. assert (k = 0%nat) by lia. subst k. rewrite !lastn_0. reflexivity.
        * destruct (S3 D' N) as [R1 R2]. apply IH; try congruence; try (rewrite R2; lia). split; rewrite R2; auto.
          intros k Hk Pos. rewrite R1. auto.
    - cbn [ec_after fold_left computed flat_map]. apply IH; auto. }
  cbv zeta. apply (G es (new_ec ref size base m false) []); auto; try (simpl; lia). split; [simpl; lia|].
  intros k Hk _. simpl in Hk. assert (k = 0%nat) by lia. subst k. rewrite !lastn_0. reflexivity.
Qed.

(** Moving up, after any sequence of energies: the last queue_size energies were all above the present reference, the
    first of them by at least min_diff, all by less than a factor base more or less than the first; the new reference is
    above the old one and below the energy, and the history is empty. *)
Theorem C58_up : forall ref size base m es e, (0 < size)%nat -> 1 < base -> 0 < m ->
  let c := ec_after (new_ec ref size base m false) es in let c' := fst (ec_objective c (Ok e)) in
  ec_ref c < e -> ec_ref c' <> ec_ref c ->
  let last := lastn size (computed es ++ [e]) in
  length last = size /\ steady base m (map (fun x => x - ec_ref c) last)
  /\ ec_ref c' = e - (hd 0 last - ec_ref c) / base /\ ec_ref c < ec_ref c' < e /\ ec_hist c' = [].
Proof.
  intros ref size base m es e Hz Hb Hm c c' He Hr last.
  assert (Cf : forall es0 c0, ec_simple c0 = false -> let c1 := ec_after c0 es0 in ec_simple c1 = false /\ ec_size c1 = ec_size c0 /\ ec_base c1 = ec_base c0 /\ ec_min c1 = ec_min c0).
  { induction es0 as [|x l IH]; intros c0 H0; simpl; auto.
    assert (X : ec_simple (fst (ec_objective c0 x)) = false /\ ec_size (fst (ec_objective c0 x)) = ec_size c0 /\ ec_base (fst (ec_objective c0 x)) = ec_base c0 /\ ec_min (fst (ec_objective c0 x)) = ec_min c0).
    { destruct x as [x|x]; [|simpl; auto]. unfold ec_objective. rewrite H0. cbv zeta. destruct (leb _ 0); [simpl; auto|]. destruct (_ || _); [simpl; auto|].
      destruct (map _ _); [simpl; auto|]. destruct (ltb _ _); [simpl; auto|]. destruct (forallb _ _); simpl; auto. }
    destruct X as (X1 & X2 & X3 & X4). destruct (IH _ X1) as (Y1 & Y2 & Y3 & Y4). unfold ec_after in *. simpl. repeat split; congruence. }
  destruct (Cf es (new_ec ref size base m false) eq_refl) as (C1 & C2 & C3 & C4). fold c in C1, C2, C3, C4. simpl in C2, C3, C4.
  assert (Lh : (length (ec_hist c) <= size)%nat) by apply C58_queue.
  assert (I := C58_invariant ref size base m es Hz Hb Hm). fold c in I.
  destruct (current_push c (computed es) e ltac:(lia) I) as [P1 P2]. set (h := push (ec_size c) (ec_hist c) (e - ec_ref c)) in *.
  assert (St := C58_step c e C1 ltac:(lra) ltac:(lra) ltac:(lia)). cbv zeta in St. fold h in St. unfold c' in *.
  destruct (ec_objective c (Ok e)) as [c1 r] eqn:Eo. simpl fst in *. destruct St as (_ & _ & S2 & S3 & _).
  assert (Dec : (length h = ec_size c /\ steady (ec_base c) (ec_min c) h) \/ ~ (length h = ec_size c /\ steady (ec_base c) (ec_min c) h)) by apply Classical_Prop.classic.
  destruct Dec as [[L S]|N]; [|exfalso; apply Hr; apply S3; auto; lra].
  destruct (S2 ltac:(lra) L S) as [R1 R2].
  assert (El : h = map (fun x => x - ec_ref c) last).
  { assert (X := P2 (length h) (le_n _)). rewrite lastn_all in X. rewrite L, C2 in X. apply X. apply S. }
  rewrite C3, C4 in S.
  assert (Ll : length last = size) by (rewrite <- C2, <- L, El, map_length; reflexivity).
  split; auto. split; [rewrite <- El; exact S|].
  assert (Eh : hd 0 h = hd 0 last - ec_ref c) by (rewrite El; destruct last; [simpl in Ll; lia|reflexivity]).
  split; [rewrite R1, Eh, C3; reflexivity|]. split; [|exact R2].
  rewrite R1, C3. destruct S as [Pos S]. destruct h as [|x t] eqn:Ehh; [contradiction|]. destruct S as [_ S]. simpl hd.
  assert (Hx : 0 < x) by (inversion Pos; auto). assert (Hxb : 0 < x / base) by (apply Rdiv_lt_0_compat; lra).
  assert (Il : In (e - ec_ref c) (x :: t)).
  { rewrite El. apply (in_map (fun x => x - ec_ref c)). unfold last.
    destruct size as [|s]; [lia|]. rewrite lastn_snoc.
    - apply in_or_app. right. left. reflexivity.
    - unfold last in Ll. unfold lastn in Ll. rewrite skipn_length, app_length in Ll. simpl in Ll. lia. }
  rewrite Forall_forall in S. destruct (S _ Il) as [S1 _]. lra.
Qed.

(** Otherwise the reference stays: it changes only as in C58_down and C58_up. *)
Theorem C58_only : forall ref size base m es e, (0 < size)%nat -> 1 < base -> 0 < m ->
  let c := ec_after (new_ec ref size base m false) es in let c' := fst (ec_objective c (Ok e)) in
  ec_ref c' <> ec_ref c -> e < ec_ref c \/ (ec_ref c < e /\ length (lastn size (computed es ++ [e])) = size
    /\ steady base m (map (fun x => x - ec_ref c) (lastn size (computed es ++ [e])))).
Proof.
  intros ref size base m es e Hz Hb Hm c c' Hr. destruct (Rtotal_order e (ec_ref c)) as [H|[H|H]]; auto.
  - exfalso. apply Hr. unfold c', ec_objective. destruct (ec_simple c); [reflexivity|]. cbv zeta.
    replace (leb (e - ec_ref c) 0) with true by (symmetry; apply leb_spec; lra). simpl. rewrite H. ring.
  - right. split; auto. destruct (C58_up ref size base m es e Hz Hb Hm H Hr) as (A & B & _). auto.
Qed.

(** A reference of -10, queue size 2, base 2: the energies -2, -3 are 8 and 7 above; the reference moves to -7. *)
Example C58_example : let c := ec_after (new_ec (-10) 2 2 (1/10) false) [Ok (-2); Err ValueError; Ok (-3)] in ec_ref c = -7 /\ ec_hist c = [].
Proof.
  assert (L2 : 0 < ln 2) by (rewrite <- ln_1; apply ln_increasing; lra).
  assert (E1 : ec_after (new_ec (-10) 2 2 (1/10) false) [Ok (-2); Err ValueError] = mkec (-10) [8] 2 2 (1/10) false).
  { unfold ec_after, new_ec. cbn [fold_left]. unfold ec_objective at 2. cbn [ec_simple ec_ref ec_hist ec_size].
    destruct (leb (-2 - -10) 0) eqn:E; [apply leb_spec in E; lra|]. cbn -[leb]. unfold set_ec. cbn. f_equal. f_equal. lra. }
  intros c. assert (Ec : c = fst (ec_objective (mkec (-10) [8] 2 2 (1/10) false) (Ok (-3)))).
  { unfold c. rewrite <- E1. reflexivity. }
  assert (St := C58_step (mkec (-10) [8] 2 2 (1/10) false) (-3) eq_refl ltac:(simpl; lra) ltac:(simpl; lra) ltac:(simpl; lia)). cbv zeta in St.
  rewrite Ec. destruct (ec_objective _ (Ok (-3))) as [c1 r]. cbn [fst]. destruct St as (_ & _ & S & _).
  cbn [ec_ref ec_hist ec_size ec_base ec_min push app length Nat.ltb Nat.leb] in S. destruct S as [S1 S2]; auto; [lra| |].
  - split; [repeat constructor; lra|]. split; [lra|]. repeat constructor; lra.
  - split; auto. rewrite S1. simpl. lra.
Qed.

Print Assumptions C58_step.
Print Assumptions C58_down.
Print Assumptions C58_simple.
Print Assumptions C58_zero_refuted.
Print Assumptions C58_queue.
Print Assumptions C58_invariant.
Print Assumptions C58_up.
Print Assumptions C58_only.
