(** Lemmas on derivatives with respect to the active parameters. *)
From Coq Require Import List ZArith NArith Arith Bool Lia Ring.
From Verif Require Import Py Slater BitSpec BitLemmas Alg BicliqueLemmas ParamSel ParamSelSpec ParamSelLemmas P_ParamSel EqnBase EqnSpec.
Import ListNotations.

Section L.
Context {K : CField}.
Local Open Scope cr_scope.
Add Ring K_ring67 : (rth K).

(** * writing blocks *)
Lemma scatter_seq : forall (a b c g : list K), length g = length b ->
  fold_left (fun u ix => upd u (fst ix) (snd ix)) (combine (seq (length a) (length b)) g) (a ++ b ++ c) = a ++ g ++ c.
Proof.
  intros a b c g. revert a b. induction g as [|x g IH]; intros a [|z b] L; try discriminate; [reflexivity|].
  cbn [length seq combine fold_left fst snd]. change ((z :: b) ++ c) with (z :: (b ++ c)). rewrite upd_app.
  replace (a ++ x :: b ++ c) with ((a ++ [x]) ++ b ++ c) by (rewrite <- app_assoc; reflexivity).
  replace (S (length a)) with (length (a ++ [x])) by (rewrite app_length; simpl; lia).
  rewrite IH by (simpl in L; lia). rewrite <- app_assoc. reflexivity.
Qed.

Lemma scatter_block : forall (a b c g : list K), length g = length b ->
  scatter (a ++ b ++ c) (seq (length a) (length b)) g = Ok (a ++ g ++ c).
Proof.
  intros a b c g L. unfold scatter.
  assert (E : forallb (fun i => Nat.ltb i (length (a ++ b ++ c))) (seq (length a) (length b)) = true).
  { apply forallb_forall. intros i I. apply in_seq in I. apply Nat.ltb_lt. rewrite !app_length. lia. }
  rewrite E, scatter_seq by auto. reflexivity.
Qed.

Definition fit (s : sel) (b : nat -> list nat -> list K) : Prop := forall c l, In (c, l) s -> length (b c l) = length l.

Lemma blocks_length : forall s b, fit s b -> length (blocks s b) = active_nparams s.
Proof.
  induction s as [|[c l] t IH]; intros b F; [reflexivity|]. unfold blocks, active_nparams in *. simpl. rewrite app_length.
  rewrite (F c l (or_introl eq_refl)). f_equal. apply IH. intros d m I. apply F. right; auto.
Qed.

Lemma blocks_app : forall s t (b : nat -> list nat -> list K), blocks (s ++ t) b = blocks s b ++ blocks t b.
Proof. intros s t b. unfold blocks. rewrite map_app, concat_app. reflexivity. Qed.

Lemma slice_at : forall s1 c l s2, NoDup (map fst (s1 ++ (c, l) :: s2)) ->
  get_item (s1 ++ (c, l) :: s2) (KComp c) = l /\
  get_item (objective_inds (s1 ++ (c, l) :: s2)) (KComp c) = seq (active_nparams s1) (length l).
Proof.
  intros s1 c l s2 N. split.
  - cbn [get_item]. rewrite (find_In _ c l N); auto. apply in_app_iff. right; left; auto.
  - cbn [get_item]. rewrite (find_In (objective_inds (s1 ++ (c, l) :: s2)) c (seq (active_nparams s1) (length l))); auto.
    + unfold objective_inds. rewrite slices_keys. auto.
    + unfold objective_inds. clear N. change (seq (active_nparams s1) (length l)) with (seq (0 + active_nparams s1) (length l)).
      generalize 0%nat. induction s1 as [|[d m] t IH]; intros k; simpl.
      * left. unfold active_nparams. simpl. rewrite Nat.add_0_r. auto.
      * right. replace (k + active_nparams ((d, m) :: t))%nat with ((k + length m) + active_nparams t)%nat by (unfold active_nparams; simpl; lia). apply IH.
Qed.

Lemma put_one_ok : forall s1 c l s2 get g b, let s := s1 ++ (c, l) :: s2 in
  NoDup (map fst s) -> fit s b -> get l = Ok g -> length g = length l ->
  put_one s c get (blocks s b) = Ok (blocks s (fun d m => if Nat.eqb d c then (if m then b d m else g) else b d m)).
Proof.
  intros s1 c l s2 get g b s N F G L. unfold put_one. destruct (slice_at s1 c l s2 N) as [E1 E2]. fold s in E1, E2. rewrite E1, E2.
  assert (NI : forall d m, In (d, m) s1 \/ In (d, m) s2 -> Nat.eqb d c = false).
  { intros d m I. apply Nat.eqb_neq. intros ->. unfold s in N. rewrite map_app in N. apply NoDup_app_iff in N. destruct N as (N1 & N2 & D).
    cbn [map fst] in N2. apply NoDup_cons_iff in N2. destruct N2 as [H1 _]. destruct I as [I|I].
    - apply (D c); [apply in_map_iff; exists (c, m); auto|left; auto].
    - apply H1, in_map_iff. exists (c, m); auto. }
  assert (Same : forall t b', (forall d m, In (d, m) t -> b' d m = b d m) -> blocks t b' = blocks t b).
  { intros t b' H. unfold blocks. f_equal. apply map_ext_in. intros [d m] I. cbn [fst snd]. auto. }
  set (b' := fun d (m : list nat) => if Nat.eqb d c then (if m then b d m else g) else b d m).
  assert (R : blocks s b' = blocks s1 b ++ (if l then b c l else g) ++ blocks s2 b).
  { unfold s. rewrite blocks_app. cbn [app]. unfold blocks at 2. cbn [map concat fst snd]. fold (blocks s2 b').
    rewrite (Same s1 b'), (Same s2 b'); [unfold b'; rewrite Nat.eqb_refl; reflexivity| |].
    - intros d m I. unfold b'. rewrite (NI d m); auto.
    - intros d m I. unfold b'. rewrite (NI d m); auto. }
  assert (R0 : blocks s b = blocks s1 b ++ b c l ++ blocks s2 b).
  { unfold s. rewrite blocks_app. reflexivity. }
  destruct l as [|i l'].
  - rewrite R. rewrite R0. reflexivity.
  - rewrite G. cbn [bind]. unfold put_block. rewrite seq_length, L, Nat.eqb_refl. rewrite R, R0.
    assert (Lb : length (b c (i :: l')) = length (i :: l')) by (apply F; unfold s; apply in_app_iff; right; left; auto).
    assert (L1 : length (blocks s1 b) = active_nparams s1).
    { apply blocks_length. intros d m I. apply F. unfold s. apply in_app_iff; auto. }
    rewrite <- L1, <- Lb. rewrite scatter_block by (rewrite Lb; auto). reflexivity.
Qed.

Lemma put_one_missing : forall s c get (out : list K), ~ In c (map fst s) -> put_one s c get out = Ok out.
Proof. intros s c get out N. unfold put_one. cbn [get_item]. rewrite (proj2 (find_None s c) N). reflexivity. Qed.

Lemma in_split_key : forall (s : sel) c, In c (map fst s) -> exists s1 l s2, s = s1 ++ (c, l) :: s2.
Proof.
  intros s c I. apply in_map_iff in I. destruct I as ([d l] & E & I). simpl in E. subst d. apply in_split in I.
  destruct I as (s1 & s2 & ->). eauto.
Qed.

(** the block of component [c] is [g], for the values [gets] returns *)
Definition given (gets : nat -> list nat -> res (list K)) (cs : list nat) (b : nat -> list nat -> list K) : nat -> list nat -> list K :=
  fun d m => if in_dec Nat.eq_dec d cs then (if m then b d m else match gets d m with Ok g => g | Err _ => [] end) else b d m.

Lemma put_one_given : forall s c get b, NoDup (map fst s) -> fit s b ->
  (forall l, In (c, l) s -> l <> [] -> exists g, get c l = Ok g /\ length g = length l) ->
  put_one s c (get c) (blocks s b) = Ok (blocks s (given get [c] b)) /\ fit s (given get [c] b).
Proof.
  intros s c get b N F G. assert (F' : fit s (given get [c] b)).
  { intros d m I. unfold given. destruct (in_dec Nat.eq_dec d [c]) as [J|J]; [|apply F; auto].
    destruct J as [->|[]]. destruct m as [|i m']; [apply F; auto|]. destruct (G (i :: m') I ltac:(discriminate)) as (g & E & L). rewrite E. auto. }
  split; auto. destruct (in_dec Nat.eq_dec c (map fst s)) as [I|I].
  - destruct (in_split_key s c I) as (s1 & l & s2 & E). subst s.
    assert (J : In (c, l) (s1 ++ (c, l) :: s2)) by (apply in_app_iff; right; left; auto).
    destruct l as [|i l'].
    + unfold put_one. destruct (slice_at s1 c [] s2 N) as [E1 _]. rewrite E1. f_equal. unfold blocks. f_equal. apply map_ext_in.
      intros [d m] Im. cbn [fst snd]. unfold given. destruct (in_dec Nat.eq_dec d [c]) as [Jd|Jd]; auto. destruct Jd as [<-|[]].
      assert (Em : find_sel (s1 ++ (c, []) :: s2) c = Some m) by (apply find_In; auto).
      rewrite (find_In _ c [] N J) in Em. injection Em as <-. reflexivity.
    + destruct (G (i :: l') J ltac:(discriminate)) as (g & Eg & Lg).
      rewrite (put_one_ok s1 c (i :: l') s2 (get c) g b N F Eg Lg). f_equal. unfold blocks. f_equal. apply map_ext_in.
      intros [d m] Im. cbn [fst snd]. unfold given. destruct (Nat.eqb_spec d c) as [->|D].
      * destruct (in_dec Nat.eq_dec c [c]) as [_|X]; [|exfalso; apply X; left; auto].
        assert (Em : find_sel (s1 ++ (c, i :: l') :: s2) c = Some m) by (apply find_In; auto).
        rewrite (find_In _ c (i :: l') N J) in Em. injection Em as <-. rewrite Eg. reflexivity.
      * destruct (in_dec Nat.eq_dec d [c]) as [[X|[]]|_]; [congruence|reflexivity].
  - rewrite put_one_missing by auto. f_equal. unfold blocks. f_equal. apply map_ext_in. intros [d m] Im. cbn [fst snd]. unfold given.
    destruct (in_dec Nat.eq_dec d [c]) as [[<-|[]]|_]; auto. exfalso. apply I, in_map_iff. exists (c, m); auto.
Qed.

Lemma given_cons : forall get c cs b d m, given get cs (given get [c] b) d m = given get (c :: cs) b d m.
Proof.
  intros get c cs b d m. unfold given. destruct (in_dec Nat.eq_dec d cs) as [I|I], (in_dec Nat.eq_dec d (c :: cs)) as [J|J], (in_dec Nat.eq_dec d [c]) as [L|L];
    destruct m; auto; try reflexivity; exfalso; simpl in *; tauto.
Qed.

Lemma blocks_ext : forall s (b b' : nat -> list nat -> list K), (forall c l, In (c, l) s -> b c l = b' c l) -> blocks s b = blocks s b'.
Proof. intros s b b' H. unfold blocks. f_equal. apply map_ext_in. intros [c l] I. cbn [fst snd]. auto. Qed.

Lemma put_parts_given : forall get cs s b, NoDup (map fst s) -> fit s b ->
  (forall c l, In c cs -> In (c, l) s -> l <> [] -> exists g, get c l = Ok g /\ length g = length l) ->
  put_parts s get cs (blocks s b) = Ok (blocks s (given get cs b)) /\ fit s (given get cs b).
Proof.
  intros get cs. induction cs as [|c cs IH]; intros s b N F G.
  - split.
    + cbn [put_parts]. f_equal. 
    + intros d m I. unfold given. destruct (in_dec Nat.eq_dec d []); [contradiction|]. apply F; auto.
  - destruct (put_one_given s c get b N F) as [E F1]; [intros l I; apply G; auto; left; auto|].
    destruct (IH s (given get [c] b) N F1) as [E2 F2]; [intros d l Id; apply G; right; auto|].
    split.
    + cbn [put_parts]. destruct (has_key s c) eqn:Hk.
      * rewrite E. cbn [bind]. rewrite E2. f_equal. apply blocks_ext. intros d m _. apply given_cons.
      * rewrite <- (blocks_ext s (given get [c] b) b).
        -- rewrite E2. f_equal. apply blocks_ext. intros d m _. apply given_cons.
        -- intros d m I. unfold given. destruct (in_dec Nat.eq_dec d [c]) as [[<-|[]]|_]; auto.
           assert (has_key s c = true) by (apply has_key_iff, in_map_iff; exists (c, m); auto). congruence.
    + intros d m I. rewrite <- given_cons. apply F2; auto.
Qed.

Definition zero_blocks : nat -> list nat -> list K := fun _ l => zeros (length l).
Lemma zeros_blocks : forall s, blocks s zero_blocks = zeros (active_nparams s).
Proof.
  induction s as [|[c l] t IH]; [reflexivity|]. unfold blocks, active_nparams, zero_blocks, zeros in *. simpl. rewrite IH.
  symmetry. apply repeat_app.
Qed.
Lemma fit_zero : forall s, fit s zero_blocks.
Proof. intros s c l _. unfold zero_blocks, zeros. apply repeat_length. Qed.

Lemma put_wfn_given : forall (y : sys K) s get b, NoDup (map fst s) -> fit s b ->
  (forall c l, In c (targets y) -> In (c, l) s -> l <> [] -> exists g, get c l = Ok g /\ length g = length l) ->
  put_wfn y s get (blocks s b) = Ok (blocks s (given get (targets y) b)) /\ fit s (given get (targets y) b).
Proof.
  intros y s get b N F G. unfold put_wfn, targets in *. destruct (y_parts y) as [cs|].
  - apply put_parts_given; auto.
  - apply put_one_given; auto. intros l. apply G. left; auto.
Qed.

(** * the entry of a block *)
Lemma place_blocks : forall s k c i, place s k c i -> exists l j, In (c, l) s /\ nth_error l j = Some i
  /\ forall b, fit s b -> nth k (blocks s b) 0 = nth j (b c l) 0.
Proof.
  induction 1 as [c l t k i E|c l t k d i P IH].
  - exists l, k. split; [left; auto|]. split; auto. intros b F. unfold blocks. simpl. apply app_nth1.
    rewrite (F c l (or_introl eq_refl)). apply nth_error_Some. congruence.
  - destruct IH as (m & j & I & E & B). exists m, j. split; [right; auto|]. split; auto. intros b F.
    unfold blocks. simpl. rewrite app_nth2; rewrite (F c l (or_introl eq_refl)); [|lia].
    replace (length l + k - length l)%nat with k by lia. apply B. intros e q Ie. apply F. right; auto.
Qed.

Lemma nth_zeros : forall n k, nth k (zeros n) (0 : K) = 0.
Proof. intros n k. unfold zeros. revert k. induction n; intros [|k]; simpl; auto. Qed.

(** * vectors *)
Lemma vadd_length : forall (a b : list K) n, length a = n -> length b = n -> length (vadd a b) = n.
Proof. intros a b n A B. unfold vadd. rewrite map_length, combine_length. lia. Qed.
Lemma vsub_length : forall (a b : list K) n, length a = n -> length b = n -> length (vsub a b) = n.
Proof. intros a b n A B. unfold vsub. rewrite map_length, combine_length. lia. Qed.
Lemma vscale_length : forall x (a : list K), length (vscale x a) = length a.
Proof. intros. unfold vscale. apply map_length. Qed.
Lemma vadd_nth : forall (a b : list K) k, length a = length b -> nth k (vadd a b) 0 = nth k a 0 + nth k b 0.
Proof.
  induction a as [|x a IH]; intros [|z b] k L; try discriminate.
  - destruct k; simpl; ring.
  - destruct k; [reflexivity|]. apply (IH b k). simpl in L. lia.
Qed.
Lemma vsub_nth : forall (a b : list K) k, length a = length b -> nth k (vsub a b) 0 = nth k a 0 - nth k b 0.
Proof.
  induction a as [|x a IH]; intros [|z b] k L; try discriminate.
  - destruct k; simpl; ring.
  - destruct k; [reflexivity|]. apply (IH b k). simpl in L. lia.
Qed.
Lemma vscale_nth : forall x (a : list K) k, nth k (vscale x a) 0 = x * nth k a 0.
Proof. intros x a. induction a as [|z a IH]; intros [|k]; [simpl; ring|simpl; ring|reflexivity|apply (IH k)]. Qed.
Lemma fold_vadd : forall (ls : list (list K)) acc n, length acc = n -> Forall (fun v => length v = n) ls ->
  length (fold_left vadd ls acc) = n /\ forall k, nth k (fold_left vadd ls acc) 0 = nth k acc 0 + sumf (fun v => nth k v 0) ls.
Proof.
  induction ls as [|v ls IH]; intros acc n A F; cbn [fold_left].
  - split; auto. intros k. simpl. ring.
  - inversion F; subst. destruct (IH (vadd acc v) (length acc)) as [L E]; auto.
    + apply vadd_length; auto.
    + split; auto. intros k. rewrite E, vadd_nth by auto. rewrite sumf_cons. ring.
Qed.
Lemma vsum_ok : forall (ls : list (list K)) n, Forall (fun v => length v = n) ls ->
  length (vsum n ls) = n /\ forall k, nth k (vsum n ls) 0 = sumf (fun v => nth k v 0) ls.
Proof.
  intros ls n F. unfold vsum. destruct (fold_vadd ls (zeros n) n) as [L E]; auto.
  - unfold zeros. apply repeat_length.
  - split; auto. intros k. rewrite E, nth_zeros. ring.
Qed.

(** * moved parameters *)
Lemma moved_shape : forall (w : world K) c i x, same_shape w (moved w c i x).
Proof. intros w c i x d. unfold moved, set_world. destruct (Nat.eqb_spec d c); [subst; apply upd_length|auto]. Qed.
Lemma same_refl : forall w : world K, same_shape w w.
Proof. intros w c. reflexivity. Qed.
Lemma moved_same : forall (w : world K) c i, (i < length (w c))%nat -> forall d, moved w c i (nth i (w c) 0) d = w d.
Proof. intros w c i H d. unfold moved, set_world. destruct (Nat.eqb_spec d c); [subst; apply upd_same; auto|auto]. Qed.

Lemma mapM_values : forall A (f : A -> res K) l, (forall x, In x l -> exists v, f x = Ok v) -> mapM f l = Ok (map (fun x => okv (f x)) l).
Proof.
  intros A f l. induction l as [|a l IH]; intros H; simpl; [reflexivity|].
  destruct (H a (or_introl eq_refl)) as [v E]. rewrite E. cbn [bind]. rewrite IH by (intros; apply H; right; auto). reflexivity.
Qed.
Lemma mapM_vectors : forall A (f : A -> res (list K)) (g : A -> list K) l, (forall x, In x l -> f x = Ok (g x)) -> mapM f l = Ok (map g l).
Proof.
  intros A f g l. induction l as [|a l IH]; intros H; simpl; [reflexivity|].
  rewrite (H a (or_introl eq_refl)). cbn [bind]. rewrite IH by (intros; apply H; right; auto). reflexivity.
Qed.
Lemma combine_maps : forall A B C (f : A -> B) (g : A -> C) l, combine (map f l) (map g l) = map (fun x => (f x, g x)) l.
Proof. induction l; simpl; congruence. Qed.
Lemma dot_maps : forall A (f g : A -> K) l, dot (map f l) (map g l) = Ok (sumf (fun x => f x * g x) l).
Proof.
  intros. unfold dot. rewrite !map_length, Nat.eqb_refl, combine_maps, psum_sumf, sumf_map. reflexivity.
Qed.
Lemma dot_rows_maps : forall A n (f : A -> K) (g : A -> list K) l, (forall x, In x l -> length (g x) = n) ->
  exists v, dot_rows n (map f l) (map g l) = Ok v /\ length v = n /\ forall k, nth k v 0 = sumf (fun x => f x * nth k (g x) 0) l.
Proof.
  intros A n f g l H. unfold dot_rows. rewrite !map_length, Nat.eqb_refl, combine_maps, map_map. cbn [fst snd].
  destruct (vsum_ok (map (fun x => vscale (f x) (g x)) l) n) as [L E].
  - apply Forall_map, Forall_forall. intros x I. rewrite vscale_length. auto.
  - eexists. split; [reflexivity|]. split; auto. intros k. rewrite E, sumf_map. apply sumf_ext. intros x _. apply vscale_nth.
Qed.

(** * calculus *)
Section Cal.
Variable Der : (K -> K) -> K -> K -> Prop.
Hypothesis C : calculus Der.
Lemma der_eq : forall f x g g', Der f x g -> g = g' -> Der f x g'.
Proof. intros; subst; auto. Qed.
Lemma der_sum : forall A (F : K -> A -> K) (G : A -> K) l x0, (forall a, In a l -> Der (fun x => F x a) x0 (G a)) ->
  Der (fun x => sumf (F x) l) x0 (sumf G l).
Proof.
  intros A F G l x0. induction l as [|a l IH]; intros H.
  - exact (cal_const Der C 0 x0).
  - apply (cal_add Der C (fun x => F x a) (fun x => sumf (F x) l)); [apply H; left; auto|apply IH; intros; apply H; right; auto].
Qed.
Lemma der_scale : forall a f x g, Der f x g -> Der (fun y => a * f y) x (a * g).
Proof. intros a f x g H. eapply der_eq; [apply (cal_mul Der C (fun _ => a) f x 0 g); [apply (cal_const Der C)|auto]|]. ring. Qed.
Lemma der_sub : forall f1 f2 x g1 g2, Der f1 x g1 -> Der f2 x g2 -> Der (fun y => f1 y - f2 y) x (g1 - g2).
Proof.
  intros f1 f2 x g1 g2 H1 H2. apply (cal_ext Der C (fun y => f1 y + (ropp 1) * f2 y)); [intros; ring|].
  eapply der_eq; [apply (cal_add Der C f1 (fun y => ropp 1 * f2 y) x g1 (ropp 1 * g2)); [auto|apply der_scale; auto]|]. ring.
Qed.
Lemma der_div : forall f1 f2 x g1 g2, f2 x <> 0 -> Der f1 x g1 -> Der f2 x g2 ->
  Der (fun y => f1 y * finv (f2 y)) x (g1 * finv (f2 x) - finv (f2 x) * (f1 x * finv (f2 x) * g2)).
Proof.
  intros f1 f2 x g1 g2 N H1 H2. eapply der_eq.
  - apply (cal_mul Der C f1 (fun y => finv (f2 y)) x g1); [auto|]. apply (cal_inv Der C f2 x g2); auto.
  - ring.
Qed.
End Cal.

Lemma grid_maps : forall A B C (f : N -> A) (g : N -> B) (h : N -> N -> C) L R,
  grid (map f L) (map g R) (map (fun i => map (h i) R) L) = map (fun ij => (f (fst ij), g (snd ij), h (fst ij) (snd ij))) (list_prod L R).
Proof.
  intros A B C f g h L R. unfold grid. induction L as [|i L IH]; [reflexivity|]. cbn [map combine flat_map list_prod].
  rewrite map_app. f_equal; [|apply IH]. cbn [fst snd]. rewrite combine_maps, !map_map. reflexivity.
Qed.
End L.
