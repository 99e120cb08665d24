(** Lemmas for C69: masks, the forward pass, the loop from the last layer to the first. *)
From Coq Require Import List ZArith NArith Arith Bool Lia Permutation.
From Verif Require Import Py BitSpec BitLemmas Slater SlaterBits Alg CILemmas JacobiSpec WfnCI Rbm RbmSpec.
Import ListNotations.
Local Open Scope nat_scope.

(** ** masks *)
Lemma fold_true : forall occ (m : list bool) i, (forall x, In x occ -> x < length m) -> nth i (fold_left (fun m i => upd m i true) occ m) false = (nth i m false || existsb (Nat.eqb i) occ)%bool.
Proof.
  induction occ as [|x occ IH]; intros m i H; cbn [fold_left existsb]; [now rewrite orb_false_r|]. rewrite IH by (intros y Hy; rewrite upd_length; apply H; now right).
  destruct (Nat.eqb_spec i x) as [->|N]; [rewrite upd_same by (apply H; now left); cbn; rewrite !orb_true_r; reflexivity|]. rewrite upd_other by auto. reflexivity.
Qed.
Lemma fold_true_length : forall occ (m : list bool), length (fold_left (fun m i => upd m i true) occ m) = length m.
Proof. induction occ as [|x occ IH]; intros m; [reflexivity|]. cbn [fold_left]. now rewrite IH, upd_length. Qed.
Lemma bit_zero : forall i, bit 0 i = false.
Proof. intros i. unfold bit. apply N.bits_0. Qed.
Lemma occ_empty : forall sd, length (occ_indices (Some sd)) = 0 <-> sd = 0%N.
Proof.
  intros sd. split.
  - intros H. apply N.bits_inj. intros k. rewrite N.bits_0. destruct (N.testbit sd k) eqn:E; [|reflexivity]. exfalso.
    assert (I : In (N.to_nat k) (occ_indices (Some sd))) by (apply occ_indices_In; unfold bit; now rewrite N2Nat.id).
    destruct (occ_indices (Some sd)); [destruct I|discriminate].
  - intros ->. reflexivity.
Qed.
Lemma mask_ok : forall n sd, sd <> 0%N -> within n sd -> rb_mask n (occ_indices (Some sd)) = Ok (map (bit sd) (seq 0 n)).
Proof.
  intros n sd N W. unfold rb_mask. destruct (Nat.eqb_spec (length (occ_indices (Some sd))) 0) as [E|_]; [now apply occ_empty in E|].
  assert (L : forall x, In x (occ_indices (Some sd)) -> x < n) by (intros x Hx; apply W; now apply occ_indices_In).
  cbn [orb]. destruct (existsb (fun i => Nat.leb n i) (occ_indices (Some sd))) eqn:E.
  { apply existsb_exists in E as (x & Hx & E). apply Nat.leb_le in E. specialize (L x Hx). lia. }
  f_equal. apply nth_ext with (d := false) (d' := bit sd 0); [now rewrite fold_true_length, repeat_length, map_length, seq_length|].
  intros i Hi. rewrite fold_true_length, repeat_length in Hi. rewrite fold_true by (intros x Hx; rewrite repeat_length; auto). rewrite map_nth, seq_nth by auto. cbn [plus].
  replace (nth i (repeat false n) false) with false by (symmetry; apply nth_repeat). cbn [orb].
  destruct (bit sd i) eqn:B.
  - apply existsb_exists. exists i. split; [now apply occ_indices_In|apply Nat.eqb_refl].
  - destruct (existsb (Nat.eqb i) (occ_indices (Some sd))) eqn:X; [|reflexivity]. apply existsb_exists in X as (x & Hx & X). apply Nat.eqb_eq in X. subst. apply occ_indices_In in Hx. congruence.
Qed.
Lemma mask_err : forall n sd, ~ (sd <> 0%N /\ within n sd) -> rb_mask n (occ_indices (Some sd)) = Err IndexError.
Proof.
  intros n sd H. unfold rb_mask. destruct (Nat.eqb_spec (length (occ_indices (Some sd))) 0) as [E|E]; [reflexivity|]. cbn [orb].
  destruct (existsb (fun i => Nat.leb n i) (occ_indices (Some sd))) eqn:X; [reflexivity|]. exfalso. apply H. split; [intros ->; apply E; reflexivity|].
  intros i Hi. destruct (Nat.lt_ge_cases i n); [auto|]. assert (Y : existsb (fun i => Nat.leb n i) (occ_indices (Some sd)) = true) by (apply existsb_exists; exists i; split; [now apply occ_indices_In|now apply Nat.leb_le]). congruence.
Qed.
Lemma tuples_last : forall n o, tuples n (S o) = flat_map (fun T => map (fun i => T ++ [i]) (seq 0 n)) (tuples n o).
Proof.
  intros n. induction o as [|o IH].
  - cbn. rewrite app_nil_r. induction (seq 0 n) as [|i l IH]; [reflexivity|]. cbn. congruence.
  - change (tuples n (S (S o))) with (flat_map (fun i => map (cons i) (tuples n (S o))) (seq 0 n)). etransitivity; [apply flat_map_ext; intros i; rewrite IH; reflexivity|]. cbn [tuples].
    assert (G : forall l, flat_map (fun i => map (cons i) (flat_map (fun T => map (fun i => T ++ [i]) (seq 0 n)) (tuples n o))) l = flat_map (fun T => map (fun i => T ++ [i]) (seq 0 n)) (flat_map (fun i => map (cons i) (tuples n o)) l)); [|apply G].
    induction l as [|i l IHl]; [reflexivity|]. cbn [flat_map]. rewrite flat_map_app, <- IHl. f_equal.
    generalize (tuples n o). intros L. induction L as [|T L IHL]; [reflexivity|]. cbn [flat_map map]. rewrite map_app, IHL. f_equal. rewrite map_map. reflexivity.
Qed.
Lemma tuples_length : forall n o, length (tuples n o) = n ^ o.
Proof.
  intros n. induction o as [|o IH]; [reflexivity|]. cbn [tuples Nat.pow]. assert (G : forall (l : list nat), length (flat_map (fun i => map (cons i) (tuples n o)) l) = length l * n ^ o).
  { induction l as [|i l IHl]; [reflexivity|]. cbn [flat_map]. rewrite app_length, map_length, IHl, IH. reflexivity. }
  now rewrite G, seq_length.
Qed.
Lemma outer_tuples : forall n sd o, rb_outer (map (bit sd) (seq 0 n)) (map (forallb (bit sd)) (tuples n o)) = map (forallb (bit sd)) (tuples n (S o)).
Proof.
  intros n sd o. rewrite tuples_last. unfold rb_outer. generalize (tuples n o). intros L. induction L as [|T L IH]; [reflexivity|]. cbn [map flat_map]. rewrite map_app, IH. f_equal.
  rewrite !map_map. apply map_ext. intros i. rewrite forallb_app. cbn. rewrite andb_true_r. apply andb_comm.
Qed.
Lemma power_tuples : forall n sd o, 0 < o -> rb_power (map (bit sd) (seq 0 n)) o = map (forallb (bit sd)) (tuples n o).
Proof.
  intros n sd o H. unfold rb_power. destruct o as [|o]; [lia|]. replace (S o - 1) with o by lia. clear H. induction o as [|o IH].
  - cbn. induction (seq 0 n) as [|i l IH]; [reflexivity|]. cbn. rewrite andb_true_r. congruence.
  - change (rb_outer (map (bit sd) (seq 0 n)) (Nat.iter o (rb_outer (map (bit sd) (seq 0 n))) (map (bit sd) (seq 0 n))) = map (forallb (bit sd)) (tuples n (S (S o)))). rewrite IH. apply outer_tuples.
Qed.
Lemma outer2_same : forall occ mask, rb_outer2 occ mask = rb_outer occ mask.
Proof. intros occ mask. unfold rb_outer2, rb_outer. induction mask as [|m mask IH]; [reflexivity|]. cbn. rewrite IH. f_equal. apply map_ext. intros. apply andb_comm. Qed.

(** ** lists *)
Lemma enumerate_app : forall {A} (a b : list A), enumerate (a ++ b) = enumerate a ++ combine (seq (length a) (length b)) b.
Proof.
  intros A a b. unfold enumerate. rewrite app_length, seq_app. cbn [plus]. assert (G : forall (x y : list nat) (a b : list A), length x = length a -> combine (x ++ y) (a ++ b) = combine x a ++ combine y b).
  { induction x as [|i x IH]; intros y [|z a0] b0 H; cbn in *; try discriminate; [reflexivity|]. f_equal. apply IH. lia. }
  apply G. apply seq_length.
Qed.
Lemma concat_pos : forall {A} (L : list (list A)) k, k < length (concat L) -> exists l q b, nth_error L l = Some b /\ q < length b /\ k = length (concat (firstn l L)) + q.
Proof.
  intros A. induction L as [|b L IH]; intros k H; cbn in H; [lia|]. rewrite app_length in H. destruct (Nat.lt_ge_cases k (length b)) as [Lt|Ge].
  - exists 0, k, b. repeat split; auto.
  - destruct (IH (k - length b)) as (l & q & b' & E & Hq & Ek); [lia|]. exists (S l), q, b'. repeat split; auto. cbn. rewrite app_length. lia.
Qed.
Lemma concat_nth : forall {A} (L : list (list A)) l q d, l < length L -> q < length (nth l L []) -> nth (length (concat (firstn l L)) + q) (concat L) d = nth q (nth l L []) d.
Proof.
  intros A. induction L as [|b L IH]; intros l q d H Hq; [cbn in H; lia|]. destruct l as [|l]; cbn [firstn concat nth length].
  - cbn in Hq |- *. now rewrite app_nth1.
  - cbn in Hq, H |- *. rewrite app_length, app_nth2 by lia. replace (length b + length (concat (firstn l L)) + q - length b) with (length (concat (firstn l L)) + q) by lia. apply IH; [lia|auto].
Qed.
Lemma concat_upd : forall {A} (L : list (list A)) l q x, l < length L -> q < length (nth l L []) -> upd (concat L) (length (concat (firstn l L)) + q) x = concat (upd L l (upd (nth l L []) q x)).
Proof.
  assert (U1 : forall A (a b : list A) k x, k < length a -> upd (a ++ b) k x = upd a k x ++ b).
  { induction a as [|z a IH]; intros b k x H; cbn in H; [lia|]. destruct k; cbn; [reflexivity|]. f_equal. apply IH. lia. }
  assert (U2 : forall A (a b : list A) k x, upd (a ++ b) (length a + k) x = a ++ upd b k x).
  { induction a as [|z a IH]; intros b k x; cbn; [reflexivity|]. f_equal. apply IH. }
  intros A. induction L as [|b L IH]; intros l q x H Hq; [cbn in H; lia|]. destruct l as [|l]; cbn [firstn concat nth length upd].
  - cbn in Hq |- *. now apply U1.
  - cbn in Hq, H |- *. rewrite app_length, <- Nat.add_assoc, U2. f_equal. apply IH; [lia|auto].
Qed.
Lemma same_lengths_offset : forall {A B} (L : list (list A)) (M : list (list B)) l, map (@length A) L = map (@length B) M -> length (concat (firstn l L)) = length (concat (firstn l M)).
Proof.
  intros A B. induction L as [|a L IH]; intros [|b M] l H; cbn in H; try discriminate; [now destruct l|]. inversion H. destruct l; [reflexivity|]. cbn. rewrite !app_length. erewrite IH by eassumption. lia.
Qed.
Lemma nth_rows : forall {A} (f : nat -> nat -> A) n B z t d, z < B -> t < n -> nth (z * n + t) (flat_map (fun z => map (f z) (seq 0 n)) (seq 0 B)) d = f z t.
Proof.
  intros A f n. assert (G : forall B s z t d, z < B -> t < n -> nth (z * n + t) (flat_map (fun z => map (f z) (seq 0 n)) (seq s B)) d = f (s + z)%nat t).
  { induction B as [|B IH]; intros s z t d Hz Ht; [lia|]. cbn [seq flat_map]. destruct z as [|z].
    - cbn [Nat.mul plus]. rewrite app_nth1 by now rewrite map_length, seq_length. rewrite nth_indep with (d' := f s 0) by now rewrite map_length, seq_length. rewrite map_nth, seq_nth by auto. now rewrite Nat.add_0_r.
    - rewrite app_nth2 by (rewrite map_length, seq_length; nia). rewrite map_length, seq_length. replace (S z * n + t - n) with (z * n + t) by nia. rewrite IH by lia. f_equal. lia. }
  intros B z t d Hz Ht. now rewrite G.
Qed.
Lemma rows_length : forall {A C} (f : nat -> C -> A) (l : list C) B, length (flat_map (fun z => map (f z) l) (seq 0 B)) = B * length l.
Proof. intros A C f l B. generalize 0. induction B as [|B IH]; intros s; [reflexivity|]. cbn. rewrite app_length, map_length, IH. reflexivity. Qed.

Lemma others_split : forall B i, i < B -> rb_others B i = seq (S i) (B - S i) ++ seq 0 i.
Proof.
  intros B i H. unfold rb_others. replace B with ((i + 1) + (B - S i)) at 1 2 by lia. rewrite seq_app. cbn [plus].
  rewrite skipn_app, firstn_app, seq_length, Nat.sub_diag, skipn_all2 by (rewrite seq_length; lia). cbn [skipn firstn app]. rewrite firstn_all2 by (rewrite seq_length; lia). rewrite app_nil_r.
  rewrite (seq_app i 1 0). cbn [plus seq]. rewrite app_assoc, removelast_last. f_equal. f_equal. lia.
Qed.

Section L.
Context {K : CField}.
Local Open Scope cr_scope.
Add Ring K_ring116 : (rth K).
Variable ex : K -> K.

Lemma input_occupied : forall n sd o t, (0 < o)%nat -> (t < n ^ o)%nat -> rb_input (K := K) (rb_power (map (bit sd) (seq 0 n)) o) t = occupied (K := K) sd (nth t (tuples n o) []).
Proof.
  intros n sd o t H Ht. rewrite power_tuples by auto. unfold rb_input. rewrite nth_indep with (d' := forallb (bit sd) []) by (rewrite map_length, tuples_length; auto). rewrite map_nth.
  generalize (nth t (tuples n o) []). intros T. unfold occupied. induction T as [|i T IH]; [reflexivity|]. cbn [forallb prodf fold_right]. fold (prodf (fun i => if bit sd i then rI else rO : K) T).
  rewrite <- IH. destruct (bit sd i), (forallb (bit sd) T); cbn [andb]; ring.
Qed.

(** ** the forward pass *)
Fixpoint deep_out (B : nat) (Ws : list (list K)) (v : nat -> K) : nat -> K :=
  match Ws with [] => v | W :: Ws => deep_out B Ws (fun j => activation ex (rb_contract W B v j)) end.
Fixpoint deep_entries (B : nat) (Ws : list (list K)) (v : nat -> K) : list (entry K) :=
  match Ws with [] => [] | W :: Ws => ((B, v), rb_contract W B v, W) :: deep_entries B Ws (fun j => activation ex (rb_contract W B v j)) end.
Lemma deep_fold : forall B Ws es v, fold_left (rb_deep_step ex B) Ws (es, v) = (es ++ deep_entries B Ws v, deep_out B Ws v).
Proof. intros B. induction Ws as [|W Ws IH]; intros es v; cbn [fold_left deep_entries deep_out]; [now rewrite app_nil_r|]. unfold rb_deep_step at 2. rewrite IH, <- app_assoc. reflexivity. Qed.
Lemma deep_out_app : forall B A C v, deep_out B (A ++ C) v = deep_out B C (deep_out B A v).
Proof. intros B. induction A as [|W A IH]; intros C v; [reflexivity|]. cbn. apply IH. Qed.
Lemma deep_entries_app : forall B A C v, deep_entries B (A ++ C) v = deep_entries B A v ++ deep_entries B C (deep_out B A v).
Proof. intros B. induction A as [|W A IH]; intros C v; [reflexivity|]. cbn. f_equal. apply IH. Qed.
Lemma deep_entries_length : forall B Ws v, length (deep_entries B Ws v) = length Ws.
Proof. intros B. induction Ws as [|W Ws IH]; intros v; [reflexivity|]. cbn. now rewrite IH. Qed.

(** ** the loop from the last layer to the first *)
Definition idm : nat -> nat -> K := fun y k => if Nat.eqb y k then 1 else 0.
Definition dz (dy : nat -> nat -> K) (lin : nat -> K) : nat -> nat -> K := fun y z => dy y z * activation_deriv ex (lin z).
Definition grad_of (s : K) (dy : nat -> nat -> K) (e : entry K) : grad3 K := (fst (fst (fst e)), fun y z t => dz dy (snd (fst e)) y z * snd (fst (fst e)) t * s).
Fixpoint back (B : nat) (s : K) (es : list (entry K)) : (nat -> nat -> K) * list (grad3 K) :=
  match es with
  | [] => (idm, [])
  | e :: es => let r := back B s es in
      (fun y k => sumf (fun z => dz (fst r) (snd (fst e)) y z * nth (z * B + k) (snd e) 0) (seq 0 B), grad_of s (fst r) e :: snd r)
  end.
Lemma back_deep : forall B m s es a, (m <= a)%nat ->
  fold_right (fun x st => rb_back_step ex B m s st x) (idm, []) (combine (seq a (length es)) es) = (fst (back B s es), rev (snd (back B s es))).
Proof.
  intros B m s. induction es as [|e es IH]; intros a Ha; [reflexivity|]. cbn [length seq combine fold_right back fst snd rev]. rewrite IH by lia. destruct e as [[x lin] W].
  unfold rb_back_step. apply Nat.leb_le in Ha. rewrite Ha. reflexivity.
Qed.
Lemma back_first : forall B m s es a st, (a + length es <= m)%nat ->
  fold_right (fun x st => rb_back_step ex B m s st x) st (combine (seq a (length es)) es) = (fst st, snd st ++ rev (map (grad_of s (fst st)) es)).
Proof.
  intros B m s. induction es as [|e es IH]; intros a st Ha; cbn [length] in Ha; [cbn; rewrite app_nil_r; now destruct st|]. cbn [length seq combine fold_right map rev]. rewrite IH by lia. destruct e as [[x lin] W].
  unfold rb_back_step. destruct (Nat.leb_spec m a); [lia|]. cbn [fst snd]. rewrite <- app_assoc. reflexivity.
Qed.
Definition all_grads (B : nat) (s : K) (first deep : list (entry K)) : list (grad3 K) := map (grad_of s (fst (back B s deep))) first ++ snd (back B s deep).
Lemma back_all : forall B s first deep,
  rev (snd (fold_left (rb_back_step ex B (length first) s) (rev (enumerate (first ++ deep))) (fun y k => if Nat.eqb y k then 1 else 0, []))) = all_grads B s first deep.
Proof.
  intros B s first deep. change (fun y k => if Nat.eqb y k then (1 : K) else 0) with idm. rewrite <- fold_left_rev_right, rev_involutive, enumerate_app, fold_right_app.
  rewrite back_deep by lia. unfold enumerate. rewrite back_first by lia. cbn [fst snd]. rewrite rev_app_distr, !rev_involutive. reflexivity.
Qed.
Lemma last_diagonal : forall B s first deep g, (exists l, all_grads B s first deep = l ++ [g]) -> forall y z t, y <> z -> snd g y z t = 0.
Proof.
  intros B s first deep g (l & E) y z t N. unfold all_grads in E.
  assert (D : forall e, snd (grad_of s idm e) y z t = 0). { intros e. cbn. unfold dz, idm. destruct (Nat.eqb_spec y z); [congruence|]. ring. }
  assert (X : deep = [] \/ exists l' e, snd (back B s deep) = l' ++ [grad_of s idm e]).
  { clear E. induction deep as [|e es IH]; [now left|]. right. cbn [back snd]. destruct IH as [->|(l' & e' & IH)]; [exists [], e; reflexivity|]. rewrite IH. exists (grad_of s (fst (back B s es)) e :: l'), e'. reflexivity. }
  destruct X as [->|(l' & e & X)].
  - cbn [back snd fst] in E. rewrite app_nil_r in E. destruct first as [|e first] using rev_ind; [cbn in E; now apply app_cons_not_nil in E|]. rewrite map_app in E. apply app_inj_tail in E as [_ <-]. apply D.
  - rewrite X, app_assoc in E. apply app_inj_tail in E as [_ <-]. apply D.
Qed.
Lemma join_all : forall B other grads, (forall g, (exists l, grads = l ++ [g]) -> forall y z t, y <> z -> snd g y z t = 0) ->
  rb_join B other grads = flat_map (fun g => rb_collect (K := K) B g (fun y _ => other y)) grads.
Proof.
  intros B other grads H. unfold rb_join. destruct grads as [|g grads] using rev_ind; [reflexivity|]. clear IHgrads. rewrite removelast_last, rev_app_distr, flat_map_app. cbn [rev app flat_map]. f_equal. rewrite app_nil_r.
  unfold rb_collect. assert (D := H g (ex_intro _ grads eq_refl)). assert (G : forall l, flat_map (fun z => map (fun t => sumf (fun y => other z * snd g y z t) (seq 0 B)) (seq 0 (fst g))) l = flat_map (fun z => map (fun t => sumf (fun y => other y * snd g y z t) (seq 0 B)) (seq 0 (fst g))) l).
  { induction l as [|z l IH]; [reflexivity|]. cbn [flat_map]. f_equal; [|exact IH]. apply map_ext. intros t. apply sumf_ext. intros y _. destruct (Nat.eq_dec y z) as [->|N]; [reflexivity|]. rewrite (D y z t N). ring. }
  apply G.
Qed.

(** ** tangents *)
Fixpoint tang (B : nat) (Ws : list (list K)) (v dv : nat -> K) : nat -> K :=
  match Ws with [] => dv | W :: Ws => tang B Ws (fun j => activation ex (rb_contract W B v j)) (fun j => activation_deriv ex (rb_contract W B v j) * rb_contract W B dv j) end.
Lemma delta_sum : forall B y (f : nat -> K), (y < B)%nat -> sumf (fun k => idm y k * f k) (seq 0 B) = f y.
Proof.
  intros B y f H. rewrite (sumf_single _ (seq 0 B) y); [|apply seq_NoDup|apply in_seq; lia|intros x _ N; unfold idm; destruct (Nat.eqb_spec y x); [congruence|ring]].
  unfold idm. rewrite Nat.eqb_refl. ring.
Qed.
Lemma back_tang : forall B s Ws v dv y, (y < B)%nat -> sumf (fun k => fst (back B s (deep_entries B Ws v)) y k * dv k) (seq 0 B) = tang B Ws v dv y.
Proof.
  intros B s. induction Ws as [|W Ws IH]; intros v dv y Hy; cbn [deep_entries back tang fst].
  - now apply delta_sum.
  - rewrite <- IH by auto. cbn [fst snd]. set (dy := fst (back B s (deep_entries B Ws (fun j => activation ex (rb_contract W B v j))))).
    erewrite sumf_ext by (intros k _; rewrite <- sumf_mul_r; reflexivity). rewrite sumf_swap. apply sumf_ext. intros z _. unfold dz. change (rb_contract W B dv z) with (sumf (fun t => nth (z * B + t) W 0 * dv t) (seq 0 B)). rewrite <- !sumf_mul_l. apply sumf_ext. intros k _. ring.
Qed.
End L.
