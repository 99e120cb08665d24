(** Linear combinations of creation operators acting on overlaps: anticommutation, and the expansion in minors. *)
From Coq Require Import List ZArith NArith Arith Bool Lia Permutation.
From Verif Require Import Py BitSpec BitLemmas Fock FockLemmas Combos Alg MathTools PermLemmas DetLemmas OrbSpec OrbLemmas OrbMain.
Import ListNotations.

Definition adds (n : N) (s : list nat) : N := fold_right (fun k n => flip n k) n s.
Lemma adds_cons : forall n k s, adds n (k :: s) = flip (adds n s) k.
Proof. reflexivity. Qed.
Lemma adds_app : forall n a b, adds n (a ++ b) = adds (adds n b) a.
Proof. intros. unfold adds. apply fold_right_app. Qed.
Lemma adds_perm : forall n a b, Permutation a b -> adds n a = adds n b.
Proof. intros n. induction 1; auto; try congruence; rewrite !adds_cons; [congruence|apply flip_comm]. Qed.
Lemma adds_bit_in : forall n s i, NoDup s -> bit (adds n s) i = xorb (bit n i) (existsb (Nat.eqb i) s).
Proof.
  intros n s i. induction s as [|k s IH]; intros D; [now rewrite xorb_false_r|]. inversion D as [|? ? D1 D2]; subst. rewrite adds_cons, bit_flip, IH by auto. cbn [existsb].
  rewrite (Nat.eqb_sym i k). destruct (Nat.eqb_spec k i) as [->|]; [|rewrite xorb_false_r; reflexivity].
  replace (existsb (Nat.eqb i) s) with false; [cbn; now rewrite xorb_false_r|]. symmetry. apply not_true_is_false. intros E. apply existsb_exists in E as (y & Hy & E). apply Nat.eqb_eq in E. now subst.
Qed.
Lemma adds_par : forall n s i, par (adds n s) i = xorb (par n i) (Nat.odd (length (filter (fun k => Nat.ltb k i) s))).
Proof.
  intros n s i. induction s as [|k s IH]; [now rewrite xorb_false_r|]. rewrite adds_cons, par_flip, IH. cbn [filter].
  destruct (Nat.ltb k i); [|now rewrite !xorb_false_r]. cbn [length]. rewrite Nat.odd_succ, <- Nat.negb_odd. destruct (par n i), (Nat.odd _); reflexivity.
Qed.

Section Wedge.
Context {K : CRing}.
Local Open Scope cr_scope.
Add Ring K_ring89 : (rth K).
Definition linf (cols : list nat) (r : nat -> K) (f : N -> K) : N -> K := fun n => sumf (fun j => r j * opf (Cre j) f n) cols.
Fixpoint linsf (cols : list nat) (rs : list (nat -> K)) (f : N -> K) : N -> K :=
  match rs with [] => f | r :: t => linsf cols t (linf cols r f) end.
Lemma through_det : forall C cols rows f, through f (det_of C cols rows) = linsf cols (map C rows) f 0%N.
Proof. intros C cols rows. induction rows as [|k t IH]; intros f; [apply through_one|]. rewrite through_det_cons, IH. reflexivity. Qed.
Lemma linf_ext : forall cols r f g n, (forall n, f n = g n) -> linf cols r f n = linf cols r g n.
Proof. intros cols r f g n H. unfold linf. apply sumf_ext. intros j _. now rewrite (opf_ext _ f g). Qed.
Lemma linf_row : forall cols r r' f n, (forall j, In j cols -> r j = r' j) -> linf cols r f n = linf cols r' f n.
Proof. intros cols r r' f n H. unfold linf. apply sumf_ext. intros j Hj. now rewrite H. Qed.
Lemma linsf_ext : forall cols rs f g n, (forall n, f n = g n) -> linsf cols rs f n = linsf cols rs g n.
Proof. intros cols rs. induction rs as [|r rs IH]; intros f g n H; [apply H|]. cbn. apply IH. intros. now apply linf_ext. Qed.
Lemma linsf_app : forall cols a b f n, linsf cols (a ++ b) f n = linsf cols b (linsf cols a f) n.
Proof. intros cols a. induction a as [|r a IH]; intros b f n; [reflexivity|]. cbn. apply IH. Qed.
Lemma opf_comb : forall o (f g : N -> K) a b n, opf o (fun m => a * f m + b * g m) n = a * opf o f n + b * opf o g n.
Proof. intros. unfold opf. destruct (Bool.eqb _ _); ring. Qed.
Lemma linf_comb : forall cols r (f g : N -> K) a b n, linf cols r (fun m => a * f m + b * g m) n = a * linf cols r f n + b * linf cols r g n.
Proof. intros. unfold linf. rewrite <- !sumf_mul_l, <- sumf_add. apply sumf_ext. intros j _. rewrite opf_comb. ring. Qed.
Lemma linsf_comb : forall cols rs (f g : N -> K) a b n, linsf cols rs (fun m => a * f m + b * g m) n = a * linsf cols rs f n + b * linsf cols rs g n.
Proof.
  intros cols rs. induction rs as [|r rs IH]; intros f g a b n; [reflexivity|]. cbn [linsf].
  rewrite (linsf_ext cols rs _ (fun m => a * linf cols r f m + b * linf cols r g m)) by (intros; apply linf_comb). apply IH.
Qed.
Lemma linsf_scale : forall cols rs (f : N -> K) a n, linsf cols rs (fun m => a * f m) n = a * linsf cols rs f n.
Proof.
  intros. rewrite (linsf_ext cols rs _ (fun m => a * f m + 0 * f m)) by (intros; ring). rewrite linsf_comb. ring.
Qed.
(** the row as a sum *)
Lemma linf_add : forall cols r s a (f : N -> K) n, linf cols (fun j => r j + a * s j) f n = linf cols r f n + a * linf cols s f n.
Proof. intros. unfold linf. rewrite <- sumf_mul_l, <- sumf_add. apply sumf_ext. intros j _. ring. Qed.
Lemma cre_anti : forall i j (f : N -> K) n, opf (Cre i) (opf (Cre j) f) n = - opf (Cre j) (opf (Cre i) f) n.
Proof.
  intros i j f n. destruct (Nat.eq_dec i j) as [->|H]; [|now apply opf_anti].
  assert (E : opf (Cre j) (opf (Cre j) f) n = 0); [|rewrite E; ring]. unfold opf, Cre. cbn [fst snd]. rewrite bit_flip_eq. destruct (bit n j); cbn; ring.
Qed.
Lemma cre_twice : forall j (f : N -> K) n, opf (Cre j) (opf (Cre j) f) n = 0.
Proof. intros. unfold opf, Cre. cbn [fst snd]. rewrite bit_flip_eq. destruct (bit n j); cbn; ring. Qed.
Lemma opf_sum : forall A o (l : list A) (c : A -> K) (f : A -> N -> K) n, opf o (fun m => sumf (fun x => c x * f x m) l) n = sumf (fun x => c x * opf o (f x) n) l.
Proof.
  intros A o l c f n. unfold opf. destruct (Bool.eqb _ _); [symmetry; apply sumf_zero; intros; ring|]. rewrite <- sumf_mul_l. apply sumf_ext. intros; ring.
Qed.
Lemma linf_cre : forall cols r i (f : N -> K) n, opf (Cre i) (linf cols r f) n = - linf cols r (opf (Cre i) f) n.
Proof.
  intros cols r i f n. unfold linf. rewrite opf_sum. transitivity (sumf (fun j => (- (1)) * (r j * opf (Cre j) (opf (Cre i) f) n)) cols); [|rewrite sumf_mul_l; ring].
  apply sumf_ext. intros j _. rewrite cre_anti. ring.
Qed.
Lemma linf_anti : forall cols r s (f : N -> K) n, linf cols r (linf cols s f) n = - linf cols s (linf cols r f) n.
Proof.
  intros cols r s f n. unfold linf at 1. transitivity (sumf (fun j => (- (1)) * (r j * linf cols s (opf (Cre j) f) n)) cols).
  - apply sumf_ext. intros j _. rewrite linf_cre. ring.
  - rewrite sumf_mul_l. transitivity (- sumf (fun j => r j * linf cols s (opf (Cre j) f) n) cols); [ring|]. f_equal.
    unfold linf. rewrite (sumf_ext _ (fun j => sumf (fun i => r j * (s i * opf (Cre i) (opf (Cre j) f) n)) cols)) by (intros; now rewrite <- sumf_mul_l).
    rewrite sumf_swap. apply sumf_ext. intros i _. rewrite opf_sum, <- sumf_mul_l. apply sumf_ext. intros j _. change (fun m : N => opf (Cre j) f m) with (opf (Cre j) f). ring.
Qed.
Lemma linf_twice : forall cols r (f : N -> K) n, linf cols r (linf cols r f) n = 0.
Proof.
  intros cols r f n. assert (G : forall l, sumf (fun j => r j * opf (Cre j) (fun m => sumf (fun i => r i * opf (Cre i) f m) l) n) l = 0); [|apply G].
  induction l as [|c l IH]; [reflexivity|]. rewrite sumf_cons.
  rewrite (opf_ext (Cre c) (fun m => sumf (fun i => r i * opf (Cre i) f m) (c :: l)) (fun m => r c * opf (Cre c) f m + 1 * linf l r f m)) by (intros; rewrite sumf_cons; unfold linf; ring).
  rewrite opf_comb, cre_twice, linf_cre.
  rewrite (sumf_ext _ (fun j => r c * (r j * opf (Cre j) (opf (Cre c) f) n) + r j * opf (Cre j) (fun m => sumf (fun i => r i * opf (Cre i) f m) l) n)).
  - rewrite sumf_add, IH, sumf_mul_l. unfold linf. ring.
  - intros j _. rewrite (opf_ext (Cre j) (fun m => sumf (fun i => r i * opf (Cre i) f m) (c :: l)) (fun m => r c * opf (Cre c) f m + 1 * linf l r f m)) by (intros; rewrite sumf_cons; unfold linf; ring).
    rewrite opf_comb. unfold linf. ring.
Qed.
(** moving a row to the front *)
Lemma linsf_move : forall cols b e a (f : N -> K) n, linsf cols (b ++ e :: a) f n = m1pow (length b) * linsf cols (e :: b ++ a) f n.
Proof.
  intros cols b. induction b as [|r b IH]; intros e a f n; [unfold m1pow; cbn; ring|]. cbn [app linsf length]. rewrite IH. cbn [linsf]. rewrite m1pow_S.
  rewrite (linsf_ext cols (b ++ a) (linf cols e (linf cols r f)) (fun m => (- (1)) * linf cols r (linf cols e f) m)) by (intros; rewrite linf_anti; ring).
  rewrite linsf_scale. ring.
Qed.
Lemma linsf_twice : forall cols a b c r (f : N -> K) n, linsf cols (a ++ r :: b ++ r :: c) f n = 0.
Proof.
  intros cols a b c r f n. rewrite linsf_move. replace (a ++ b ++ r :: c) with ((a ++ b) ++ r :: c) by (now rewrite app_assoc). cbn [linsf]. rewrite linsf_move. cbn [linsf].
  rewrite (linsf_ext cols _ _ (fun _ => 0 * f n)) by (intros; rewrite linf_twice; ring). rewrite linsf_scale. ring.
Qed.
Lemma linsf_rows : forall cols rs rs' (f : N -> K) n, Forall2 (fun r r' => forall j, In j cols -> r j = r' j) rs rs' -> linsf cols rs f n = linsf cols rs' f n.
Proof.
  intros cols rs rs' f n H. revert f. induction H as [|r r' rs rs' H H1 IH]; intros f; [reflexivity|]. cbn. rewrite IH. apply linsf_ext. intros. now apply linf_row.
Qed.
(** columns in which a row is zero *)
Lemma linf_cols : forall a b r (f : N -> K) n, (forall j, In j a -> r j = 0) -> linf (a ++ b) r f n = linf b r f n.
Proof. intros a b r f n H. unfold linf. rewrite sumf_app, sumf_zero; [ring|]. intros j Hj. rewrite H by auto. ring. Qed.
Lemma linf_cols' : forall a b r (f : N -> K) n, (forall j, In j b -> r j = 0) -> linf (a ++ b) r f n = linf a r f n.
Proof. intros a b r f n H. unfold linf. rewrite sumf_app, (sumf_zero _ b); [ring|]. intros j Hj. rewrite H by auto. ring. Qed.
Lemma linsf_cols : forall a b rs (f : N -> K) n, (forall r, In r rs -> forall j, In j a -> r j = 0) -> linsf (a ++ b) rs f n = linsf b rs f n.
Proof.
  intros a b rs. induction rs as [|r rs IH]; intros f n H; [reflexivity|]. cbn. rewrite IH by (intros; eapply H; eauto; now right). apply linsf_ext. intros. apply linf_cols. apply H. now left.
Qed.
Lemma linsf_cols' : forall a b rs (f : N -> K) n, (forall r, In r rs -> forall j, In j b -> r j = 0) -> linsf (a ++ b) rs f n = linsf a rs f n.
Proof.
  intros a b rs. induction rs as [|r rs IH]; intros f n H; [reflexivity|]. cbn. rewrite IH by (intros; eapply H; eauto; now right). apply linsf_ext. intros. apply linf_cols'. apply H. now left.
Qed.

(** * expansion in minors *)
Lemma regroup : forall cols m (g : nat -> list nat -> K), NoDup cols ->
  sumf (fun s => sumf (fun j => g j s) (filter (fun j => negb (existsb (Nat.eqb j) s)) cols)) (combinations cols m) =
  sumf (fun s => sumf (fun p => g (fst p) (snd p)) (picks s)) (combinations cols (S m)).
Proof.
  induction cols as [|c cols IH]; intros m g D; [destruct m; cbn; rewrite ?sumf_cons; cbn; ring|]. inversion D as [|? ? D1 D2]; subst.
  assert (Ne : forall s k, In s (combinations cols k) -> existsb (Nat.eqb c) s = false).
  { intros s k Hs. apply combinations_In in Hs as [Hs _]. apply not_true_is_false. intros E. apply existsb_exists in E as (y & Hy & E). apply Nat.eqb_eq in E. subst y. apply D1. eapply subseq_incl; eauto. }
  assert (Fc : forall s, filter (fun j => negb (existsb (Nat.eqb j) (c :: s))) cols = filter (fun j => negb (existsb (Nat.eqb j) s)) cols).
  { intros s. apply filter_ext_in. intros j Hj. cbn [existsb]. rewrite (proj2 (Nat.eqb_neq j c)) by (intros ->; auto). reflexivity. }
  assert (R : sumf (fun s => sumf (fun p => g (fst p) (snd p)) (picks s)) (combinations (c :: cols) (S m)) =
    sumf (fun s => g c s) (combinations cols m) + sumf (fun s => sumf (fun p => g (fst p) (c :: snd p)) (picks s)) (combinations cols m)
    + sumf (fun s => sumf (fun p => g (fst p) (snd p)) (picks s)) (combinations cols (S m))).
  { cbn [combinations]. rewrite sumf_app, sumf_map. f_equal. rewrite <- sumf_add. apply sumf_ext. intros s _. cbn [picks]. rewrite sumf_cons, sumf_map. reflexivity. }
  assert (L : sumf (fun s => sumf (fun j => g j s) (filter (fun j => negb (existsb (Nat.eqb j) s)) (c :: cols))) (combinations cols m) =
    sumf (fun s => g c s) (combinations cols m) + sumf (fun s => sumf (fun j => g j s) (filter (fun j => negb (existsb (Nat.eqb j) s)) cols)) (combinations cols m)).
  { rewrite <- sumf_add. apply sumf_ext. intros s Hs. cbn [filter]. rewrite (Ne s m Hs). cbn [negb]. now rewrite sumf_cons. }
  rewrite R. destruct m as [|m].
  - rewrite !combinations_0. rewrite combinations_0 in L. rewrite L. rewrite <- (IH 0%nat g D2). rewrite !combinations_0. rewrite !sumf_cons. cbn [picks]. cbn. ring.
  - cbn [combinations]. rewrite sumf_app, sumf_map.
    rewrite L. rewrite (IH (S m) g D2). rewrite <- (IH m (fun j s => g j (c :: s)) D2).
    rewrite (sumf_ext _ (fun s => sumf (fun j => g j (c :: s)) (filter (fun j => negb (existsb (Nat.eqb j) s)) cols)) (combinations cols m)); [ring|].
    intros s Hs. cbn [filter existsb]. rewrite Nat.eqb_refl. cbn [orb negb]. pose proof (Fc s) as E. cbn [existsb] in E. rewrite E. reflexivity.
Qed.
Lemma m1pow_odd : forall k, sg (Nat.odd k) = m1pow (K := K) k.
Proof. intros k. unfold sg, m1pow. rewrite <- Nat.negb_odd. destruct (Nat.odd k); reflexivity. Qed.
Lemma opf_adds : forall cols n s j (f : N -> K), In j cols -> NoDup s -> (forall i, bit n i = true -> forall k, In k cols -> (k < i)%nat) ->
  opf (Cre j) f (adds n s) = if existsb (Nat.eqb j) s then 0 else m1pow (length (filter (fun k => Nat.ltb k j) s)) * f (adds n (j :: s)).
Proof.
  intros cols n s j f Hj Hs Hn. unfold opf, Cre. cbn [fst snd]. rewrite adds_bit_in, adds_par by auto.
  assert (Bj : bit n j = false) by (destruct (bit n j) eqn:B; auto; specialize (Hn j B j Hj); lia).
  assert (Pj : par n j = false). { apply par_above. intros i Hi. destruct (bit n i) eqn:B; auto. specialize (Hn i B j Hj). lia. }
  rewrite Bj, Pj. rewrite !xorb_false_l. destruct (existsb _ s); cbn [Bool.eqb]; [reflexivity|]. rewrite m1pow_odd. reflexivity.
Qed.
Lemma linsf_minors : forall cols rs (f : N -> K) n, increasing cols -> (forall i, bit n i = true -> forall k, In k cols -> (k < i)%nat) ->
  linsf cols rs f n = sumf (fun s => detR rs s * f (adds n s)) (combinations cols (length rs)).
Proof.
  intros cols rs. induction rs as [|r rs IH]; intros f n I Hn; [cbn [length linsf]; rewrite combinations_0, sumf_cons; cbn; ring|].
  cbn [linsf length]. rewrite (IH _ n I Hn).
  transitivity (sumf (fun s => sumf (fun j => (r j * m1pow (length (filter (fun k => Nat.ltb k j) s)) * detR rs s * f (adds n (j :: s)))) (filter (fun j => negb (existsb (Nat.eqb j) s)) cols)) (combinations cols (length rs))).
  - apply sumf_ext. intros s Hs. apply combinations_increasing_In in Hs as (Is & _ & _); auto. rewrite sumf_filter. unfold linf. rewrite <- sumf_mul_l. apply sumf_ext. intros j Hj.
    rewrite (opf_adds cols) by (auto; now apply increasing_NoDup). destruct (existsb _ s); cbn [negb]; ring.
  - rewrite (regroup cols (length rs) (fun j s => r j * m1pow (length (filter (fun k => Nat.ltb k j) s)) * detR rs s * f (adds n (j :: s)))) by (now apply increasing_NoDup).
    apply sumf_ext. intros s Hs. apply combinations_increasing_In in Hs as (Is & _ & _); auto. cbn [detR]. rewrite <- sumf_mul_r. rewrite <- (spicks_snd (K := K)), sumf_map.
    apply sumf_ext. intros p Hp. rewrite (spicks_sign s p Is Hp). apply spicks_In, picks_perm in Hp. rewrite (adds_perm n _ _ Hp). ring.
Qed.
End Wedge.
