From Coq Require Import List ZArith NArith Arith Bool Lia.
From Verif Require Import Py BitSpec BitLemmas Fock FockLemmas Slater SlaterBits SlaterBits2 SignLemmas Alg OrbSpec.
Import ListNotations.

Lemma par_add : forall n i d, par n (i + d) = xorb (par n i) (Nat.odd (length (filter (bit n) (seq i d)))).
Proof.
  intros n i d. unfold par, nbelow. rewrite seq_app, filter_app, app_length, Nat.odd_add. cbn [Nat.add]. reflexivity.
Qed.
(** electrons jumped over, as parities *)
Lemma jumped_par : forall n i j, i <> j -> bit n i = true ->
  Nat.odd (jumped n i j) = if Nat.ltb i j then xorb (xorb (par n i) (par n j)) (xorb true (bit n j))
                           else xorb (par n i) (par n j).
Proof.
  intros n i j H B. unfold jumped. destruct (Nat.ltb_spec i j).
  - rewrite Nat.min_l, Nat.max_r by lia. cbn [seq filter]. rewrite Nat.eqb_refl, andb_false_r.
    assert (P : par n j = xorb (xorb (par n i) true) (Nat.odd (length (filter (bit n) (seq (S i) (j - i - 1)))))).
    { replace j with (S i + (j - i - 1)) at 1 by lia. now rewrite par_add, par_S, B. }
    replace (j - i) with ((j - i - 1) + 1) by lia. rewrite seq_app, filter_app, app_length, Nat.odd_add.
    replace (length (filter (fun j0 => bit n j0 && negb (j0 =? i)) (seq (S i) (j - i - 1)))) with (length (filter (bit n) (seq (S i) (j - i - 1)))).
    2:{ f_equal. apply filter_ext_in. intros a Ha. apply in_seq in Ha. rewrite (proj2 (Nat.eqb_neq a i)) by lia. now rewrite andb_true_r. }
    replace (S i + (j - i - 1)) with j by lia. cbn [seq filter]. rewrite (proj2 (Nat.eqb_neq j i)) by lia. cbn [negb]. rewrite andb_true_r.
    rewrite P. clear P.
    destruct (par n i), (Nat.odd (length (filter (bit n) (seq (S i) (j - i - 1))))), (bit n j); reflexivity.
  - rewrite Nat.min_r, Nat.max_l by lia. rewrite seq_S, filter_app, app_length, Nat.odd_add. cbn [filter]. replace (j + (i - j)) with i by lia.
    rewrite Nat.eqb_refl, andb_false_r. cbn [length Nat.odd].
    assert (P : par n i = xorb (par n j) (Nat.odd (length (filter (bit n) (seq j (i - j)))))) by (rewrite <- par_add; f_equal; lia).
    rewrite P. clear P.
    replace (length (filter (fun j0 => bit n j0 && negb (j0 =? i)) (seq j (i - j)))) with (length (filter (bit n) (seq j (i - j)))).
    2:{ f_equal. apply filter_ext_in. intros a Ha. apply in_seq in Ha. rewrite (proj2 (Nat.eqb_neq a i)) by lia. now rewrite andb_true_r. }
    destruct (par n j), (Nat.odd (length (filter (bit n) (seq j (i - j))))); reflexivity.
Qed.

Section Orb.
Context {K : CRing}.
Local Open Scope cr_scope.
Add Ring K_ring83 : (rth K).
Definition sg (b : bool) : K := if b then - (1) else 1.
Lemma sgnr_sgn : forall b, sgnr (K := K) (sgn b) = sg b.
Proof. intros []; reflexivity. Qed.
Lemma sg_xorb : forall a b, sg (xorb a b) = sg a * sg b.
Proof. intros [] []; cbn; ring. Qed.
Lemma sg_sq : forall a, sg a * sg a = 1.
Proof. intros []; cbn; ring. Qed.
(** operators acting on the overlaps *)
Definition opf (o : op) (f : N -> K) : N -> K :=
  fun n => if Bool.eqb (bit n (snd o)) (fst o) then 0 else sg (par n (snd o)) * f (flip n (snd o)).
Definition opsf (os : list op) (f : N -> K) : N -> K := fold_right opf f os.
Definition combf (T : list (K * list op)) (f : N -> K) : N -> K := fun n => sumf (fun t => fst t * opsf (snd t) f n) T.

Lemma opsf_applys : forall os f b n, sg b * opsf os f n =
  match applys os (Some (b, n)) with None => 0 | Some (b', m) => sg b' * f m end.
Proof.
  induction os as [|o os IH]; intros f b n; [reflexivity|]. rewrite applys_cons. cbn [opsf fold_right apply1]. unfold opf at 1.
  destruct (Bool.eqb (bit n (snd o)) (fst o)); [rewrite applys_None; ring|]. rewrite <- IH, sg_xorb. unfold opsf. ring.
Qed.
Lemma through_app : forall f u v, through (K := K) f (u ++ v) = through f u + through f v.
Proof. intros. unfold through. apply sumf_app. Qed.
Lemma through_scaled : forall f c v, through (K := K) f (scaled c v) = c * through f v.
Proof.
  intros. unfold through, scaled. rewrite sumf_map, <- sumf_mul_l. apply sumf_ext. intros [a m] _. cbn [fst snd]. ring.
Qed.
Lemma through_act : forall os f v, through (K := K) f (act os v) = through (opsf os f) v.
Proof.
  intros os f v. unfold through, act. rewrite sumf_flat_map. apply sumf_ext. intros [a m] _. cbn [fst snd].
  pose proof (opsf_applys os f false m) as H. cbn [sg] in H. destruct (applys os (Some (false, m))) as [[b m']|].
  - rewrite sumf_cons. cbn [sumf fold_right fst snd]. rewrite sgnr_sgn. replace (opsf os f m) with (sg b * f m'); [|rewrite <- H; ring]. unfold sumf; cbn; ring.
  - replace (opsf os f m) with (0 : K); [|rewrite <- H; ring]. unfold sumf; cbn; ring.
Qed.
Lemma through_comb : forall T f v, through (K := K) f (comb T v) = through (combf T f) v.
Proof.
  intros T f v. unfold comb. induction T as [|t T IH].
  - unfold through, combf. cbn. symmetry. apply sumf_zero. intros p _. ring.
  - cbn [flat_map]. rewrite through_app, IH, through_scaled, through_act. unfold through. rewrite <- sumf_mul_l, <- sumf_add. apply sumf_ext.
    intros [a m] _. unfold combf. rewrite sumf_cons. cbn [fst snd]. ring.
Qed.
Lemma through_one : forall f n, through (K := K) f [(1, n)] = f n.
Proof. intros. unfold through. rewrite sumf_cons. cbn. ring. Qed.
Lemma through_ext : forall f g v, (forall n, f n = g n) -> through (K := K) f v = through g v.
Proof. intros f g v H. unfold through. apply sumf_ext. intros p _. now rewrite H. Qed.

(** * rotations *)
Definition gen (p q : nat) (f : N -> K) : N -> K := fun n => opf (Ann p) (opf (Cre q) f) n - opf (Ann q) (opf (Cre p) f) n.
Definition rotf (p q : nat) (c s : K) (f : N -> K) : N -> K := fun n => f n + s * gen p q f n + (1 - c) * gen p q (gen p q f) n.
Lemma combf_rotor : forall p q f n, combf (rotor p q) f n = gen p q f n.
Proof. intros. unfold combf, rotor, gen. rewrite !sumf_cons. cbn [fst snd opsf fold_right]. cbn. ring. Qed.
Lemma opf_ext : forall o f g n, (forall n, f n = g n) -> opf o f n = opf o g n.
Proof. intros o f g n H. unfold opf. now rewrite H. Qed.
Lemma gen_ext : forall p q f g n, (forall n, f n = g n) -> gen p q f n = gen p q g n.
Proof. intros p q f g n H. unfold gen.
  rewrite (opf_ext (Ann p) (opf (Cre q) f) (opf (Cre q) g)) by (intros; now apply opf_ext).
  rewrite (opf_ext (Ann q) (opf (Cre p) f) (opf (Cre p) g)) by (intros; now apply opf_ext). reflexivity.
Qed.
Lemma rotf_ext : forall p q c s f g n, (forall n, f n = g n) -> rotf p q c s f n = rotf p q c s g n.
Proof.
  intros p q c s f g n H. unfold rotf. rewrite H, (gen_ext p q f g n H). rewrite (gen_ext p q (gen p q f) (gen p q g)); [reflexivity|]. intros. now apply gen_ext.
Qed.
Lemma through_rotated : forall p q c s f v, through (K := K) f (rotated p q c s v) = through (rotf p q c s f) v.
Proof.
  intros. unfold rotated. rewrite !through_app, !through_scaled, !through_comb. unfold through. rewrite <- !sumf_mul_l, <- !sumf_add. apply sumf_ext.
  intros [a m] _. cbn [fst snd]. unfold rotf. rewrite combf_rotor.
  replace (combf (rotor p q) (combf (rotor p q) f) m) with (gen p q (gen p q f) m); [ring|].
  rewrite combf_rotor. apply gen_ext. intros; symmetry; apply combf_rotor.
Qed.

(** the rotation on a determinant *)
Lemma rotf_value : forall p q c s f n, (p < q)%nat -> rotf p q c s f n =
  match bit n p, bit n q with
  | true, false => c * f n + s * (sg (xorb (par n p) (negb (par n q))) * f (flip (flip n p) q))
  | false, true => c * f n - s * (sg (xorb (par n p) (par n q)) * f (flip (flip n p) q))
  | _, _ => f n
  end.
Proof.
  intros p q c s f n H. unfold rotf, gen, opf, Ann, Cre. cbn [fst snd].
  assert (Lpq : Nat.ltb p q = true) by (apply Nat.ltb_lt; auto). assert (Lqp : Nat.ltb q p = false) by (apply Nat.ltb_ge; lia).
  assert (Lp : Nat.ltb p p = false) by apply Nat.ltb_irrefl. assert (Lq : Nat.ltb q q = false) by apply Nat.ltb_irrefl.
  assert (E1 : Nat.eqb p q = false) by (apply Nat.eqb_neq; lia). assert (E2 : Nat.eqb q p = false) by (apply Nat.eqb_neq; lia).
  assert (E3 : Nat.eqb p p = true) by apply Nat.eqb_refl. assert (E4 : Nat.eqb q q = true) by apply Nat.eqb_refl.
  rewrite !par_flip, !bit_flip. rewrite Lpq, Lqp, Lp, Lq, E1, E2, E3, E4.
  rewrite !(flip_comm n q p). rewrite ?flip_flip. rewrite ?(flip_comm (flip n p) q p), ?flip_flip.
  destruct (bit n p), (bit n q), (par n p), (par n q); cbn [xorb Bool.eqb negb sg]; ring.
Qed.
End Orb.
