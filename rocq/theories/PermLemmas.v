(** Permutations, permanents and Ryser's formula. *)
From Coq Require Import List ZArith Bool Lia Arith Permutation.
From Verif Require Import Py Slater Alg Graphs MathTools BicliqueLemmas Combos.
Import ListNotations.

Lemma Forall2_imp : forall {A B} (P Q : A -> B -> Prop) a b, (forall x y, P x y -> Q x y) ->
  Forall2 P a b -> Forall2 Q a b.
Proof. induction 2; constructor; auto. Qed.

(** ** picks and permutations *)
Lemma picks_split : forall {A} (l : list A) x l', In (x, l') (picks l) ->
  exists l1 l2, l = l1 ++ x :: l2 /\ l' = l1 ++ l2.
Proof.
  induction l as [|y l IH]; intros x l' H; [destruct H|]. cbn [picks] in H. destruct H as [[= -> ->]|H].
  - exists [], l'. auto.
  - apply in_map_iff in H as ([z m] & [= <- <-] & H). apply IH in H as (l1 & l2 & -> & ->).
    exists (y :: l1), l2. auto.
Qed.
Lemma picks_perm : forall {A} (l : list A) p, In p (picks l) -> Permutation l (fst p :: snd p).
Proof. intros A l [x l'] H. apply picks_split in H as (l1 & l2 & -> & ->). cbn [fst snd]. symmetry. apply Permutation_middle. Qed.
Lemma picks_length : forall {A} (l : list A) p, In p (picks l) -> length l = S (length (snd p)).
Proof. intros A l p H. apply picks_perm in H. now rewrite (Permutation_length H). Qed.
Lemma picks_fst : forall {A} (l : list A), map fst (picks l) = l.
Proof. induction l as [|x l IH]; auto. cbn [picks map fst]. f_equal. rewrite map_map. rewrite <- IH at 2. now apply map_ext. Qed.
Lemma picks_map : forall {A B} (f : A -> B) l,
  picks (map f l) = map (fun p => (f (fst p), map f (snd p))) (picks l).
Proof.
  induction l as [|x l IH]; auto. cbn [picks map]. rewrite IH, !map_map. reflexivity.
Qed.
Lemma picks_In : forall {A} (l1 l2 : list A) x, In (x, l1 ++ l2) (picks (l1 ++ x :: l2)).
Proof.
  induction l1 as [|y l1 IH]; intros l2 x; [now left|]. cbn [app picks]. right.
  apply in_map_iff. exists (x, l1 ++ l2). auto.
Qed.

Lemma permutations_In : forall {A} k (l p : list A), NoDup l ->
  (In p (permutations l k) <-> length p = k /\ NoDup p /\ incl p l).
Proof.
  induction k as [|k IH]; intros l p N.
  - simpl. split.
    + intros [<-|[]]. repeat split; [constructor|easy].
    + intros [L _]. destruct p; [now left|discriminate].
  - cbn [permutations]. rewrite in_flat_map. split.
    + intros ([x l'] & Hp & Hm). apply in_map_iff in Hm as (q & <- & Hq). cbn [fst snd] in *.
      pose proof (picks_perm _ _ Hp) as P. cbn [fst snd] in P.
      assert (N' : NoDup (x :: l')) by (eapply Permutation_NoDup; eauto). inversion N'; subst.
      apply IH in Hq as (L & Nq & I); auto. repeat split.
      * simpl. now rewrite L.
      * constructor; auto.
      * intros y [<-|Hy]; apply (Permutation_in _ (Permutation_sym P)); [now left|right; auto].
    + intros (L & Np & I). destruct p as [|x q]; [discriminate|]. inversion Np; subst.
      assert (Hx : In x l) by (apply I; now left). apply in_split in Hx as (l1 & l2 & ->).
      exists (x, l1 ++ l2). split; [apply picks_In|]. apply in_map_iff. exists q. split; auto.
      cbn [fst snd]. apply NoDup_remove in N as [N1 N2]. apply IH; auto. repeat split; auto.
      intros y Hy. assert (In y (l1 ++ x :: l2)) as Y by (apply I; now right).
      apply in_app_iff in Y. apply in_app_iff. simpl in Y. destruct Y as [|[->|]]; auto. contradiction.
Qed.

Lemma picks_NoDup : forall {A} (l : list A), NoDup l -> NoDup (picks l).
Proof. intros A l N. apply (NoDup_map_inv fst). now rewrite picks_fst. Qed.
Lemma picks_inj : forall {A} (l : list A) p q, NoDup l -> In p (picks l) -> In q (picks l) ->
  fst p = fst q -> p = q.
Proof.
  intros A l p q N Hp Hq E. destruct p as [x a], q as [y b]. cbn [fst] in E. subst y.
  apply picks_split in Hp as (l1 & l2 & -> & ->). apply picks_split in Hq as (m1 & m2 & E & ->).
  f_equal. revert m1 E. induction l1 as [|z l1 IH]; intros m1 E; destruct m1 as [|w m1]; cbn [app] in E.
  - now injection E as ->.
  - injection E as -> ->. cbn [app] in N. inversion N as [|? ? NI _]. exfalso. apply NI. apply in_app_iff. right. now left.
  - injection E as -> E. cbn [app] in N. inversion N as [|? ? NI _]. exfalso. apply NI. apply in_app_iff. right. now left.
  - injection E as -> E. cbn [app] in *. inversion N; subst. f_equal. now apply IH.
Qed.

Lemma permutations_NoDup : forall {A} k (l : list A), NoDup l -> NoDup (permutations l k).
Proof.
  induction k as [|k IH]; intros l N; cbn [permutations]; [repeat constructor; auto|].
  pose proof (picks_NoDup l N) as NP.
  assert (G : forall ps, NoDup ps -> incl ps (picks l) ->
    NoDup (flat_map (fun p => map (cons (fst p)) (permutations (snd p) k)) ps)).
  { induction ps as [|p ps IHp]; intros Nps I; cbn [flat_map]; [constructor|].
    inversion Nps; subst. assert (Hp : In p (picks l)) by (apply I; now left).
    assert (N' : NoDup (fst p :: snd p)) by (exact (Permutation_NoDup (picks_perm l p Hp) N)).
    inversion N'; subst. apply NoDup_app_intro'.
    - apply NoDup_map_inj; [|now apply IH]. intros a b _ _ [= E]. auto.
    - apply IHp; auto. intros q Hq. apply I. now right.
    - intros q H1' H2'. apply in_map_iff in H1' as (a & <- & _).
      apply in_flat_map in H2' as (p' & Hp' & H2'). apply in_map_iff in H2' as (b & [= E _] & _).
      assert (p' = p) by (apply (picks_inj l); auto; apply I; now right). subst. contradiction. }
  apply G; auto. apply incl_refl.
Qed.

Section PermR.
Context {K : CRing}.
Local Open Scope cr_scope.
Add Ring K_ring2 : (rth K).

(** permanent by expansion along the rows *)
Fixpoint permR {A} (rows : list (A -> K)) (l : list A) : K :=
  match rows with
  | [] => 1
  | r :: rows' => sumf (fun p => r (fst p) * permR rows' (snd p)) (picks l)
  end.
Definition prod2 {A} (rows : list (A -> K)) (p : list A) : K :=
  prodf (fun q => (fst q) (snd q)) (combine rows p).

Lemma permR_sum : forall {A} (rows : list (A -> K)) l,
  sumf (prod2 rows) (permutations l (length rows)) = permR rows l.
Proof.
  induction rows as [|r rows IH]; intros l; cbn [length permutations permR].
  - cbn. unfold prod2. simpl. ring.
  - rewrite sumf_flat_map. apply sumf_ext. intros p _. rewrite sumf_map.
    rewrite <- IH, <- sumf_mul_l. apply sumf_ext. intros q _. reflexivity.
Qed.

Lemma prod2_nth : forall (m : nat -> nat -> K) r p a, length p = r ->
  prodf (fun i => m i (nth (i - a) p 0%nat)) (seq a r) = prod2 (map m (seq a r)) p.
Proof.
  induction r as [|r IH]; intros p a L; [reflexivity|]. destruct p as [|x p]; [discriminate|].
  cbn [seq map]. unfold prod2. cbn [combine]. rewrite !prodf_cons. cbn [fst snd].
  rewrite Nat.sub_diag. cbn [nth]. f_equal. fold (prod2 (map m (seq (S a) r)) p).
  rewrite <- (IH p (S a)) by (simpl in L; lia). apply prodf_ext. intros i Hi. apply in_seq in Hi.
  replace (i - a)%nat with (S (i - S a)) by lia. reflexivity.
Qed.

Lemma perm_sum_permR : forall (m : nat -> nat -> K) r l, NoDup l ->
  sumf (fun p => prodf (fun i => m i (nth i p 0%nat)) (seq 0 r)) (permutations l r)
  = permR (map m (seq 0 r)) l.
Proof.
  intros m r l N. rewrite <- permR_sum. rewrite map_length, seq_length. apply sumf_ext. intros p Hp.
  apply permutations_In in Hp as (L & _); auto. rewrite <- prod2_nth by auto. apply prodf_ext.
  intros i _. now rewrite Nat.sub_0_r.
Qed.

Lemma permR_ext : forall {A} (rows rows' : list (A -> K)) l,
  Forall2 (fun r r' => forall x, In x l -> r x = r' x) rows rows' -> permR rows l = permR rows' l.
Proof.
  intros A rows rows' l H. revert l H. revert rows'.
  induction rows as [|r rows IH]; intros rows' l H; inversion H as [|? r' ? rs' H1 H2]; subst; [reflexivity|].
  cbn [permR]. apply sumf_ext. intros [x l'] Hp. cbn [fst snd]. apply picks_split in Hp as (l1 & l2 & -> & ->).
  rewrite H1 by (apply in_app_iff; right; now left). f_equal. apply IH.
  eapply Forall2_imp; [|exact H2]. intros a b E y Hy. apply E. apply in_app_iff in Hy. apply in_app_iff. simpl. tauto.
Qed.

Lemma permR_map : forall {A B} (f : B -> A) (rows : list (A -> K)) l,
  permR rows (map f l) = permR (map (fun r x => r (f x)) rows) l.
Proof.
  induction rows as [|r rows IH]; intros l; [reflexivity|]. cbn [permR map]. rewrite picks_map, sumf_map.
  apply sumf_ext. intros p _. cbn [fst snd]. now rewrite IH.
Qed.

(** expansion along the first column *)
Lemma permR_col : forall {A} (rows : list (A -> K)) x l, length rows = S (length l) ->
  permR rows (x :: l) = sumf (fun q => (fst q) x * permR (snd q) l) (picks rows).
Proof.
  induction rows as [|r rows IH]; intros x l L; [discriminate|]. cbn [length] in L.
  cbn [permR picks]. rewrite !sumf_cons. cbn [fst snd]. f_equal. rewrite !sumf_map. cbn [fst snd].
  transitivity (sumf (fun p => sumf (fun q => r (fst p) * ((fst q) x * permR (snd q) (snd p))) (picks rows)) (picks l)).
  - apply sumf_ext. intros p Hp. rewrite sumf_mul_l. f_equal. apply IH. apply picks_length in Hp. lia.
  - rewrite sumf_swap. apply sumf_ext. intros q _. cbn [permR]. rewrite <- sumf_mul_l. apply sumf_ext.
    intros p _. ring.
Qed.

(** the permanent of a square matrix and of its transpose *)
Lemma permR_transpose : forall {A B} (m : A -> B -> K) rs cs, length rs = length cs ->
  permR (map m rs) cs = permR (map (fun c r => m r c) cs) rs.
Proof.
  induction rs as [|r rs IH]; intros cs L.
  - destruct cs; [reflexivity|discriminate].
  - rewrite permR_col by (rewrite map_length; simpl in L; auto). cbn [map permR].
    rewrite picks_map, sumf_map. apply sumf_ext. intros p Hp. cbn [fst snd]. f_equal. apply IH.
    apply picks_length in Hp. simpl in L. lia.
Qed.

Lemma permR_cols_perm : forall {A} (l l' : list A) (rows : list (A -> K)), NoDup l -> Permutation l l' ->
  permR rows l = permR rows l'.
Proof.
  intros A l l' rows N P. assert (N' : NoDup l') by (eapply Permutation_NoDup; eauto).
  rewrite <- !permR_sum. apply sumf_same; try now apply permutations_NoDup.
  intros p. rewrite !permutations_In by auto. split; intros (L & Np & I); repeat split; auto;
    intros y Hy; apply I in Hy; [|apply Permutation_sym in P]; eapply Permutation_in; eauto.
Qed.

(** rows of ones *)
Definition ones {A} (k : nat) : list (A -> K) := repeat (fun _ => 1) k.
Lemma permR_ones : forall {A} k (l : list A), length l = k -> permR (ones k) l = nat_r (factorial k).
Proof.
  induction k as [|k IH]; intros l L; [cbn; ring|]. unfold ones. cbn [repeat permR factorial]. fold (@ones A k).
  rewrite (sumf_ext _ (fun _ => nat_r (factorial k))).
  - rewrite sumf_const. rewrite <- (map_length fst), picks_fst, L. now rewrite nat_r_mul.
  - intros p Hp. rewrite IH; [ring|]. apply picks_length in Hp. lia.
Qed.
Lemma permR_app_ones : forall {A} (rows : list (A -> K)) k l, length l = (length rows + k)%nat ->
  permR (rows ++ ones k) l = permR rows l * nat_r (factorial k).
Proof.
  induction rows as [|r rows IH]; intros k l L; cbn [app permR].
  - rewrite permR_ones by auto. ring.
  - rewrite <- sumf_mul_r. apply sumf_ext. intros p Hp. rewrite IH.
    + ring.
    + apply picks_length in Hp. simpl in L. lia.
Qed.

(** ** Ryser's formula: [E] is the iterated difference of the product of the row sums; every row has
    its own starting value *)
Fixpoint E {A} (rows : list (K * (A -> K))) (l : list A) : K :=
  match l with
  | [] => prodf fst rows
  | x :: l' => E (map (fun q => (fst q + (snd q) x, snd q)) rows) l' - E rows l'
  end.
Lemma E_add : forall {A} (l : list A) pre (b c : K) r post,
  E (pre ++ (b + c, r) :: post) l = E (pre ++ (b, r) :: post) l + c * E (pre ++ post) l.
Proof.
  induction l as [|x l IH]; intros pre b c r post; cbn [E].
  - rewrite !prodf_app, !prodf_cons. cbn [fst]. ring.
  - rewrite IH. rewrite !map_app. cbn [map fst snd].
    replace (b + c + r x) with ((b + r x) + c) by ring. rewrite IH. ring.
Qed.
Lemma E_main : forall {A} (l : list A) rows,
  (length rows < length l -> E rows l = 0) /\
  (length rows = length l -> E rows l = permR (map snd rows) l).
Proof.
  induction l as [|x l IH]; intros rows.
  - split; intros H; [simpl in H; lia|]. destruct rows; [reflexivity|discriminate].
  - set (sh := fun q : K * (A -> K) => (fst q + (snd q) x, snd q)).
    assert (Msh : forall rs, map snd (map sh rs) = map snd rs) by (intros; rewrite map_map; reflexivity).
    assert (T0 : forall rest pre, (length pre + length rest <= length l)%nat ->
      E (pre ++ map sh rest) l = E (pre ++ rest) l).
    { induction rest as [|[b r] rest IHr]; intros pre L; [reflexivity|]. cbn [map length] in *.
      unfold sh at 1. cbn [fst snd]. rewrite E_add.
      destruct (IH (pre ++ map sh rest)) as [Z _]. rewrite Z by (rewrite app_length, map_length; lia).
      specialize (IHr (pre ++ [(b, r)])). rewrite <- !app_assoc in IHr. cbn [app] in IHr.
      rewrite IHr by (rewrite app_length; simpl; lia). ring. }
    assert (T1 : forall rest pre, (length pre + length rest = S (length l))%nat ->
      E (pre ++ map sh rest) l = E (pre ++ rest) l +
        sumf (fun q => (snd (fst q)) x * permR (map snd (pre ++ snd q)) l) (picks rest)).
    { induction rest as [|[b r] rest IHr]; intros pre L; [cbn; ring|]. cbn [map length picks] in *.
      unfold sh at 1. cbn [fst snd]. rewrite E_add.
      destruct (IH (pre ++ map sh rest)) as [_ Z]. rewrite Z by (rewrite app_length, map_length; lia).
      rewrite map_app, Msh, <- map_app.
      specialize (IHr (pre ++ [(b, r)])). rewrite <- !app_assoc in IHr. cbn [app] in IHr.
      rewrite IHr by (rewrite app_length; simpl; lia).
      rewrite sumf_cons, sumf_map. cbn [fst snd].
      rewrite (sumf_ext (fun q => snd (fst q) x * permR (map snd ((pre ++ [(b, r)]) ++ snd q)) l)
                        (fun q => snd (fst q) x * permR (map snd (pre ++ (b, r) :: snd q)) l)).
      - ring.
      - intros q _. now rewrite <- app_assoc. }
    cbn [E length]. fold sh. split; intros L.
    + specialize (T0 rows [] ltac:(simpl; lia)). cbn [app] in T0. rewrite T0. ring.
    + specialize (T1 rows [] ltac:(simpl; lia)). cbn [app] in T1. rewrite T1.
      rewrite permR_col by (rewrite map_length; auto). rewrite picks_map, sumf_map. cbn [fst snd]. ring.
Qed.

(** the same sum over all subsets, as vectors of booleans *)
Fixpoint cvecs (n : nat) : list (list bool) :=
  match n with O => [[]] | S k => flat_map (fun t => [false :: t; true :: t]) (cvecs k) end.
Definition nfalse (b : list bool) : nat := length (filter negb b).
Definition ntrue (b : list bool) : nat := length (filter (fun x => x) b).
Definition selsum {A} (r : A -> K) (l : list A) (b : list bool) : K :=
  sumf (fun q => if snd q : bool then r (fst q) else 0) (combine l b).
Lemma E_subsets : forall {A} (l : list A) rows,
  E rows l = sumf (fun b => m1pow (nfalse b) * prodf (fun q => fst q + selsum (snd q) l b) rows)
                  (cvecs (length l)).
Proof.
  induction l as [|x l IH]; intros rows.
  - cbn [E length cvecs]. rewrite sumf_cons. cbn. rewrite (prodf_ext (fun q => fst q + 0) fst) by (intros; ring). ring.
  - cbn [E length cvecs]. rewrite sumf_flat_map. rewrite !IH, <- sumf_sub. apply sumf_ext. intros b _.
    rewrite !sumf_cons. rewrite prodf_map. cbn [fst snd].
    replace (nfalse (false :: b)) with (S (nfalse b)) by reflexivity.
    replace (nfalse (true :: b)) with (nfalse b) by reflexivity. rewrite m1pow_S.
    unfold selsum. cbn [combine].
    rewrite (prodf_ext (fun q => fst q + snd q x + sumf (fun q0 => if snd q0 : bool then snd q (fst q0) else 0) (combine l b))
       (fun q => fst q + sumf (fun q0 => if snd q0 : bool then snd q (fst q0) else 0) ((x, true) :: combine l b))).
    2:{ intros q _. rewrite sumf_cons. cbn [fst snd]. ring. }
    rewrite (prodf_ext (fun q => fst q + sumf (fun q0 => if snd q0 : bool then snd q (fst q0) else 0) (combine l b))
       (fun q => fst q + sumf (fun q0 => if snd q0 : bool then snd q (fst q0) else 0) ((x, false) :: combine l b))).
    2:{ intros q _. rewrite sumf_cons. cbn [fst snd]. ring. }
    cbn. ring.
Qed.
Lemma ryser_identity : forall {A} (rows : list (A -> K)) l, length rows = length l ->
  sumf (fun b => m1pow (nfalse b) * prodf (fun r => selsum r l b) rows) (cvecs (length l)) = permR rows l.
Proof.
  intros A rows l L. destruct (E_main l (map (fun r => (0, r)) rows)) as [_ H].
  rewrite map_length, map_map in H. cbn [snd] in H. rewrite map_id in H. rewrite <- (H L), E_subsets.
  apply sumf_ext. intros b _. f_equal. rewrite prodf_map. apply prodf_ext. intros r _. cbn [fst snd]. ring.
Qed.
End PermR.
