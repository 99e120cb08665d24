(** Determinants: expansion along rows and columns, multilinearity, alternation, transpose. *)
From Coq Require Import List ZArith Bool Lia Arith Permutation Sorted.
From Verif Require Import Py BitSpec BitLemmas Slater Alg Graphs MathTools BicliqueLemmas Combos PermLemmas.
Import ListNotations.

Section Det.
Context {K : CRing}.
Local Open Scope cr_scope.
Add Ring K_ring4 : (rth K).

(** picks with alternating signs *)
Fixpoint spicks {A} (l : list A) : list (K * (A * list A)) :=
  match l with
  | [] => []
  | x :: t => (1, (x, t)) :: map (fun p => (- fst p, (fst (snd p), x :: snd (snd p)))) (spicks t)
  end.
Lemma spicks_cons : forall {A} (x : A) t, spicks (x :: t) =
  (1, (x, t)) :: map (fun p => (- fst p, (fst (snd p), x :: snd (snd p)))) (spicks t).
Proof. reflexivity. Qed.
Lemma spicks_snd : forall {A} (l : list A), map snd (spicks l) = picks l.
Proof.
  induction l as [|x l IH]; auto. cbn [spicks picks map snd]. f_equal. rewrite <- IH, !map_map. reflexivity.
Qed.
Lemma spicks_In : forall {A} (l : list A) p, In p (spicks l) -> In (snd p) (picks l).
Proof. intros A l p H. rewrite <- spicks_snd. now apply in_map. Qed.
Lemma spicks_length : forall {A} (l : list A) p, In p (spicks l) -> length l = S (length (snd (snd p))).
Proof. intros A l p H. apply spicks_In in H. now apply picks_length in H. Qed.
Lemma spicks_map : forall {A B} (f : A -> B) l,
  spicks (map f l) = map (fun p => (fst p, (f (fst (snd p)), map f (snd (snd p))))) (spicks l).
Proof. induction l as [|x l IH]; auto. cbn [spicks map]. rewrite IH, !map_map. reflexivity. Qed.

(** determinant by expansion along the rows *)
Fixpoint detR {A} (rows : list (A -> K)) (l : list A) : K :=
  match rows with
  | [] => 1
  | r :: rows' => sumf (fun p => fst p * (r (fst (snd p)) * detR rows' (snd (snd p)))) (spicks l)
  end.

Lemma spicks_sign : forall l p, increasing l -> In p (spicks l) ->
  fst p = m1pow (length (filter (fun y => Nat.ltb y (fst (snd p))) (snd (snd p)))).
Proof.
  induction l as [|x l IH]; intros p H Hp; [destruct Hp|]. apply SS_cons_inv in H as [H1 H2].
  rewrite Forall_forall in H2. destruct Hp as [<-|Hp].
  - cbn [fst snd]. rewrite filter_false; [reflexivity|]. intros y Hy. apply Nat.ltb_ge. apply H2 in Hy. lia.
  - apply in_map_iff in Hp as (q & <- & Hq). cbn [fst snd filter].
    assert (x < fst (snd q)).
    { apply H2. apply spicks_In in Hq. rewrite <- (picks_fst l). now apply in_map. }
    destruct (Nat.ltb_spec x (fst (snd q))); [|lia]. cbn [length]. rewrite m1pow_S. f_equal. now apply IH.
Qed.

Lemma filter_length_perm : forall {A} (f : A -> bool) a b, Permutation a b ->
  length (filter f a) = length (filter f b).
Proof.
  induction 1; simpl; auto; try congruence.
  - destruct (f x); simpl; congruence.
  - destruct (f x), (f y); reflexivity.
Qed.

(** the expansion is the Leibniz formula *)
Lemma detR_sum : forall rows l, increasing l -> length l = length rows ->
  sumf (fun p => m1pow (inversions p) * prod2 rows p) (permutations l (length rows)) = detR rows l.
Proof.
  induction rows as [|r rows IH]; intros l H L; cbn [length permutations detR].
  - cbn. unfold prod2. simpl. unfold m1pow. simpl. ring.
  - rewrite sumf_flat_map, <- spicks_snd, sumf_map. apply sumf_ext. intros [s [x l']] Hp. cbn [fst snd].
    rewrite sumf_map. pose proof (spicks_sign _ _ H Hp) as S0. cbn [fst snd] in S0.
    pose proof (spicks_length _ _ Hp) as Lp. cbn [snd] in Lp. cbn [length] in L.
    apply spicks_In in Hp. cbn [snd] in Hp.
    pose proof (picks_split _ _ _ Hp) as (l1 & l2 & E1 & E2).
    assert (Hl' : increasing l').
    { subst. clear - H. apply (subseq_increasing (l1 ++ l2) (l1 ++ x :: l2)); auto.
      induction l1 as [|y l1 IHl]; cbn [app]; constructor.
      - clear. induction l2; constructor; auto.
      - apply IHl. cbn [app] in H. now apply SS_cons_inv in H. }
    rewrite <- (IH l' Hl') by lia. rewrite <- !sumf_mul_l. apply sumf_ext. intros q Hq.
    cbn [inversions]. unfold prod2. cbn [combine]. rewrite prodf_cons. cbn [fst snd].
    rewrite m1pow_add. rewrite S0.
    apply permutations_In in Hq as (Lq & Nq & Iq); [|now apply increasing_NoDup].
    rewrite (filter_length_perm _ q l').
    + ring.
    + apply NoDup_Permutation_bis; auto. lia.
Qed.

Lemma det_detR : forall n (m : nat -> nat -> K), det n m = detR (map m (seq 0 n)) (seq 0 n).
Proof.
  intros n m. unfold det. rewrite <- detR_sum.
  - rewrite map_length, seq_length. apply sumf_ext. intros p Hp.
    apply permutations_In in Hp as (L & _); [|apply seq_NoDup]. rewrite <- prod2_nth by auto. f_equal.
    apply prodf_ext. intros i _. now rewrite Nat.sub_0_r.
  - apply increasing_seq.
  - now rewrite map_length.
Qed.

Lemma detR_ext : forall {A} (rows rows' : list (A -> K)) l,
  Forall2 (fun r r' => forall x, In x l -> r x = r' x) rows rows' -> detR rows l = detR rows' l.
Proof.
  intros A rows rows' l H. revert l H. revert rows'.
  induction rows as [|r rows IH]; intros rows' l H; inversion H as [|? r' ? rs' H1 H2]; subst; [reflexivity|].
  cbn [detR]. apply sumf_ext. intros [s [x l']] Hp. cbn [fst snd]. apply spicks_In in Hp. cbn [snd] in Hp.
  apply picks_split in Hp as (l1 & l2 & -> & ->).
  rewrite H1 by (apply in_app_iff; right; now left). do 2 f_equal. apply IH.
  eapply Forall2_imp; [|exact H2]. intros a b E y Hy. apply E. apply in_app_iff in Hy. apply in_app_iff. simpl. tauto.
Qed.
Lemma detR_map_ext : forall {A B} (f g : B -> A -> K) rs l,
  (forall i x, In i rs -> In x l -> f i x = g i x) -> detR (map f rs) l = detR (map g rs) l.
Proof.
  intros A B f g rs l H. apply detR_ext. induction rs as [|i rs IH]; constructor.
  - intros x Hx. apply H; auto. now left.
  - apply IH. intros; apply H; auto. now right.
Qed.
Lemma detR_map : forall {A B} (f : B -> A) (rows : list (A -> K)) l,
  detR rows (map f l) = detR (map (fun r x => r (f x)) rows) l.
Proof.
  induction rows as [|r rows IH]; intros l; [reflexivity|]. cbn [detR map]. rewrite spicks_map, sumf_map.
  apply sumf_ext. intros p _. cbn [fst snd]. now rewrite IH.
Qed.

(** expansion along the first column *)
Lemma detR_col : forall {A} (rows : list (A -> K)) x l, length rows = S (length l) ->
  detR rows (x :: l) = sumf (fun q => fst q * ((fst (snd q)) x * detR (snd (snd q)) l)) (spicks rows).
Proof.
  induction rows as [|r rows IH]; intros x l L; [discriminate|]. cbn [length] in L.
  cbn [detR spicks]. rewrite !sumf_cons. cbn [fst snd]. f_equal. rewrite !sumf_map. cbn [fst snd].
  transitivity (sumf (fun p => sumf (fun q => - (fst p * fst q * (r (fst (snd p)) * ((fst (snd q)) x * detR (snd (snd q)) (snd (snd p)))))) (spicks rows)) (spicks l)).
  - apply sumf_ext. intros p Hp. rewrite IH by (apply spicks_length in Hp; lia).
    rewrite <- !sumf_mul_l. apply sumf_ext. intros q _. ring.
  - rewrite sumf_swap. apply sumf_ext. intros q _. cbn [detR]. rewrite <- !sumf_mul_l. apply sumf_ext.
    intros p _. ring.
Qed.
Lemma detR_transpose : forall {A B} (m : A -> B -> K) rs cs, length rs = length cs ->
  detR (map m rs) cs = detR (map (fun c r => m r c) cs) rs.
Proof.
  induction rs as [|r rs IH]; intros cs L.
  - destruct cs; [reflexivity|discriminate].
  - rewrite detR_col by (rewrite map_length; simpl in L; auto). cbn [map detR].
    rewrite spicks_map, sumf_map. apply sumf_ext. intros p Hp. cbn [fst snd]. do 2 f_equal. apply IH.
    apply spicks_length in Hp. simpl in L. lia.
Qed.

(** multilinearity in the rows *)
Lemma detR_row_add : forall {A} pre (r s : A -> K) post l,
  detR (pre ++ (fun x => r x + s x) :: post) l = detR (pre ++ r :: post) l + detR (pre ++ s :: post) l.
Proof.
  induction pre as [|q pre IH]; intros r s post l; cbn [app detR]; rewrite <- sumf_add; apply sumf_ext; intros p _.
  - ring.
  - rewrite IH. ring.
Qed.
Lemma detR_row_scale : forall {A} pre c (r : A -> K) post l,
  detR (pre ++ (fun x => c * r x) :: post) l = c * detR (pre ++ r :: post) l.
Proof.
  induction pre as [|q pre IH]; intros c r post l; cbn [app detR]; rewrite <- sumf_mul_l; apply sumf_ext; intros p _.
  - ring.
  - rewrite IH. ring.
Qed.
Lemma detR_row_zero : forall {A} pre (r : A -> K) post l, (forall x, In x l -> r x = 0) ->
  detR (pre ++ r :: post) l = 0.
Proof.
  intros A pre r post l H.
  transitivity (detR (pre ++ (fun x => 0 * r x) :: post) l); [|rewrite detR_row_scale; ring].
  apply detR_ext. apply Forall2_app; [|constructor].
  - induction pre; constructor; auto.
  - intros x Hx. rewrite H by auto. ring.
  - induction post; constructor; auto.
Qed.
Lemma detR_rows_scale : forall {A B} (c : B -> K) (m : B -> A -> K) rs l,
  detR (map (fun i x => c i * m i x) rs) l = prodf c rs * detR (map m rs) l.
Proof.
  intros A B c m rs. induction rs as [|i rs IH]; intros l; cbn [map].
  - cbn. ring.
  - cbn [detR]. rewrite prodf_cons, <- sumf_mul_l. apply sumf_ext. intros p _. rewrite IH. ring.
Qed.
Lemma detR_cols_scale : forall {A B} (c : A -> K) (m : B -> A -> K) rs l, length rs = length l ->
  detR (map (fun i x => c x * m i x) rs) l = prodf c l * detR (map m rs) l.
Proof.
  intros A B c m rs l L. rewrite detR_transpose by auto.
  rewrite (detR_rows_scale c (fun x i => m i x)). f_equal. symmetry. now apply detR_transpose.
Qed.

(** alternation *)
Lemma detR_adjacent : forall {A} (r : A -> K) post l, detR (r :: r :: post) l = 0.
Proof.
  intros A r post l.
  assert (G : forall D : list A -> K,
    sumf (fun p => fst p * (r (fst (snd p)) *
       sumf (fun p0 => fst p0 * (r (fst (snd p0)) * D (snd (snd p0)))) (spicks (snd (snd p))))) (spicks l) = 0);
    [|exact (G (detR post))].
  induction l as [|x l IH]; intros D; [reflexivity|]. rewrite (spicks_cons x l), sumf_cons, sumf_map. cbn [fst snd].
  specialize (IH (fun l => D (x :: l))). cbv beta in IH.
  rewrite (sumf_ext (fun p => - fst p * (r (fst (snd p)) *
       sumf (fun p0 => fst p0 * (r (fst (snd p0)) * D (snd (snd p0)))) (spicks (x :: snd (snd p)))))
    (fun p => fst p * (r (fst (snd p)) * sumf (fun p0 => fst p0 * (r (fst (snd p0)) * D (x :: snd (snd p0)))) (spicks (snd (snd p))))
              - r x * (fst p * (r (fst (snd p)) * D (snd (snd p)))))).
  2:{ intros p _. cbn [spicks]. rewrite sumf_cons, sumf_map. cbn [fst snd].
      rewrite (sumf_ext (fun x0 => - fst x0 * (r (fst (snd x0)) * D (x :: snd (snd x0))))
                        (fun x0 => - (fst x0 * (r (fst (snd x0)) * D (x :: snd (snd x0)))))) by (intros; ring).
      rewrite sumf_opp. ring. }
  rewrite sumf_sub, IH, sumf_mul_l. ring.
Qed.
Lemma detR_adjacent_pre : forall {A} pre (r : A -> K) post l, detR (pre ++ r :: r :: post) l = 0.
Proof.
  induction pre as [|q pre IH]; intros r post l; [apply detR_adjacent|]. cbn [app detR]. apply sumf_zero.
  intros p _. rewrite IH. ring.
Qed.
Lemma detR_swap : forall {A} pre (r s : A -> K) post l,
  detR (pre ++ r :: s :: post) l = - detR (pre ++ s :: r :: post) l.
Proof.
  intros A pre r s post l.
  pose proof (detR_adjacent_pre pre (fun x => r x + s x) post l) as H.
  rewrite detR_row_add in H.
  pose proof (detR_row_add (pre ++ [r]) r s post l) as H1. rewrite <- !app_assoc in H1. cbn [app] in H1.
  pose proof (detR_row_add (pre ++ [s]) r s post l) as H2. rewrite <- !app_assoc in H2. cbn [app] in H2.
  rewrite H1, H2, !detR_adjacent_pre in H.
  transitivity ((0 + detR (pre ++ r :: s :: post) l + (detR (pre ++ s :: r :: post) l + 0))
                - detR (pre ++ s :: r :: post) l); [ring|]. rewrite H. ring.
Qed.
Lemma detR_equal_rows : forall {A} mid pre (r : A -> K) post l, detR (pre ++ r :: mid ++ r :: post) l = 0.
Proof.
  induction mid as [|q mid IH]; intros pre r post l; cbn [app]; [apply detR_adjacent_pre|].
  rewrite detR_swap. specialize (IH (pre ++ [q]) r post l). rewrite <- app_assoc in IH. cbn [app] in IH.
  rewrite IH. ring.
Qed.

(** adding multiples of other rows to a row *)
Lemma detR_row_comb : forall {A B} (m : B -> A -> K) (c : B -> K) r1 i r2 l sub,
  incl sub (r1 ++ r2) ->
  detR (map m r1 ++ (fun x => m i x + sumf (fun j => c j * m j x) sub) :: map m r2) l
  = detR (map m r1 ++ m i :: map m r2) l.
Proof.
  intros A B m c r1 i r2 l sub I. rewrite detR_row_add.
  assert (Z : detR (map m r1 ++ (fun x => sumf (fun j => c j * m j x) sub) :: map m r2) l = 0).
  { revert I. induction sub as [|j sub IH]; intros I.
    - apply detR_row_zero. reflexivity.
    - transitivity (detR (map m r1 ++ (fun x => c j * m j x + sumf (fun j => c j * m j x) sub) :: map m r2) l); [reflexivity|].
      rewrite (detR_row_add _ (fun x => c j * m j x)), IH by (intros y Hy; apply I; now right).
      rewrite detR_row_scale.
      assert (Hj : In j (r1 ++ r2)) by (apply I; now left). apply in_app_iff in Hj as [Hj|Hj].
      + apply in_split in Hj as (a & b & ->). rewrite map_app. cbn [map]. rewrite <- app_assoc. cbn [app].
        rewrite detR_equal_rows. ring.
      + apply in_split in Hj as (a & b & ->). rewrite map_app. cbn [map]. rewrite detR_equal_rows. ring. }
  rewrite Z. ring.
Qed.
(** subtracting multiples of the first row from all other rows *)
Lemma detR_clear : forall {A} (r : A -> K) (c : (A -> K) -> K) rows pre l,
  detR (r :: pre ++ map (fun s x => s x - c s * r x) rows) l = detR (r :: pre ++ rows) l.
Proof.
  induction rows as [|s rows IH]; intros pre l; [reflexivity|]. cbn [map].
  specialize (IH (pre ++ [s]) l). rewrite <- !app_assoc in IH. cbn [app] in IH. rewrite <- IH.
  pose proof (detR_row_add (r :: pre) s (fun x => (- c s) * r x) (map (fun s x => s x - c s * r x) rows) l) as H.
  cbn [app] in H.
  transitivity (detR (r :: pre ++ (fun x => s x + - c s * r x) :: map (fun s x => s x - c s * r x) rows) l).
  - apply detR_ext. constructor; [auto|]. apply Forall2_app.
    + clear. induction pre; constructor; auto.
    + constructor; [intros; ring|]. clear. induction rows; constructor; auto.
  - rewrite H. pose proof (detR_row_scale (r :: pre) (- c s) r (map (fun s x => s x - c s * r x) rows) l) as H2.
    cbn [app] in H2. rewrite H2.
    pose proof (detR_equal_rows pre [] r (map (fun s x => s x - c s * r x) rows) l) as H3. cbn [app] in H3.
    rewrite H3. ring.
Qed.
End Det.

Section DetField.
Context {K : CField}.
Local Open Scope cr_scope.
Add Ring K_ring5 : (rth K).

(** dependent rows *)
Lemma detR_dependent : forall {A B} (m : B -> A -> K) (c : B -> K) rs l i, In i rs -> c i <> 0 ->
  (forall x, In x l -> sumf (fun j => c j * m j x) rs = 0) -> detR (map m rs) l = 0.
Proof.
  intros A B m c rs l i Hi Hc H. apply in_split in Hi as (r1 & r2 & ->).
  apply (f_cancel (c i)); auto. rewrite map_app. cbn [map]. rewrite <- detR_row_scale.
  transitivity (detR (map m r1 ++ (fun x => c i * m i x + sumf (fun j => c j * m j x) (r1 ++ r2)) :: map m r2) l).
  - rewrite detR_row_add. 
    assert (Z : detR (map m r1 ++ (fun x => sumf (fun j => c j * m j x) (r1 ++ r2)) :: map m r2) l = 0).
    { pose proof (detR_row_comb m c r1 i r2 l (r1 ++ r2) (incl_refl _)) as Q. rewrite detR_row_add in Q.
      transitivity ((detR (map m r1 ++ m i :: map m r2) l + detR (map m r1 ++ (fun x => sumf (fun j => c j * m j x) (r1 ++ r2)) :: map m r2) l)
         - detR (map m r1 ++ m i :: map m r2) l); [ring|]. rewrite Q. ring. }
    rewrite Z. ring.
  - rewrite detR_row_zero; [ring|]. intros x Hx. rewrite <- (H x Hx). rewrite !sumf_app, sumf_cons. ring.
Qed.
End DetField.
