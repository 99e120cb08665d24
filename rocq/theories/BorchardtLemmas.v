(** Borchardt's identity det(C o C) = det(C) perm(C) and the Cauchy determinant. *)
From Coq Require Import List ZArith Bool Lia Arith Permutation Sorted.
From Verif Require Import Py BitSpec BitLemmas Slater SlaterBits SlaterBits2 Alg Graphs MathTools BicliqueLemmas Combos BulkLemmas
  SdLemmas PermLemmas DetLemmas.
Import ListNotations.

Section SPerms.
Context {K : CRing}.
Local Open Scope cr_scope.
Add Ring K_ring6 : (rth K).

(** signed permutations *)
Fixpoint sperms {A} (l : list A) (k : nat) : list (K * list A) :=
  match k with
  | O => [(1, [])]
  | S k' => flat_map (fun p => map (fun q => (fst p * fst q, fst (snd p) :: snd q)) (sperms (snd (snd p)) k'))
                     (spicks l)
  end.
Lemma detR_sperms : forall {A} (rows : list (A -> K)) l,
  detR rows l = sumf (fun q => fst q * prod2 rows (snd q)) (sperms l (length rows)).
Proof.
  induction rows as [|r rows IH]; intros l; cbn [length sperms detR].
  - rewrite sumf_cons. cbn. unfold prod2. cbn. ring.
  - rewrite sumf_flat_map. apply sumf_ext. intros p _. rewrite sumf_map, IH, <- !sumf_mul_l. apply sumf_ext.
    intros q _. cbn [fst snd]. unfold prod2. cbn [combine]. rewrite prodf_cons. cbn [fst snd]. ring.
Qed.
Lemma sperms_perm : forall {A} k (l : list A) q, length l = k -> In q (sperms l k) -> Permutation (snd q) l.
Proof.
  induction k as [|k IH]; intros l q L H; cbn [sperms] in H.
  - destruct H as [<-|[]]. destruct l; [constructor|discriminate].
  - apply in_flat_map in H as (p & Hp & H). apply in_map_iff in H as (q' & <- & Hq). cbn [snd].
    pose proof (spicks_length _ _ Hp). apply spicks_In in Hp. apply picks_perm in Hp.
    rewrite Hp. constructor. apply IH; auto. lia.
Qed.
Lemma prod2_sym : forall {A B} (m : A -> B -> K) rs cs,
  prod2 (map m rs) cs = prod2 (map (fun c r => m r c) cs) rs.
Proof.
  induction rs as [|r rs IH]; intros [|c cs]; try reflexivity.
  unfold prod2 in *. cbn [map combine]. rewrite !prodf_cons. cbn [fst snd]. now rewrite IH.
Qed.
Lemma prod2_pairs : forall {A B} (f g : A -> B -> K) rs rho cs, length rs = length cs -> length rho = length cs ->
  prod2 (map (fun q j => f (fst q) j * g (snd q) j) (combine rs rho)) cs = prod2 (map f rs) cs * prod2 (map g rho) cs.
Proof.
  induction rs as [|r rs IH]; intros [|h rho] [|c cs] L1 L2; try discriminate.
  - cbn. unfold prod2. cbn. ring.
  - unfold prod2 in *. cbn [map combine]. rewrite !prodf_cons. cbn [fst snd]. rewrite IH by (simpl in *; lia). ring.
Qed.

(** columns of a permanent: choosing the columns first *)
Lemma permR_combinations : forall (rows : list (nat -> K)) l, NoDup l ->
  permR rows l = sumf (fun s => permR rows s) (combinations l (length rows)).
Proof.
  intros rows l N. set (r := length rows).
  rewrite <- permR_sum. fold r.
  rewrite (sumf_ext (fun s => permR rows s) (fun s => sumf (prod2 rows) (permutations s r)))
    by (intros; symmetry; apply permR_sum).
  rewrite <- sumf_flat_map. apply sumf_same.
  - now apply permutations_NoDup.
  - apply NoDup_flat_map.
    + now apply combinations_NoDup.
    + intros s Hs. apply combinations_In in Hs as [Hs _]. apply permutations_NoDup. eapply subseq_NoDup; eauto.
    + intros s s' p Hs Hs' Hp Hp'.
      apply combinations_In in Hs as [S1 L1]. apply combinations_In in Hs' as [S2 L2].
      assert (N1 : NoDup s) by (eapply subseq_NoDup; eauto). assert (N2 : NoDup s') by (eapply subseq_NoDup; eauto).
      apply permutations_In in Hp as (Lp & Np & Ip); auto. apply permutations_In in Hp' as (Lp' & _ & Ip'); auto.
      assert (P1 : Permutation p s) by (apply NoDup_Permutation_bis; auto; lia).
      assert (P2 : Permutation p s') by (apply NoDup_Permutation_bis; auto; lia).
      apply (combo_ext l); auto. intros i. apply eq_true_iff_eq. rewrite !setbits_In.
      rewrite <- (Permutation_in' eq_refl P1), (Permutation_in' eq_refl P2). tauto.
  - intros p. rewrite permutations_In by auto. rewrite in_flat_map. split.
    + intros (L & Np & I). exists (filter (setbits p) l). 
      assert (P : Permutation p (filter (setbits p) l)).
      { apply NoDup_Permutation; auto; [now apply NoDup_filter|]. intros x. rewrite filter_In, setbits_In. split; [auto|tauto]. }
      split.
      * apply combinations_In. split; [apply subseq_of_filter|]. now rewrite <- (Permutation_length P).
      * apply permutations_In; [now apply NoDup_filter|]. repeat split; auto. intros x. now apply Permutation_in.
    + intros (s & Hs & Hp). apply combinations_In in Hs as [S1 L1].
      apply permutations_In in Hp as (Lp & Np & Ip); [|eapply subseq_NoDup; eauto].
      repeat split; auto. intros x Hx. eapply subseq_incl; eauto.
Qed.
Lemma permR_rows_scale : forall {A B} (c : B -> K) (m : B -> A -> K) rs l,
  permR (map (fun i x => c i * m i x) rs) l = prodf c rs * permR (map m rs) l.
Proof.
  intros A B c m rs. induction rs as [|i rs IH]; intros l; cbn [map].
  - cbn. ring.
  - cbn [permR]. rewrite prodf_cons, <- sumf_mul_l. apply sumf_ext. intros p _. rewrite IH. ring.
Qed.
Lemma permR_cols_scale : forall {A B} (c : A -> K) (m : B -> A -> K) rs l, length rs = length l ->
  permR (map (fun i x => c x * m i x) rs) l = prodf c l * permR (map m rs) l.
Proof.
  intros A B c m rs l L. rewrite permR_transpose by auto.
  rewrite (permR_rows_scale c (fun x i => m i x)). f_equal. symmetry. now apply permR_transpose.
Qed.
End SPerms.

Section Borchardt.
Context {K : CField}.
Local Open Scope cr_scope.
Add Ring K_ring7 : (rth K).

Section Fixed.
Context {A B : Type} (x : B -> K) (y : A -> K).
Let a (i : B) (j : A) : K := finv (x i - y j).

Lemma cauchy_pair : forall i i' j, x i <> y j -> x i' <> y j ->
  (x i' - x i) * (a i j * a i' j) = a i j - a i' j.
Proof.
  intros i i' j H H'. unfold a. apply f_sub_nz in H. apply f_sub_nz in H'.
  transitivity (((x i' - y j) * finv (x i' - y j)) * finv (x i - y j) - ((x i - y j) * finv (x i - y j)) * finv (x i' - y j)).
  - ring.
  - rewrite !f_inv_r by auto. ring.
Qed.
Lemma cauchy_pair_col : forall i j j', x i <> y j -> x i <> y j' ->
  (y j - y j') * (a i j * a i j') = a i j - a i j'.
Proof.
  intros i j j' H H'. unfold a. apply f_sub_nz in H. apply f_sub_nz in H'.
  transitivity (((x i - y j') * finv (x i - y j')) * finv (x i - y j) - ((x i - y j) * finv (x i - y j)) * finv (x i - y j')).
  - ring.
  - rewrite !f_inv_r by auto. ring.
Qed.

Lemma combine_diff : forall {C} (eqd : forall u v : C, {u = v} + {u <> v}) (l m : list C), length l = length m -> l <> m ->
  exists q, In q (combine l m) /\ fst q <> snd q.
Proof.
  intros C eqd. induction l as [|u l IH]; intros [|v m] L N; try discriminate; [congruence|].
  destruct (eqd u v) as [->|D].
  - destruct (IH m) as (q & Hq & D); [simpl in L; lia|congruence|]. exists q. split; auto. now right.
  - exists (u, v). split; auto. now left.
Qed.
Lemma combine_fst : forall {C D} (l : list C) (m : list D), length l = length m -> map fst (combine l m) = l.
Proof. induction l; intros [|]; simpl; intros; try discriminate; auto. f_equal. auto. Qed.
Lemma combine_snd : forall {C D} (l : list C) (m : list D), length l = length m -> map snd (combine l m) = m.
Proof. induction l; intros [|]; simpl; intros; try discriminate; auto. f_equal. auto. Qed.

Lemma borchardt : forall (eqd : forall u v : B, {u = v} + {u <> v}) rs cs, NoDup rs -> NoDup cs -> length rs = length cs ->
  (forall i i', In i rs -> In i' rs -> x i = x i' -> i = i') ->
  (forall i j, In i rs -> In j cs -> x i <> y j) ->
  detR (map (fun i j => a i j * a i j) rs) cs = detR (map a rs) cs * permR (map a rs) cs.
Proof.
  intros eqd rs cs Nr Nc L Inj Ne. set (n := length rs).
  set (Bm := fun rho => detR (map (fun q j => a (fst q) j * a (snd q) j) (combine rs rho)) cs).
  assert (S1 : sumf Bm (permutations rs n) = detR (map a rs) cs * permR (map a rs) cs).
  { rewrite (detR_sperms (map a rs)), map_length. fold n.
    rewrite (sumf_ext Bm (fun rho => sumf (fun q => fst q * (prod2 (map a rs) (snd q) * prod2 (map a rho) (snd q))) (sperms cs n))).
    - rewrite sumf_swap, <- sumf_mul_r. apply sumf_ext. intros q Hq.
      apply sperms_perm in Hq; [|unfold n; auto].
      rewrite (sumf_ext (fun rho => fst q * (prod2 (map a rs) (snd q) * prod2 (map a rho) (snd q)))
                 (fun rho => (fst q * prod2 (map a rs) (snd q)) * prod2 (map (fun c r => a r c) (snd q)) rho)).
      2:{ intros rho _. rewrite (prod2_sym a rho). ring. }
      rewrite sumf_mul_l. f_equal.
      replace n with (length (map (fun c r => a r c) (snd q))) by (rewrite map_length, (Permutation_length Hq); unfold n; auto).
      rewrite permR_sum, <- permR_transpose by (rewrite (Permutation_length Hq); auto).
      apply permR_cols_perm; auto. eapply Permutation_NoDup; [symmetry; eauto|auto].
    - intros rho Hr. apply permutations_In in Hr as (Lr & _ & _); auto. unfold Bm.
      rewrite detR_sperms, map_length, combine_length. unfold n in *. rewrite Lr, Nat.min_id.
      apply sumf_ext. intros q Hq. apply sperms_perm in Hq; auto. f_equal.
      apply prod2_pairs; rewrite (Permutation_length Hq); congruence. }
  rewrite <- S1. rewrite (sumf_single Bm (permutations rs n) rs).
  - unfold Bm. replace (combine rs rs) with (map (fun i => (i, i)) rs).
    + rewrite map_map. reflexivity.
    + clear. induction rs; simpl; congruence.
  - now apply permutations_NoDup.
  - apply permutations_In; auto. repeat split; auto. apply incl_refl.
  - intros rho Hr D. apply permutations_In in Hr as (Lr & Nrho & Ir); auto.
    assert (P : Permutation rho rs) by (apply NoDup_Permutation_bis; auto; unfold n in *; lia).
    destruct (combine_diff eqd rs rho) as (q & Hq & Dq); [unfold n in *; lia|congruence|].
    assert (Hi : In (fst q) rs /\ In (snd q) rs).
    { destruct q as [u v]. split; [now apply in_combine_l in Hq|]. apply in_combine_r in Hq. now apply Ir. }
    unfold Bm. apply (detR_dependent _ (fun q => x (snd q) - x (fst q)) _ _ q); auto.
    + apply f_sub_nz. intros E. apply Dq. symmetry. now apply Inj.
    + intros j Hj.
      rewrite (sumf_ext _ (fun q => a (fst q) j - a (snd q) j)).
      * rewrite sumf_sub. rewrite <- (sumf_map (fun i => a i j) fst), <- (sumf_map (fun i => a i j) snd).
        rewrite combine_fst, combine_snd by (unfold n in *; lia). rewrite (sumf_perm _ _ _ P). ring.
      * intros [u v] Hq'. cbn [fst snd]. apply cauchy_pair; apply Ne; auto.
        -- now apply in_combine_l in Hq'.
        -- apply in_combine_r in Hq'. auto.
Qed.
End Fixed.

(** the Cauchy determinant does not vanish *)
Lemma cauchy_nonzero : forall (xs ys : list K), length xs = length ys -> NoDup xs -> NoDup ys ->
  (forall u v, In u xs -> In v ys -> u <> v) -> detR (map (fun u v => finv (u - v)) xs) ys <> 0.
Proof.
  induction xs as [|x1 xs IH]; intros ys L Nx Ny Ne; destruct ys as [|y1 ys]; try discriminate; [apply f_one|].
  inversion Nx as [|? ? Nx1 Nx2]; subst. inversion Ny as [|? ? Ny1 Ny2]; subst.
  set (a := fun u v : K => finv (u - v)).
  assert (D1 : forall u v, In u (x1 :: xs) -> In v (y1 :: ys) -> u - v <> 0) by (intros; apply f_sub_nz; auto).
  assert (E1 : detR (map a (x1 :: xs)) (y1 :: ys)
     = prodf (a x1) (y1 :: ys) * (prodf (fun u => x1 - u) xs * detR ((fun _ => 1) :: map a xs) (y1 :: ys))).
  { cbn [map].
    pose proof (detR_clear (a x1) (fun _ => 1) (map a xs) [] (y1 :: ys)) as H. cbn [app] in H. rewrite <- H. rewrite map_map.
    transitivity (detR (map (fun (o : option K) v => a x1 v * match o with None => 1 | Some u => (x1 - u) * a u v end)
                        (None :: map Some xs)) (y1 :: ys)).
    - cbn [map]. rewrite map_map. apply detR_ext. constructor; [intros; ring|].
      clear - D1 Nx1. assert (Q : incl xs xs) by apply incl_refl. revert Q. generalize xs at 1 3 4 as zs.
      induction zs as [|u zs IHz]; intros Q; constructor.
      + intros v Hv. assert (Hu : In u xs) by (apply Q; now left).
        pose proof (cauchy_pair (fun z : K => z) (fun z : K => z) u x1 v) as CP. cbv beta in CP.
        fold (a u v) (a x1 v) in CP.
        transitivity ((x1 - u) * (a u v * a x1 v)); [|ring]. rewrite CP; [ring| |].
        * intros E. apply (D1 u v); [now right|auto|]. rewrite E. ring.
        * intros E. apply (D1 x1 v); [now left|auto|]. rewrite E. ring.
      + apply IHz. intros z Hz. apply Q. now right.
    - rewrite detR_cols_scale by (cbn [length]; rewrite map_length; cbn [length] in L; lia). f_equal.
      cbn [map]. rewrite map_map.
      change (detR ([(fun _ => 1)] ++ map (fun u v => (x1 - u) * a u v) xs) (y1 :: ys) = prodf (fun u => x1 - u) xs * detR ([(fun _ => 1)] ++ map a xs) (y1 :: ys)).
      cbn [app detR]. rewrite <- sumf_mul_l. apply sumf_ext. intros p _. rewrite (detR_rows_scale (fun u => x1 - u) a). ring. }
  assert (E2 : detR ((fun _ => 1) :: map a xs) (y1 :: ys)
     = prodf (fun v => v - y1) ys * (prodf (fun u => a u y1) xs * detR (map a xs) ys)).
  { set (b := fun (o : option K) (v : K) => match o with None => 1 | Some u => a u v end).
    transitivity (detR (map b (None :: map Some xs)) (y1 :: ys)).
    { cbn [map]. rewrite map_map. reflexivity. }
    rewrite detR_transpose by (cbn [length]; rewrite map_length; cbn [length] in L; lia). cbn [map].
    pose proof (detR_clear (fun o => b o y1) (fun _ => 1) (map (fun v o => b o v) ys) [] (None :: map Some xs)) as H.
    cbn [app] in H. rewrite <- H. rewrite map_map.
    rewrite detR_col by (cbn [length] in *; rewrite !map_length; lia).
    rewrite spicks_cons, sumf_cons. cbn [fst snd]. rewrite sumf_map. cbn [fst snd].
    rewrite sumf_zero.
    2:{ intros p Hp. apply spicks_In in Hp. apply in_map with (f := fst) in Hp. rewrite picks_fst in Hp.
        apply in_map_iff in Hp as (v & <- & _). cbn [b]. ring. }
    cbn [b]. rewrite detR_map. rewrite map_map. cbn [b].
    rewrite (detR_map_ext _ (fun v u => a u y1 * ((v - y1) * a u v))).
    - rewrite (detR_cols_scale (fun u => a u y1) (fun v u => (v - y1) * a u v)) by (cbn [length] in L; lia).
      rewrite (detR_rows_scale (fun v => v - y1) (fun v u => a u v)).
      rewrite <- (detR_transpose a) by (cbn [length] in L; lia). ring.
    - intros v u Hv Hu. pose proof (cauchy_pair_col (fun z : K => z) (fun z : K => z) u v y1) as CP. cbv beta in CP.
      fold (a u v) (a u y1) in CP. transitivity ((v - y1) * (a u v * a u y1)); [|ring]. rewrite CP; [ring| |].
      + apply Ne; [now right|now right].
      + apply Ne; [now right|now left]. }
  fold a. rewrite E1, E2.
  apply f_mul_nz; [|apply f_mul_nz; [|apply f_mul_nz; [|apply f_mul_nz]]].
  - apply f_prod_nz. intros v Hv. unfold a. apply f_inv_nz. apply D1; auto. now left.
  - apply f_prod_nz. intros u Hu. apply f_sub_nz. intros ->. contradiction.
  - apply f_prod_nz. intros v Hv. apply f_sub_nz. intros ->. contradiction.
  - apply f_prod_nz. intros u Hu. unfold a. apply f_inv_nz. apply D1; [now right|now left].
  - apply IH; auto. intros u v Hu Hv. apply Ne; now right.
Qed.
End Borchardt.
