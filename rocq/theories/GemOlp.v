(** Values of the permanents, overlaps and derivatives of geminal wavefunctions *)
From Coq Require Import List ZArith NArith Arith Bool Lia Permutation Sorted Ring_theory.
From Verif Require Import Py Slater BitSpec BitLemmas SlaterBits Combos Alg MathTools SdLemmas PermLemmas RyserLemmas BorchardtLemmas
  HamLemmas BicliqueLemmas BicliqueMain Graphs WfnCI CILemmas Geminal GemPairs P_Permanent.
Import ListNotations.

(** *** permanents of submatrices *)
Lemma Forall2_refl' : forall {A} (R : A -> A -> Prop) l, (forall x, R x x) -> Forall2 R l l.
Proof. induction l; constructor; auto. Qed.
Lemma Forall2_map_iff' : forall {A B} (f g : A -> B) (R : B -> B -> Prop) l,
  (forall x, In x l -> R (f x) (g x)) <-> Forall2 R (map f l) (map g l).
Proof.
  intros A B f g R l. split.
  - induction l as [|x l IH]; intros H; cbn [map]; constructor; [apply H; now left|]. apply IH. intros; apply H; now right.
  - induction l as [|x l IH]; intros H y Hy; [destruct Hy|]. cbn [map] in H. inversion H; subst. destruct Hy as [<-|Hy]; auto.
Qed.
Section Perm.
Context {K : CRing}.
Local Open Scope cr_scope.
Add Ring K_ring48 : (rth K).

Definition pm (E : nat -> nat -> K) (rows cols : list nat) : K :=
  if Nat.ltb (length cols) (length rows) then permR (map (fun c r => E r c) cols) rows else permR (map E rows) cols.
Lemma map_nth_nat : forall (l : list nat), map (fun i => nth i l 0%nat) (seq 0 (length l)) = l.
Proof.
  induction l as [|x l IH]; auto. cbn [length seq map nth]. f_equal. rewrite <- seq_shift, map_map. exact IH.
Qed.
Lemma permR_sub : forall (E : nat -> nat -> K) rows cols,
  permR (map (fun i j => E (nth i rows 0%nat) (nth j cols 0%nat)) (seq 0 (length rows))) (seq 0 (length cols)) = permR (map E rows) cols.
Proof.
  intros E rows cols. transitivity (permR (map E (map (fun i => nth i rows 0%nat) (seq 0 (length rows)))) (map (fun i => nth i cols 0%nat) (seq 0 (length cols)))); [|now rewrite !map_nth_nat].
  rewrite permR_map, !map_map. reflexivity.
Qed.
Lemma pm_tall : forall E rows cols, NoDup rows -> (length cols <= length rows)%nat ->
  pm E rows cols = sumf (fun S => permR (map E S) cols) (combinations rows (length cols)).
Proof.
  intros E rows cols N L. transitivity (permR (map (fun c r => E r c) cols) rows).
  - unfold pm. destruct (Nat.ltb_spec (length cols) (length rows)); auto. apply (permR_transpose E). lia.
  - rewrite (permR_combinations _ rows N), map_length. apply sumf_ext. intros S HS. apply combinations_In in HS as [_ LS].
    apply (permR_transpose (fun c r => E r c)). auto.
Qed.
(** multilinearity *)
Lemma permR_add : forall {A} pre (a b : A -> K) t post l,
  permR (pre ++ (fun x => a x + t * b x) :: post) l = permR (pre ++ a :: post) l + t * permR (pre ++ b :: post) l.
Proof.
  induction pre as [|r pre IH]; intros a b t post l; cbn [app permR].
  - rewrite <- sumf_mul_l, <- sumf_add. apply sumf_ext. intros p _. ring.
  - rewrite <- sumf_mul_l, <- sumf_add. apply sumf_ext. intros p _. rewrite IH. ring.
Qed.
Definition without (c : nat) (l : list nat) : list nat := filter (fun x => negb (Nat.eqb x c)) l.
Definition delta (c x : nat) : K := if Nat.eqb x c then 1 else 0.
Lemma without_notin : forall c l, ~ In c l -> without c l = l.
Proof.
  induction l as [|x l IH]; intros H; [reflexivity|]. unfold without in *. cbn [filter].
  destruct (Nat.eqb_spec x c); [exfalso; apply H; left; auto|]. cbn [negb]. f_equal. apply IH. intros I. apply H. now right.
Qed.
Lemma without_In : forall c l x, In x (without c l) <-> In x l /\ x <> c.
Proof. intros c l x. unfold without. rewrite filter_In. destruct (Nat.eqb_spec x c); cbn; intuition. Qed.
Lemma without_picks : forall l q, NoDup l -> In q (picks l) -> Permutation (snd q) (without (fst q) l).
Proof.
  intros l q N Hq. pose proof (picks_perm l q Hq) as P. assert (N2 : NoDup (fst q :: snd q)) by (eapply Permutation_NoDup; eauto).
  inversion N2 as [|? ? N3 N4]; subst. apply NoDup_Permutation; auto.
  - now apply NoDup_filter.
  - intros x. rewrite !without_In. rewrite (Permutation_in' eq_refl P). cbn [In]. split.
    + intros H1. split; auto. intros ->. contradiction.
    + intros [[H|H] H1]; [congruence|auto].
Qed.
Lemma permR_cons : forall (r : nat -> K) rows l, NoDup l -> permR (r :: rows) l = sumf (fun x => r x * permR rows (without x l)) l.
Proof.
  intros r rows l N. cbn [permR]. transitivity (sumf (fun x => r x * permR rows (without x l)) (map fst (picks l))); [|now rewrite picks_fst]. rewrite sumf_map. apply sumf_ext. intros q Hq. f_equal.
  pose proof (without_picks l q N Hq) as P. apply permR_cols_perm; auto. eapply Permutation_NoDup; [symmetry; exact P|]. now apply NoDup_filter.
Qed.
Lemma without_NoDup : forall c l, NoDup l -> NoDup (without c l).
Proof. intros. now apply NoDup_filter. Qed.
Lemma without_comm : forall c x l, without c (without x l) = without x (without c l).
Proof.
  intros c x l. unfold without. induction l as [|y l IH]; [reflexivity|]. cbn [filter].
  destruct (Nat.eqb y x) eqn:E1, (Nat.eqb y c) eqn:E2; cbn [negb filter]; rewrite ?E1, ?E2; cbn [negb]; rewrite ?IH; reflexivity.
Qed.
Lemma permR_delta : forall pre (post : list (nat -> K)) c l, NoDup l ->
  permR (pre ++ delta c :: post) l = if in_dec Nat.eq_dec c l then permR (pre ++ post) (without c l) else 0.
Proof.
  induction pre as [|r pre IH]; intros post c l N; cbn [app].
  - rewrite permR_cons by auto. destruct (in_dec Nat.eq_dec c l) as [I|I].
    + rewrite (sumf_single _ l c); auto.
      * unfold delta. rewrite Nat.eqb_refl. ring.
      * intros x Hx D. unfold delta. destruct (Nat.eqb_spec x c); [contradiction|ring].
    + apply sumf_zero. intros x Hx. unfold delta. destruct (Nat.eqb_spec x c); [subst; contradiction|ring].
  - rewrite permR_cons by auto.
    rewrite (sumf_ext _ (fun x => r x * (if in_dec Nat.eq_dec c (without x l) then permR (pre ++ post) (without c (without x l)) else 0))).
    2:{ intros x Hx. rewrite IH by now apply without_NoDup. reflexivity. }
    destruct (in_dec Nat.eq_dec c l) as [I|I].
    + rewrite permR_cons by now apply without_NoDup. 
      transitivity (sumf (fun x => r x * permR (pre ++ post) (without x (without c l))) (filter (fun x => negb (Nat.eqb x c)) l)); [|reflexivity].
      rewrite sumf_filter. apply sumf_ext. intros x Hx.
      destruct (Nat.eqb_spec x c) as [->|D]; cbn [negb].
      * destruct (in_dec _ _ _) as [Q|Q]; [apply without_In in Q; intuition|ring].
      * destruct (in_dec _ _ _) as [Q|Q]; [now rewrite without_comm|]. exfalso. apply Q. apply without_In. auto.
    + apply sumf_zero. intros x Hx. destruct (in_dec _ _ _) as [Q|Q]; [apply without_In in Q; intuition|ring].
Qed.
(** change of one entry *)
Definition bump (E : nat -> nat -> K) (r c : nat) (t : K) : nat -> nat -> K :=
  fun i j => if (Nat.eqb i r && Nat.eqb j c)%bool then E i j + t else E i j.
Lemma permR_bump : forall (E : nat -> nat -> K) r c t rows cols, NoDup rows -> NoDup cols ->
  permR (map (bump E r c t) rows) cols = permR (map E rows) cols +
    t * (if in_dec Nat.eq_dec r rows then if in_dec Nat.eq_dec c cols then permR (map E (without r rows)) (without c cols) else 0 else 0).
Proof.
  intros E r c t rows cols Nr Nc.
  assert (Same : forall l, ~ In r l -> map (bump E r c t) l = map E l).
  { intros l H. apply map_ext_in. intros i Hi. unfold bump. destruct (Nat.eqb_spec i r); [subst; contradiction|reflexivity]. }
  destruct (in_dec Nat.eq_dec r rows) as [I|I].
  - apply in_split in I as (pre & post & ->). apply NoDup_remove in Nr as [N1 N2].
    assert (W : without r (pre ++ r :: post) = pre ++ post).
    { unfold without. rewrite filter_app. cbn [filter]. rewrite Nat.eqb_refl. cbn [negb]. rewrite <- filter_app. apply (without_notin r (pre ++ post) N2). }
    rewrite W, !map_app. cbn [map].
    rewrite (Same pre), (Same post) by (intros Q; apply N2; apply in_or_app; auto).
    transitivity (permR (map E pre ++ (fun x => E r x + t * delta c x) :: map E post) cols).
    + apply permR_ext. apply Forall2_app; [|constructor].
      * apply Forall2_refl'. auto.
      * intros x _. unfold bump, delta. rewrite Nat.eqb_refl. cbn [andb]. destruct (Nat.eqb x c); ring.
      * apply Forall2_refl'. auto.
    + rewrite permR_add, permR_delta by auto. destruct (in_dec Nat.eq_dec c cols); reflexivity.
  - rewrite Same by auto. ring.
Qed.
Lemma pm_bump : forall (E : nat -> nat -> K) r c t rows cols, NoDup rows -> NoDup cols ->
  pm (bump E r c t) rows cols = pm E rows cols +
    t * (if in_dec Nat.eq_dec r rows then if in_dec Nat.eq_dec c cols then pm E (without r rows) (without c cols) else 0 else 0).
Proof.
  intros E r c t rows cols Nr Nc. unfold pm.
  assert (Le : forall x l, In x l -> NoDup l -> S (length (without x l)) = length l).
  { intros x l I N. apply in_split in I as (pre & post & ->). apply NoDup_remove in N as [N1 N2].
    unfold without. rewrite filter_app. cbn [filter]. rewrite Nat.eqb_refl. cbn [negb]. rewrite <- filter_app.
    change (S (length (without x (pre ++ post))) = length (pre ++ x :: post)). rewrite without_notin by auto. rewrite !app_length. cbn [length]. lia. }
  destruct (Nat.ltb_spec (length cols) (length rows)) as [Lt|Ge].
  - transitivity (permR (map (bump (fun c r => E r c) c r t) cols) rows).
    { apply permR_ext. rewrite <- Forall2_map_iff'. intros x Hx i Hi. unfold bump. rewrite andb_comm. reflexivity. }
    rewrite permR_bump by auto. f_equal. f_equal. destruct (in_dec Nat.eq_dec c cols) as [Ic|Ic], (in_dec Nat.eq_dec r rows) as [Ir|Ir]; auto.
    pose proof (Le c cols Ic Nc). pose proof (Le r rows Ir Nr). destruct (Nat.ltb_spec (length (without c cols)) (length (without r rows))); [reflexivity|lia].
  - rewrite permR_bump by auto. f_equal. f_equal. destruct (in_dec Nat.eq_dec r rows) as [Ir|Ir], (in_dec Nat.eq_dec c cols) as [Ic|Ic]; auto.
    pose proof (Le c cols Ic Nc). pose proof (Le r rows Ir Nr). destruct (Nat.ltb_spec (length (without c cols)) (length (without r rows))); [lia|reflexivity].
Qed.
End Perm.

(** *** evaluation in the model *)
Section Eval.
Context {K : CField}.
Local Open Scope cr_scope.
Add Ring K_ring49 : (rth K).
Variable char0 : forall n, (0 < n)%nat -> nat_r (K := K) n <> 0.

Lemma sub_perm_value : forall ry params norb rows cols, rows <> [] -> cols <> [] ->
  sub_permanent (K := K) ry params norb rows cols = Ok (pm (entry params norb) rows cols).
Proof.
  intros ry params norb rows cols Hr Hc. unfold sub_permanent. set (m := fun i j => _).
  assert (E : permanent_ryser (length rows) (length cols) m = permanent_combinatoric (length rows) (length cols) m).
  { apply C25_agrees. intros _. apply char0. apply factorial_pos. }
  rewrite E. assert (G : permanent_combinatoric (length rows) (length cols) m = Ok (pm (entry params norb) rows cols)).
  2:{ destruct ry; exact G. }
  assert (0 < length rows)%nat by (destruct rows; [congruence|cbn; lia]). assert (0 < length cols)%nat by (destruct cols; [congruence|cbn; lia]).
  rewrite comb_value by auto. f_equal. unfold pm. destruct (Nat.ltb (length cols) (length rows)).
  - apply (permR_sub (fun c r => entry params norb r c) cols rows).
  - apply (permR_sub (entry params norb) rows cols).
Qed.
Lemma checks_ok : forall ngem norb cols, (forall c, In c cols -> (c < norb)%nat) ->
  (forallb (fun r => Nat.ltb r ngem) (seq 0 ngem) && forallb (fun c => Nat.ltb c norb) cols)%bool = true.
Proof.
  intros ngem norb cols H. rewrite andb_true_iff, !forallb_forall. split; intros x Hx; apply Nat.ltb_lt; auto. apply in_seq in Hx. lia.
Qed.
Lemma compute_value : forall params ngem norb cols, (0 < ngem)%nat -> cols <> [] -> (forall c, In c cols -> (c < norb)%nat) ->
  compute_permanent (K := K) params ngem norb cols (seq 0 ngem) None = Ok (pm (entry params norb) (seq 0 ngem) cols).
Proof.
  intros params ngem norb cols Hg Hc B. unfold compute_permanent. rewrite checks_ok by auto. cbn [negb].
  apply sub_perm_value; auto. destruct ngem; [lia|discriminate].
Qed.
Lemma filter_Z : forall l (z : Z) c, z = Z.of_nat c -> filter (fun x => negb (Z.of_nat x =? z)%Z) l = without c l.
Proof.
  intros l z c ->. unfold without. apply filter_ext. intros x. f_equal. destruct (Z.eqb_spec (Z.of_nat x) (Z.of_nat c)), (Nat.eqb_spec x c); auto; lia.
Qed.
Lemma without_length : forall x l, In x l -> NoDup l -> S (length (without x l)) = length l.
Proof.
  intros x l I N. apply in_split in I as (pre & post & ->). apply NoDup_remove in N as [N1 N2].
  unfold without. rewrite filter_app. cbn [filter]. rewrite Nat.eqb_refl. cbn [negb]. rewrite <- filter_app.
  change (S (length (without x (pre ++ post))) = length (pre ++ x :: post)). rewrite without_notin by auto. rewrite !app_length. cbn [length]. lia.
Qed.
(** a minor with exactly one empty side is not handled by the code *)
Definition minor_ok (ngem ncol : nat) : Prop := ngem = 1%nat <-> ncol = 1%nat.
Lemma compute_deriv_value : forall params ngem norb cols r c, (r < ngem)%nat -> (c < norb)%nat -> NoDup cols -> In c cols ->
  (forall c, In c cols -> (c < norb)%nat) -> minor_ok ngem (length cols) ->
  compute_permanent (K := K) params ngem norb cols (seq 0 ngem) (Some (Z.of_nat (r * norb + c))) =
  Ok (pm (entry params norb) (without r (seq 0 ngem)) (without c cols)).
Proof.
  intros params ngem norb cols r c Hr Hc N Ic B Mo. unfold compute_permanent. rewrite checks_ok by auto. cbn [negb].
  assert (Dv : (Z.of_nat (r * norb + c) / Z.of_nat norb)%Z = Z.of_nat r).
  { rewrite Nat2Z.inj_add, Nat2Z.inj_mul, Z.div_add_l by lia. rewrite Z.div_small by lia. lia. }
  assert (Md : (Z.of_nat (r * norb + c) mod Z.of_nat norb)%Z = Z.of_nat c).
  { rewrite Nat2Z.inj_add, Nat2Z.inj_mul, Z.add_comm, Z.mod_add, Z.mod_small by lia. reflexivity. }
  rewrite (filter_Z (seq 0 ngem) _ r Dv), (filter_Z cols _ c Md).
  assert (Ir : In r (seq 0 ngem)) by (apply in_seq; lia).
  pose proof (without_length r (seq 0 ngem) Ir (seq_NoDup _ _)) as L1. pose proof (without_length c cols Ic N) as L2. rewrite seq_length in *.
  rewrite (proj2 (Nat.eqb_neq (length (without r (seq 0 ngem))) ngem)) by lia.
  rewrite (proj2 (Nat.eqb_neq (length (without c cols)) (length cols))) by lia. cbn [orb]. unfold minor_ok in Mo.
  destruct (without r (seq 0 ngem)) as [|r0 rows'] eqn:Er, (without c cols) as [|c0 cols'] eqn:Ec; cbn [length Nat.eqb andb] in *; try lia.
  - reflexivity.
  - now apply sub_perm_value.
Qed.

(** *** folds of updates *)
Lemma nth_upd : forall (l : list K) i v k, (i < length l)%nat -> nth k (upd l i v) 0 = if Nat.eqb i k then v else nth k l 0.
Proof.
  induction l as [|x l IH]; intros i v k H; [cbn in H; lia|]. destruct i as [|i], k as [|k]; cbn [upd nth Nat.eqb]; auto. apply IH. cbn in H. lia.
Qed.
Lemma upd_length' : forall (l : list K) i v, length (upd l i v) = length l.
Proof. induction l as [|x l IH]; intros [|i] v; cbn [upd length]; auto. Qed.

(** *** well-formed wavefunctions *)
Record wf_gem (w : gem K) : Prop := mkwf {
  wf_nodup : NoDup (gm_pairs w);
  wf_col : forall p c, (fst p < snd p)%Z -> (col_ind w p = Ok c <-> (0 <= c)%Z /\ nth_error (gm_pairs w) (Z.to_nat c) = Some p);
  wf_len : length (gm_params w) = (gm_ngem w * norbpair w)%nat;
  wf_pos : (0 < gm_ngem w)%nat
}.
Definition idx (w : gem K) (p : Z * Z) : nat := match pair_index p (gm_pairs w) with Some i => i | None => 0%nat end.
Lemma idx_nth : forall w p i, wf_gem w -> nth_error (gm_pairs w) i = Some p -> idx w p = i.
Proof. intros w p i W H. unfold idx. apply pair_index_spec in H; [now rewrite H|apply W]. Qed.
Lemma cols_value : forall w ps, wf_gem w -> (forall p, In p ps -> (fst p < snd p)%Z) -> incl ps (gm_pairs w) ->
  cols_of w ps = Ok (map (idx w) ps).
Proof.
  intros w ps W S I. unfold cols_of. apply mapM_ok_of. intros p Hp. specialize (I p Hp). apply In_nth_error in I as [i Hi].
  rewrite (proj2 (wf_col w W p (Z.of_nat i) (S p Hp))) by (rewrite Nat2Z.id; split; [lia|auto]). cbn [bind]. rewrite Nat2Z.id.
  now rewrite (idx_nth w p i).
Qed.
Lemma cols_incl : forall w ps cols, wf_gem w -> (forall p, In p ps -> (fst p < snd p)%Z) -> cols_of w ps = Ok cols -> incl ps (gm_pairs w).
Proof.
  intros w ps. unfold cols_of. induction ps as [|p ps IH]; intros cols W S E; [intros x []|]. cbn [mapM] in E.
  destruct (col_ind w p) as [c|] eqn:Ec; [|discriminate]. cbn [bind] in E. destruct (mapM _ ps) as [cs|] eqn:Em; [|discriminate].
  intros x [<-|Hx].
  - apply wf_col in Ec as [_ Ec]; auto; [|apply S; now left]. eapply nth_error_In; eauto.
  - eapply (IH cs); eauto. intros; apply S; now right.
Qed.
Lemma idx_lt : forall w p, wf_gem w -> In p (gm_pairs w) -> (idx w p < norbpair w)%nat.
Proof. intros w p W H. apply In_nth_error in H as [i Hi]. rewrite (idx_nth w p i) by auto. apply nth_error_Some. congruence. Qed.
Lemma idx_NoDup : forall w ps, wf_gem w -> NoDup ps -> incl ps (gm_pairs w) -> NoDup (map (idx w) ps).
Proof.
  intros w ps W N I. apply NoDup_map_inj; auto. intros p q Hp Hq E. apply I in Hp, Hq.
  apply In_nth_error in Hp as [i Hi]. apply In_nth_error in Hq as [j Hj]. rewrite (idx_nth w p i), (idx_nth w q j) in E by auto. subst. congruence.
Qed.
Definition good_list (w : gem K) (L : list (scheme * Z)) : Prop :=
  forall p, In p L -> NoDup (fst p) /\ (forall q, In q (fst p) -> (fst q < snd q)%Z) /\ incl (fst p) (gm_pairs w).
Definition term (w : gem K) (p : scheme * Z) : K :=
  match fst p with [] => 0 | _ => sgnr (snd p) * pm (entry (gm_params w) (norbpair w)) (seq 0 (gm_ngem w)) (map (idx w) (fst p)) end.
Lemma olp_loop_value : forall w L v, wf_gem w -> good_list w L -> olp_loop w L v = Ok (v + sumf (term w) L).
Proof.
  intros w L. induction L as [|[ps s] L IH]; intros v W G; cbn [olp_loop].
  - cbn [sumf fold_right]. f_equal. ring.
  - destruct (G (ps, s) (or_introl eq_refl)) as (N & S & I). cbn [fst] in *.
    assert (G' : good_list w L) by (intros p Hp; apply G; now right).
    rewrite sumf_cons. unfold term at 1. cbn [fst snd]. destruct ps as [|p0 ps].
    + rewrite IH by auto. f_equal. ring.
    + rewrite cols_value by auto. cbn [bind]. rewrite compute_value; [|apply W|discriminate|].
      * cbn [bind]. rewrite IH by auto. f_equal. ring.
      * intros c Hc. apply in_map_iff in Hc as (q & <- & Hq). apply idx_lt; auto.
Qed.
Lemma olp_loop_good : forall w L v v', wf_gem w -> (forall p, In p L -> NoDup (fst p) /\ (forall q, In q (fst p) -> (fst q < snd q)%Z)) ->
  olp_loop w L v = Ok v' -> good_list w L.
Proof.
  intros w L. induction L as [|[ps s] L IH]; intros v v' W G E p Hp; [destruct Hp|]. cbn [olp_loop] in E.
  destruct (G (ps, s) (or_introl eq_refl)) as (N & S). cbn [fst] in *.
  assert (Tl : forall v, olp_loop w L v = Ok v' -> In p L -> NoDup (fst p) /\ (forall q, In q (fst p) -> (fst q < snd q)%Z) /\ incl (fst p) (gm_pairs w)).
  { intros v0 E0 Hp0. apply (IH v0 v' W); auto. intros q Hq. apply G. now right. }
  destruct ps as [|p0 ps].
  - destruct Hp as [<-|Hp]; [|eapply Tl; eauto]. cbn [fst]. repeat split; auto. intros x [].
  - destruct (cols_of w (p0 :: ps)) as [cols|] eqn:Ec; [|discriminate]. cbn [bind] in E.
    destruct (compute_permanent _ _ _ _ _ _) as [x|]; [|discriminate]. cbn [bind] in E.
    destruct Hp as [<-|Hp]; [|eapply Tl; eauto]. cbn [fst]. repeat split; auto. eapply cols_incl; eauto.
Qed.

(** *** derivatives *)
Definition dval (w : gem K) (ps : scheme) (r c : nat) : K :=
  pm (entry (gm_params w) (norbpair w)) (without r (seq 0 (gm_ngem w))) (without c (map (idx w) ps)).
Lemma deriv_inner_value : forall w ps s rcs output, wf_gem w -> NoDup ps -> incl ps (gm_pairs w) -> minor_ok (gm_ngem w) (length ps) ->
  (forall r c, In (r, c) rcs -> (r < gm_ngem w)%nat /\ In c (map (idx w) ps)) -> length output = length (gm_params w) ->
  exists o, deriv_inner w (map (idx w) ps) s rcs output = Ok o /\ length o = length output /\
    forall k, (k < length output)%nat -> nth k o 0 = nth k output 0 +
      sumf (fun rc => if Nat.eqb (fst rc * norbpair w + snd rc) k then sgnr s * dval w ps (fst rc) (snd rc) else 0) rcs.
Proof.
  intros w ps s rcs output W N I Mo. revert output. induction rcs as [|[r c] rcs IH]; intros output H L; cbn [deriv_inner].
  - exists output. repeat split; auto. intros k _. cbn [sumf fold_right]. ring.
  - destruct (H r c (or_introl eq_refl)) as [Hr Hc].
    assert (Lt : forall c, In c (map (idx w) ps) -> (c < norbpair w)%nat).
    { intros x Hx. apply in_map_iff in Hx as (q & <- & Hq). apply idx_lt; auto. }
    assert (Hi : (r * norbpair w + c < length output)%nat) by (rewrite L, (wf_len w W); pose proof (Lt c Hc); nia).
    rewrite compute_deriv_value; auto; [|now apply idx_NoDup|now rewrite map_length]. cbn [bind].
    destruct (IH (upd output (r * norbpair w + c) (nth (r * norbpair w + c) output 0 + sgnr s * dval w ps r c))) as (o & E & Lo & V).
    { intros; apply H; now right. }
    { now rewrite upd_length'. }
    exists o. split; [exact E|]. rewrite upd_length' in Lo. split; [congruence|]. intros k Hk. rewrite V by now rewrite upd_length'.
    rewrite nth_upd by auto. rewrite sumf_cons. cbn [fst snd]. destruct (Nat.eqb_spec (r * norbpair w + c) k) as [->|]; ring.
Qed.
Definition dterm (w : gem K) (r c : nat) (p : scheme * Z) : K :=
  if in_dec Nat.eq_dec c (map (idx w) (fst p)) then sgnr (snd p) * dval w (fst p) r c else 0.
Lemma olp_deriv_value : forall w L output, wf_gem w -> good_list w L ->
  (forall p, In p L -> fst p <> [] -> minor_ok (gm_ngem w) (length (fst p))) -> length output = length (gm_params w) ->
  exists o, olp_deriv_loop w L output = Ok o /\ length o = length output /\
    forall r c, (r < gm_ngem w)%nat -> (c < norbpair w)%nat ->
      nth (r * norbpair w + c) o 0 = nth (r * norbpair w + c) output 0 + sumf (dterm w r c) L.
Proof.
  intros w L. induction L as [|[ps s] L IH]; intros output W G Mo Lo; cbn [olp_deriv_loop].
  - exists output. repeat split; auto. intros. cbn [sumf fold_right]. ring.
  - destruct (G (ps, s) (or_introl eq_refl)) as (N & S & I). cbn [fst] in *.
    assert (G' : good_list w L) by (intros p Hp; apply G; now right).
    assert (Mo' : forall p, In p L -> fst p <> [] -> minor_ok (gm_ngem w) (length (fst p))) by (intros; apply Mo; auto; now right).
    destruct ps as [|p0 ps].
    + destruct (IH output W G' Mo' Lo) as (o & E & Lo' & V). exists o. repeat split; auto. intros r c Hr Hc. rewrite V by auto. rewrite sumf_cons.
      unfold dterm at 2. cbn [fst map]. destruct (in_dec _ _ _) as [Q|Q]; [destruct Q|ring].
    + rewrite cols_value by auto. cbn [bind]. set (ps' := p0 :: ps) in *.
      destruct (deriv_inner_value w ps' s (list_prod (seq 0 (gm_ngem w)) (map (idx w) ps')) output W N I) as (o1 & E1 & L1 & V1); auto.
      { apply (Mo (ps', s)); [now left|discriminate]. }
      { intros r c H. apply in_prod_iff in H as [H1 H2]. apply in_seq in H1. split; [lia|auto]. }
      rewrite E1. cbn [bind]. destruct (IH o1 W G' Mo') as (o & E & Lo' & V); [congruence|]. exists o. split; auto. split; [congruence|].
      intros r c Hr Hc. rewrite V by auto. rewrite V1 by (rewrite Lo, (wf_len w W); nia). rewrite sumf_cons.
      set (F := fun rc : nat * nat => if Nat.eqb (fst rc * norbpair w + snd rc) (r * norbpair w + c) then sgnr s * dval w ps' (fst rc) (snd rc) else 0). assert (EF : sumf F (list_prod (seq 0 (gm_ngem w)) (map (idx w) ps')) = dterm w r c (ps', s)); [|rewrite EF; symmetry; apply (Radd_assoc (rth K))].
      assert (Fz : forall r' c', In c' (map (idx w) ps') -> (r', c') <> (r, c) -> F (r', c') = 0).
      { intros r' c' Hc' D. unfold F. cbn [fst snd]. destruct (Nat.eqb_spec (r' * norbpair w + c') (r * norbpair w + c)) as [Q|]; [|reflexivity].
        exfalso. apply D. assert (c' < norbpair w)%nat by (apply in_map_iff in Hc' as (q & <- & Hq); apply idx_lt; auto).
        assert (r' = r) by nia. subst. f_equal. lia. }
      unfold dterm. cbn [fst snd]. destruct (in_dec Nat.eq_dec c (map (idx w) ps')) as [Q|Q].
      * rewrite (sumf_single F _ (r, c)).
        -- unfold F. cbn [fst snd]. rewrite Nat.eqb_refl. reflexivity.
        -- apply list_prod_NoDup; [apply seq_NoDup|now apply idx_NoDup].
        -- apply in_prod; auto. apply in_seq. lia.
        -- intros [r' c'] H D. apply in_prod_iff in H as [_ H]. now apply Fz.
      * apply sumf_zero. intros [r' c'] H. apply in_prod_iff in H as [_ H]. apply Fz; auto. intros [= _ ->]. contradiction.
Qed.
(** one entry changed *)
Definition with_gparams (w : gem K) (l : list K) : gem K := mkgem (gm_class w) (gm_nelec w) (gm_nspin w) (gm_ngem w) (gm_pairs w) l.
Lemma wf_with : forall w l, wf_gem w -> length l = length (gm_params w) -> wf_gem (with_gparams w l).
Proof. intros w l W L. constructor; cbn; try apply W. rewrite L. apply W. Qed.
Lemma term_bump : forall w p r c t, wf_gem w -> NoDup (fst p) -> incl (fst p) (gm_pairs w) -> (r < gm_ngem w)%nat -> (c < norbpair w)%nat ->
  let k := (r * norbpair w + c)%nat in
  term (with_gparams w (upd (gm_params w) k (nth k (gm_params w) 0 + t))) p = term w p + t * dterm w r c p.
Proof.
  intros w [ps s] r c t W N I Hr Hc k. cbn [fst] in *. unfold term, dterm. cbn [fst snd with_gparams gm_params gm_ngem norbpair gm_pairs].
  destruct ps as [|p0 ps]; [cbn [map]; destruct (in_dec _ _ _) as [[]|]; ring|]. set (ps' := p0 :: ps) in *.
  change (idx (with_gparams w (upd (gm_params w) k (nth k (gm_params w) 0 + t)))) with (idx w).
  change (norbpair (with_gparams w (upd (gm_params w) k (nth k (gm_params w) 0 + t)))) with (norbpair w).
  assert (Lt : forall c, In c (map (idx w) ps') -> (c < norbpair w)%nat).
  { intros x Hx. apply in_map_iff in Hx as (q & <- & Hq). apply idx_lt; auto. }
  assert (X : pm (entry (upd (gm_params w) k (nth k (gm_params w) 0 + t)) (norbpair w)) (seq 0 (gm_ngem w)) (map (idx w) ps')
     = pm (bump (entry (gm_params w) (norbpair w)) r c t) (seq 0 (gm_ngem w)) (map (idx w) ps')).
  { assert (En : forall i j, (j < norbpair w)%nat -> entry (upd (gm_params w) k (nth k (gm_params w) 0 + t)) (norbpair w) i j
        = bump (entry (gm_params w) (norbpair w)) r c t i j).
    { intros i j Hj. unfold entry, bump. rewrite nth_upd by (rewrite (wf_len w W); unfold k; nia).
      destruct (Nat.eqb_spec k (i * norbpair w + j)) as [E|E].
      - unfold k in *. assert (i = r) by nia. assert (j = c) by nia. subst. rewrite !Nat.eqb_refl. reflexivity.
      - destruct (Nat.eqb_spec i r), (Nat.eqb_spec j c); cbn [andb]; try reflexivity. subst. contradiction. }
    unfold pm. destruct (Nat.ltb _ _); apply permR_ext; rewrite <- Forall2_map_iff'; intros x Hx y Hy; apply En; auto. }
  rewrite X, pm_bump; [|apply seq_NoDup|now apply idx_NoDup].
  destruct (in_dec Nat.eq_dec r (seq 0 (gm_ngem w))) as [Q|Q]; [|exfalso; apply Q, in_seq; lia].
  destruct (in_dec Nat.eq_dec c (map (idx w) ps')) as [Q'|Q']; unfold dval; ring.
Qed.
End Eval.
